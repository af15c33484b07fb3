(** * Proofs about the scene tree (C39). *)
From Coq Require Import String.
From Verif Require Import Base Dbl Dbl_facts Decimal Shadow Spec_shadow Shadow_proofs Streams Spec_text
  Handlers Spec_io Handlers_proofs T3ds_proofs.
Close Scope string_scope.

Lemma first_child_named l n e : first_child l (lit n) = Some e <-> first_named l n e.
Proof.
  unfold first_child, first_named. rewrite find_split. split; intros (pre & post & A & B & C); exists pre, post.
  - split; auto. split; [apply str_eqb_eq in B; destruct e; exact B|]. intros x Hx. specialize (C x Hx). apply str_eqb_neq in C. destruct x; exact C.
  - split; auto. split; [apply str_eqb_eq; destruct e; exact B|]. intros x Hx. apply str_eqb_neq. specialize (C x Hx). destruct x; exact C.
Qed.
Lemma first_child_none l n : first_child l (lit n) = None <-> none_named l n.
Proof.
  unfold first_child, none_named. split.
  - intros H x Hx. pose proof (find_none _ _ H x Hx) as G. apply str_eqb_neq in G. destruct x; exact G.
  - intros H. destruct (find _ l) as [e|] eqn:E; auto. apply find_some in E as [E1 E2]. apply str_eqb_eq in E2. exfalso. apply (H e E1). destruct e; exact E2.
Qed.
Lemma child_Ok l n e : child l (lit n) = Ok e <-> reach l [n] e.
Proof.
  unfold child. split.
  - destruct (first_child l (lit n)) eqn:E; [|discriminate]. intros H; apply Ok_inj in H; subst. constructor. now apply first_child_named.
  - intros H. inversion H as [? ? ? G|? ? ? ? ? G G2]; subst; [|inversion G2]. apply first_child_named in G. now rewrite G.
Qed.
Lemma child_total l n : (exists e, child l (lit n) = Ok e) \/ child l (lit n) = UB.
Proof. unfold child. destruct (first_child l (lit n)); eauto. Qed.
Lemma reach_cons l n ns e : ns <> [] -> (reach l (n :: ns) e <-> exists e1, child l (lit n) = Ok e1 /\ reach (x_kids e1) ns e).
Proof.
  intros Hn. split.
  - intros H. inversion H as [? ? ? G|? ? e1 ? ? G1 G2]; subst; [congruence|]. exists e1. split; [apply child_Ok; constructor; auto|].
    destruct e1; exact G2.
  - intros (e1 & H1 & H2). apply child_Ok in H1. inversion H1 as [? ? ? G|? ? ? ? ? G G2]; subst; [|inversion G2].
    eapply reach_more; [exact G|]. destruct e1; exact H2.
Qed.
Lemma reach_fun : forall ns l e e', reach l ns e -> reach l ns e' -> e = e'.
Proof.
  intros ns l e e' H. revert e'. induction H as [l n e H|l n e1 ns e H1 H2 IH]; intros e' H'.
  - inversion H' as [? ? ? G|? ? ? ? ? G G2]; subst; [|inversion G2]. apply first_child_named in H, G. congruence.
  - inversion H' as [? ? ? G|? ? e2 ? ? G G2]; subst; [inversion H2|]. apply first_child_named in H1, G. rewrite H1 in G. injection G as <-. auto.
Qed.

Lemma query_double_Ok X e d : query_double X e = Ok d <-> reads_double X e d.
Proof.
  unfold query_double, reads_double. destruct e as [n a t k]. cbn [x_text elem_text]. split.
  - destruct t as [t|]; [|discriminate]. destruct (text_double X t) eqn:E; [|discriminate]. intros H. apply Ok_inj in H. subst. eauto.
  - intros (t' & -> & H). now rewrite H.
Qed.
Lemma query_double_cases X e : (exists d, query_double X e = Ok d) \/ query_double X e = Throw RuntimeError.
Proof. unfold query_double. destruct (x_text e) as [t|]; auto. destruct (text_double X t); eauto. Qed.

Lemma bind_child_UB {A} l n (k : xelem -> outcome A) : (let* e := child l (lit n) in k e) = UB <->
  none_named l n \/ exists e, reach l [n] e /\ k e = UB.
Proof.
  rewrite <- first_child_none. destruct (child_total l n) as [[e E]|E].
  - rewrite E. cbn [bind]. split.
    + intros H. right. exists e. split; auto. now apply child_Ok.
    + intros [H|(e' & H1 & H2)]; [unfold child in E; rewrite H in E; discriminate|]. apply child_Ok in H1. congruence.
  - rewrite E. cbn [bind]. split; auto. intros _. left. unfold child in E. destruct (first_child l (lit n)); [discriminate|auto].
Qed.

(** one number below the root *)
Lemma bbox_value_Ok X d k v : bbox_value X d (lit k) = Ok v <-> exists e, reach d ["Chantier_Bati3D"; "Bbox"; k]%string e /\ reads_double X e v.
Proof.
  unfold bbox_value. change k_root with (lit "Chantier_Bati3D"). change k_bbox with (lit "Bbox"). split.
  - intros H. apply bind_Ok in H as (r & E1 & H). apply bind_Ok in H as (b & E2 & H). apply bind_Ok in H as (e & E3 & H).
    exists e. split; [|now apply query_double_Ok]. apply reach_cons; [discriminate|]. exists r. split; auto.
    apply reach_cons; [discriminate|]. exists b. split; auto. now apply child_Ok.
  - intros (e & H & Hv). apply reach_cons in H as (r & E1 & H); [|discriminate]. apply reach_cons in H as (b & E2 & H); [|discriminate].
    apply child_Ok in H. rewrite E1; cbn [bind]; rewrite E2; cbn [bind]; rewrite H; cbn [bind]. now apply query_double_Ok.
Qed.
Lemma C39_bbox_proof : forall X d b, tree_bbox X d = Ok b <->
  exists x0 x1 y0 y1 z0 z1, b = mkBbox x0 x1 y0 y1 z0 z1 /\
    declared_bound X d "Xmin" x0 /\ declared_bound X d "Xmax" x1 /\ declared_bound X d "Ymin" y0 /\
    declared_bound X d "Ymax" y1 /\ declared_bound X d "Zmin" z0 /\ declared_bound X d "Zmax" z1.
Proof.
  intros X d b. unfold tree_bbox, declared_bound.
  change k_xmin with (lit "Xmin"). change k_xmax with (lit "Xmax"). change k_ymin with (lit "Ymin").
  change k_ymax with (lit "Ymax"). change k_zmin with (lit "Zmin"). change k_zmax with (lit "Zmax"). split.
  - intros H. apply bind_Ok in H as (x0 & E0 & H). apply bind_Ok in H as (x1 & E1 & H). apply bind_Ok in H as (y0 & E2 & H).
    apply bind_Ok in H as (y1 & E3 & H). apply bind_Ok in H as (z0 & E4 & H). apply bind_Ok in H as (z1 & E5 & H). apply Ok_inj in H.
    exists x0, x1, y0, y1, z0, z1. apply bbox_value_Ok in E0, E1, E2, E3, E4, E5. repeat split; auto.
  - intros (x0 & x1 & y0 & y1 & z0 & z1 & -> & E0 & E1 & E2 & E3 & E4 & E5).
    apply bbox_value_Ok in E0, E1, E2, E3, E4, E5. rewrite E0, E1, E2, E3, E4, E5. reflexivity.
Qed.

Lemma C39_pivot_declared_proof : forall X d p q, reach d ["Chantier_Bati3D"; "Pivot"]%string p ->
  (tree_pivot X d = Ok q <-> (exists ex ey ez, reach (elem_kids p) ["offset_x"]%string ex /\ reach (elem_kids p) ["offset_y"]%string ey /\
      reach (elem_kids p) ["offset_z"]%string ez /\ reads_double X ex (px q) /\ reads_double X ey (py q) /\ reads_double X ez (pz q))).
Proof.
  intros X d p q H. apply reach_cons in H as (r & E1 & H); [|discriminate].
  inversion H as [? ? ? G|? ? ? ? ? G G2]; subst; [|inversion G2]. apply first_child_named in G.
  unfold tree_pivot. change k_root with (lit "Chantier_Bati3D"). rewrite E1. cbn [bind]. change k_pivot with (lit "Pivot"). rewrite G.
  change k_ox with (lit "offset_x"). change k_oy with (lit "offset_y"). change k_oz with (lit "offset_z").
  assert (K : elem_kids p = x_kids p) by (destruct p; reflexivity). rewrite K. split.
  - intros F. apply bind_Ok in F as (ex & A1 & F). apply bind_Ok in F as (x & A2 & F). apply bind_Ok in F as (ey & A3 & F).
    apply bind_Ok in F as (y & A4 & F). apply bind_Ok in F as (ez & A5 & F). apply bind_Ok in F as (z & A6 & F). apply Ok_inj in F. subst q. cbn [px py pz].
    exists ex, ey, ez. apply child_Ok in A1, A3, A5. apply query_double_Ok in A2, A4, A6. repeat (split; [assumption|]). assumption.
  - intros (ex & ey & ez & A1 & A3 & A5 & A2 & A4 & A6). apply child_Ok in A1, A3, A5. apply query_double_Ok in A2, A4, A6.
    rewrite A1; cbn [bind]; rewrite A2; cbn [bind]; rewrite A3; cbn [bind]; rewrite A4; cbn [bind]; rewrite A5; cbn [bind]; rewrite A6; cbn [bind].
    destruct q; reflexivity.
Qed.
Lemma C39_pivot_default_proof : forall X d r, reach d ["Chantier_Bati3D"]%string r -> none_named (elem_kids r) "Pivot" ->
  (forall b, tree_bbox X d = Ok b -> tree_pivot X d = Ok (mkPoint (ddiv (dadd (xmax b) (xmin b)) (dofZ 2)) (ddiv (dadd (ymax b) (ymin b)) (dofZ 2)) (ddiv (dadd (zmax b) (zmin b)) (dofZ 2)))) /\
  (forall e, tree_bbox X d = Throw e -> tree_pivot X d = Throw e) /\ (tree_bbox X d = UB -> tree_pivot X d = UB).
Proof.
  intros X d r H Hn. apply child_Ok in H. apply first_child_none in Hn.
  unfold tree_pivot. change k_root with (lit "Chantier_Bati3D"). rewrite H. cbn [bind]. change k_pivot with (lit "Pivot").
  assert (K : elem_kids r = x_kids r) by (destruct r; reflexivity). rewrite K in Hn. rewrite Hn.
  split; [|split]; intros; rewrite H0; reflexivity.
Qed.
Lemma C39_epsg_proof : forall X d n, tree_epsg X d = Ok n <-> exists e, reach d ["Chantier_Bati3D"; "Code_ESPG_horizontal"]%string e /\
  ((exists t v, elem_text e = Some t /\ text_unsigned X t = Some v /\ n = (v mod 65536)%N) \/
   ((forall t, elem_text e = Some t -> text_unsigned X t = None) /\ n = 2154%N)).
Proof.
  intros X d n. unfold tree_epsg. change k_root with (lit "Chantier_Bati3D"). change k_epsg with (lit "Code_ESPG_horizontal"). split.
  - intros H. apply bind_Ok in H as (r & E1 & H). apply bind_Ok in H as (e & E2 & H). cbv zeta in H. apply Ok_inj in H.
    exists e. split; [apply reach_cons; [discriminate|]; exists r; split; auto; now apply child_Ok|].
    destruct e as [en ea et ek]. cbn [x_text elem_text] in *. destruct et as [t|].
    + destruct (text_unsigned X t) as [v|] eqn:E; [left; exists t, v; auto|]. right. split; [|subst; reflexivity].
      intros t' G. injection G as <-. auto.
    + right. split; [discriminate|subst; reflexivity].
  - intros (e & H & G). apply reach_cons in H as (r & E1 & H); [|discriminate]. apply child_Ok in H. rewrite E1; cbn [bind]; rewrite H; cbn [bind].
    destruct e as [en ea et ek]. cbn [x_text elem_text] in *. cbv zeta. f_equal. destruct G as [(t & v & -> & G & ->)|[G ->]].
    + now rewrite G.
    + destruct et as [t|]; [rewrite (G t eq_refl)|]; reflexivity.
Qed.
Lemma C39_epsg_undefined_proof : forall X d, (forall n, tree_epsg X d <> Ok n) -> tree_epsg X d = UB.
Proof.
  intros X d H. unfold tree_epsg in *. change k_root with (lit "Chantier_Bati3D") in *. change k_epsg with (lit "Code_ESPG_horizontal") in *.
  destruct (child_total d "Chantier_Bati3D") as [[r E]|E]; rewrite E in *; cbn [bind] in *; auto.
  destruct (child_total (x_kids r) "Code_ESPG_horizontal") as [[e E2]|E2]; rewrite E2 in *; cbn [bind] in *; auto. exfalso. eapply H. reflexivity.
Qed.

Lemma attribute_has e k v : attribute (x_attrs e) (lit k) = Some v <-> has_attr e k v.
Proof.
  destruct e as [en ea et ek]. unfold has_attr. cbn [x_attrs elem_attrs]. split.
  - induction ea as [|[a b] ea IH]; [discriminate|]. cbn [attribute]. destruct (str_eqb a (lit k)) eqn:E.
    + intros H. injection H as <-. apply str_eqb_eq in E. subst a. exists [], ea. split; [reflexivity|intros x []].
    + intros H. destruct (IH H) as (pre & post & -> & G). exists ((a, b) :: pre), post. split; [reflexivity|]. apply str_eqb_neq in E. intros x [<-|Hx]; auto.
  - intros (pre & post & -> & G). induction pre as [|[a b] pre IH]; cbn [attribute app].
    + assert (R : str_eqb (lit k) (lit k) = true) by (now apply str_eqb_eq). now rewrite R.
    + assert (R : str_eqb a (lit k) = false) by (apply str_eqb_neq; apply (G (a, b)); left; auto). rewrite R. apply IH. intros; apply G; right; auto.
Qed.
Lemma id_of_Ok e v : id_of e k_id = Ok v <-> has_attr e "Id" v.
Proof.
  rewrite <- attribute_has. unfold id_of. change k_id with (lit "Id"). destruct (attribute (x_attrs e) (lit "Id")) as [w|].
  - split; intros H; [apply Ok_inj in H; now subst|injection H as <-; reflexivity].
  - split; discriminate.
Qed.
Lemma id_of_cases e : (exists v, id_of e k_id = Ok v) \/ id_of e k_id = UB.
Proof. unfold id_of. destruct (attribute (x_attrs e) k_id); eauto. Qed.
Lemma filter_interleave {A} (p : A -> bool) l : interleave (filter p l) (filter (fun x => negb (p x)) l) l.
Proof. induction l as [|a l IH]; cbn; [constructor|]. destruct (p a); cbn; constructor; auto. Qed.
Lemma interleave_filter {A} (p : A -> bool) a b l : interleave a b l -> (forall x, In x a -> p x = true) -> (forall x, In x b -> p x = false) -> filter p l = a.
Proof.
  induction 1 as [|x a b l H IH|x a b l H IH]; intros Ha Hb; cbn; auto.
  - rewrite (Ha x) by (left; auto). f_equal. apply IH; auto. intros; apply Ha; right; auto.
  - rewrite (Hb x) by (left; auto). apply IH; auto. intros; apply Hb; right; auto.
Qed.
Lemma buildings_filter c bs : buildings_of c bs <-> filter (fun e => str_eqb (x_name e) k_building) (x_kids c) = bs.
Proof.
  unfold buildings_of. change k_building with (lit "Building"). assert (K : elem_kids c = x_kids c) by (destruct c; reflexivity). rewrite K.
  split.
  - intros (os & I & A & B). eapply interleave_filter; [exact I| |].
    + intros x Hx. apply str_eqb_eq. specialize (A x Hx). destruct x; exact A.
    + intros x Hx. apply str_eqb_neq. specialize (B x Hx). destruct x; exact B.
  - intros <-. eexists. split; [apply filter_interleave|]. split; intros x Hx; apply filter_In in Hx as [_ Hx].
    + apply str_eqb_eq in Hx. destruct x; exact Hx.
    + apply negb_true_iff, str_eqb_neq in Hx. destruct x; exact Hx.
Qed.
Lemma omapM_Forall2 {A B} (f : A -> outcome B) l r : Forall2 (fun a b => f a = Ok b) l r -> omapM f l = Ok r.
Proof. induction 1 as [|a b l r H F IH]; cbn; auto. rewrite H. cbn [bind]. now rewrite IH. Qed.
Lemma C39_buildings_proof : forall d ids, tree_building_ids d = Ok ids <->
  exists c bs, reach d ["Chantier_Bati3D"; "CityModel"]%string c /\ buildings_of c bs /\ Forall2 (fun e id => has_attr e "Id" id) bs ids.
Proof.
  intros d ids. unfold tree_building_ids. change k_root with (lit "Chantier_Bati3D"). change k_model with (lit "CityModel"). split.
  - intros H. apply bind_Ok in H as (r & E1 & H). apply bind_Ok in H as (c & E2 & H).
    exists c. eexists. split; [apply reach_cons; [discriminate|]; exists r; split; auto; now apply child_Ok|].
    split; [now apply buildings_filter|]. apply omapM_Ok in H. clear - H. induction H; constructor; auto. now apply id_of_Ok.
  - intros (c & bs & H & B & F). apply reach_cons in H as (r & E1 & H); [|discriminate]. apply child_Ok in H. rewrite E1; cbn [bind]; rewrite H; cbn [bind].
    apply buildings_filter in B. rewrite B. apply omapM_Forall2. clear - F. induction F; constructor; auto. now apply id_of_Ok.
Qed.
Lemma omapM_not_throw {A B} (f : A -> outcome B) l : (forall a, (exists b, f a = Ok b) \/ f a = UB) -> (exists r, omapM f l = Ok r) \/ omapM f l = UB.
Proof.
  intros H. induction l as [|a l IH]; [left; eexists; reflexivity|]. cbn. destruct (H a) as [[b E]|E]; rewrite E; cbn [bind]; auto.
  destruct IH as [[r E']|E']; rewrite E'; cbn [bind]; eauto.
Qed.
Lemma C39_terrain_proof : forall d id, tree_terrain_id d = Ok id <->
  exists e, reach d ["Chantier_Bati3D"; "CityModel"; "TINRelief"]%string e /\ has_attr e "Id" id.
Proof.
  intros d id. unfold tree_terrain_id. change k_root with (lit "Chantier_Bati3D"). change k_model with (lit "CityModel"). change k_relief with (lit "TINRelief"). split.
  - intros H. apply bind_Ok in H as (r & E1 & H). apply bind_Ok in H as (b & E2 & H). apply bind_Ok in H as (e & E3 & H).
    exists e. split; [|now apply id_of_Ok]. apply reach_cons; [discriminate|]. exists r. split; auto.
    apply reach_cons; [discriminate|]. exists b. split; auto. now apply child_Ok.
  - intros (e & H & Hv). apply reach_cons in H as (r & E1 & H); [|discriminate]. apply reach_cons in H as (b & E2 & H); [|discriminate].
    apply child_Ok in H. rewrite E1; cbn [bind]; rewrite E2; cbn [bind]; rewrite H; cbn [bind]. now apply id_of_Ok.
Qed.
Lemma C39_ids_undefined_proof : forall d, ((exists ids, tree_building_ids d = Ok ids) \/ tree_building_ids d = UB) /\
  ((exists id, tree_terrain_id d = Ok id) \/ tree_terrain_id d = UB).
Proof.
  intros d. unfold tree_building_ids, tree_terrain_id. change k_root with (lit "Chantier_Bati3D"). change k_model with (lit "CityModel"). change k_relief with (lit "TINRelief").
  destruct (child_total d "Chantier_Bati3D") as [[r E]|E]; rewrite E; cbn [bind]; auto.
  destruct (child_total (x_kids r) "CityModel") as [[c E2]|E2]; rewrite E2; cbn [bind]; auto.
  split; [apply omapM_not_throw; intros; apply id_of_cases|].
  destruct (child_total (x_kids c) "TINRelief") as [[e E3]|E3]; rewrite E3; cbn [bind]; auto. apply id_of_cases.
Qed.
(** the first missing element of the bounding box, in reading order, is a null dereference; the first unreadable one throws *)
Lemma bbox_value_UB X d k : bbox_value X d (lit k) = UB <-> (forall e, ~ reach d ["Chantier_Bati3D"; "Bbox"; k]%string e).
Proof.
  unfold bbox_value. change k_root with (lit "Chantier_Bati3D"). change k_bbox with (lit "Bbox"). split.
  - intros H e G. apply reach_cons in G as (r & E1 & G); [|discriminate]. apply reach_cons in G as (b & E2 & G); [|discriminate].
    apply child_Ok in G. rewrite E1 in H; cbn [bind] in H; rewrite E2 in H; cbn [bind] in H; rewrite G in H; cbn [bind] in H.
    destruct (query_double_cases X e) as [[v Hv]|Hv]; rewrite Hv in H; discriminate.
  - intros H. destruct (child_total d "Chantier_Bati3D") as [[r E]|E]; rewrite E; cbn [bind]; auto.
    destruct (child_total (x_kids r) "Bbox") as [[b E2]|E2]; rewrite E2; cbn [bind]; auto.
    destruct (child_total (x_kids b) k) as [[e E3]|E3]; rewrite E3; cbn [bind]; auto. exfalso. apply (H e).
    apply reach_cons; [discriminate|]. exists r. split; auto. apply reach_cons; [discriminate|]. exists b. split; auto. now apply child_Ok.
Qed.
Lemma bbox_value_cases X d k : (exists v, bbox_value X d (lit k) = Ok v) \/ bbox_value X d (lit k) = UB \/ bbox_value X d (lit k) = Throw RuntimeError.
Proof.
  unfold bbox_value. change k_root with (lit "Chantier_Bati3D"). change k_bbox with (lit "Bbox").
  destruct (child_total d "Chantier_Bati3D") as [[r E]|E]; rewrite E; cbn [bind]; auto.
  destruct (child_total (x_kids r) "Bbox") as [[b E2]|E2]; rewrite E2; cbn [bind]; auto.
  destruct (child_total (x_kids b) k) as [[e E3]|E3]; rewrite E3; cbn [bind]; auto.
  destruct (query_double_cases X e) as [H|H]; auto.
Qed.
Lemma C39_bbox_undefined_proof : forall X d, (tree_bbox X d = UB <-> exists pre k post, bound_names = pre ++ k :: post /\
    (forall k', In k' pre -> exists v, declared_bound X d k' v) /\ forall e, ~ reach d ["Chantier_Bati3D"; "Bbox"; k]%string e).
Proof.
  intros X d. 
  assert (S : forall ks (k : list dbl -> outcome bbox) acc, (forall l, k l <> UB) ->
     ((fix go ks acc := match ks with [] => k acc | n :: ks => let* v := bbox_value X d (lit n) in go ks (acc ++ [v]) end) ks acc = UB <->
      exists pre n post, ks = pre ++ n :: post /\ (forall k', In k' pre -> exists v, declared_bound X d k' v) /\ forall e, ~ reach d ["Chantier_Bati3D"; "Bbox"; n]%string e)).
  { intros ks k. induction ks as [|n ks IH]; intros acc Hk.
    - split; [intros H; exfalso; apply (Hk acc H)|]. intros (pre & n & post & E & _). destruct pre; discriminate.
    - destruct (bbox_value_cases X d n) as [[v E]|[E|E]].
      + rewrite E. cbn [bind]. rewrite IH by auto. split.
        * intros (pre & n' & post & -> & A & B). exists (n :: pre), n', post. split; auto. split; auto. intros k' [<-|Hk']; auto. exists v. now apply bbox_value_Ok.
        * intros (pre & n' & post & E' & A & B). destruct pre as [|x pre]; injection E' as <- ->.
          -- exfalso. apply bbox_value_UB with (X := X) in B. congruence.
          -- exists pre, n', post. split; auto. split; auto. intros; apply A; right; auto.
      + rewrite E. cbn [bind]. split; auto. intros _. exists [], n, ks. split; auto. split; [intros k' []|]. apply (bbox_value_UB X); auto.
      + rewrite E. cbn [bind]. split; [discriminate|]. intros (pre & n' & post & E' & A & B). exfalso. destruct pre as [|x pre]; injection E' as <- ->.
        * apply bbox_value_UB with (X := X) in B. congruence.
        * destruct (A n) as [v Hv]; [left; auto|]. apply bbox_value_Ok in Hv. congruence. }
  specialize (S bound_names (fun l => match l with [a; b; c; e; f; g] => Ok (mkBbox a b c e f g) | _ => Throw RuntimeError end) []).
  rewrite <- S; [reflexivity|]. intros l. repeat (destruct l as [|? l]; try discriminate).
Qed.
