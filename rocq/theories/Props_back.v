(** * Property C104: conversions there and back. *)
From Coq Require Import String.
From Verif Require Import Base Dbl Dbl_facts Geom Decimal Shadow Spec_shadow Shadow_proofs Streams Spec_text Off_proofs Handlers Spec_io Handlers_proofs Surface Spec_surface
  Surface_proofs Obj_proofs Edges_proofs Props_text Props_obj Objw_proofs Props_cli2 Props_surface Projection Raster Ogr Dq_proofs Export Spec_export Spec_arith Props_mesheq Scenefile_proofs Props_io Spec_scenes Scenes_proofs Props_scenes Props_export Cli Spec_cli Props_cli Spec_convert Props_convert Spec_back.
Import List.
Close Scope string_scope.
Open Scope nat_scope.

(** ** Numbers and points *)
Lemma real_same x y : real_double x -> deqb x y = true -> real_double y.
Proof. intros R E. apply deqb_eq in E as [<-|(s & t & -> & ->)]; [exact R|split; reflexivity]. Qed.
Lemma real_not_nan x : real_double x -> disnan x = false.
Proof. intros [_ F]. destruct x; auto; discriminate. Qed.
Lemma zero_back s y : reads_back (S754_zero s) y -> y = S754_zero s.
Proof. intros H. assert (reads_back (S754_zero s) (S754_zero s)) as Z by (destruct s; vm_compute; reflexivity). unfold reads_back in *. congruence. Qed.
(** printing and reading once or twice, zeros changing sign in between *)
Lemma once x y r : real_double x -> deqb x y = true -> reads_back y r -> in_six x r.
Proof.
  intros Rx E1 B1. apply deqb_eq in E1 as [<-|(s & t & -> & ->)].
  - exists r. split; auto. destruct (C18_stable x Rx) as (y & B & Ry & _). assert (r = y) as -> by (unfold reads_back in *; congruence). now apply deqb_refl, real_not_nan.
  - apply zero_back in B1. subst r. exists (S754_zero s). split; [destruct s; vm_compute; reflexivity|]. now destruct s, t.
Qed.
Lemma twice x y r y' z : real_double x -> not_tiny x -> deqb x y = true -> reads_back y r -> deqb r y' = true -> reads_back y' z -> in_six x z.
Proof.
  intros Rx Nx E1 B1 E2 B2. destruct (once x y r Rx E1 B1) as (q & Bq & Eq). destruct (C18_stable x Rx) as (q' & B & Rq & St). assert (q' = q) as -> by (unfold reads_back in *; congruence). destruct (St Nx) as [_ Bb].
  exists q. split; auto. destruct (once q y' z Rq (deqb_trans _ _ _ Eq E2) B2) as (k & Bk & Ek). assert (k = q) as -> by (unfold reads_back in *; congruence). exact Ek.
Qed.
Lemma pt_once p q r : pt_real p -> same_point p q -> pt_reads_back q r -> pt_in_six p r.
Proof. intros (A & B & C) (E & F & G) (X & Y & Z). split; [|split]; eapply once; eauto. Qed.
Lemma pt_twice p q r q' z : pt_real p -> pt_not_tiny p -> same_point p q -> pt_reads_back q r -> same_point r q' -> pt_reads_back q' z -> pt_in_six p z.
Proof. intros (A & B & C) (A' & B' & C') (E & F & G) (X & Y & Z) (E' & F' & G') (X' & Y' & Z'). split; [|split]; eapply twice; eauto. Qed.
Lemma pt_real_same p q : pt_real p -> same_point p q -> pt_real q.
Proof. intros (A & B & C) (E & F & G). split; [exact (real_same _ _ A E)|]. split; [exact (real_same _ _ B F)|exact (real_same _ _ C G)]. Qed.
(** ** Polygons *)
Lemma turned_trans {A} (a b c : list A) : turned a b -> turned b c -> turned a c.
Proof.
  intros (u & v & -> & ->) (x & y & E & ->). destruct (app_eq_app _ _ _ _ E) as (l & [[-> ->]|[-> ->]]).
  - exists (u ++ x), l. rewrite <- !app_assoc. auto.
  - exists l, (y ++ v). rewrite <- !app_assoc. auto.
Qed.
Lemma turned_Forall2 {A B} (R : A -> B -> Prop) a b b' : Forall2 R a b -> turned b b' -> exists a', turned a a' /\ Forall2 R a' b'.
Proof.
  intros F (u & v & -> & ->). apply Forall2_app_inv_r in F. destruct F as (x & y & Fx & Fy & ->). exists (y ++ x). split; [exists x, y; auto|now apply Forall2_app].
Qed.
Definition on (R : point -> point -> Prop) (o o' : option point) : Prop := exists p q, o = Some p /\ o' = Some q /\ R p q.
Lemma over_trans (P Q R : point -> point -> Prop) a b c : (forall x y z, P x y -> Q y z -> R x z) -> polygon_over P a b -> polygon_over Q b c -> polygon_over R a c.
Proof.
  intros H (a' & T1 & F1) (b' & T2 & F2). destruct (turned_Forall2 _ _ _ _ F1 T2) as (a2 & T3 & F3). exists a2. split; [now apply (turned_trans a a' a2)|].
  refine (Forall2_compose _ _ _ _ _ _ _ F3 F2). intros o o' o2 (p & q & -> & -> & X) (q' & r & E & -> & Y). injection E as <-. exists p, r. split; [reflexivity|]. split; [reflexivity|]. eauto.
Qed.
Lemma over_In (P : point -> point -> Prop) (G : point -> Prop) a b : (forall p, In (Some p) a -> G p) -> polygon_over P a b -> polygon_over (fun p q => G p /\ P p q) a b.
Proof.
  intros H (a' & T1 & F1). exists a'. split; auto. assert (forall p, In (Some p) a' -> G p) as H'. { intros p I'. apply H. destruct T1 as (u & v & -> & ->). apply in_app_or in I' as [I'|I']; apply in_or_app; auto. }
  clear -F1 H'. induction F1 as [|o o' l k (p & q & -> & -> & X) F IH]; constructor; [|apply IH; intros; apply H'; now right]. exists p, q. repeat split; auto. apply H'. now left.
Qed.
Lemma overs_trans (P Q R : point -> point -> Prop) a b c : (forall x y z, P x y -> Q y z -> R x z) -> Forall2 (polygon_over P) a b -> Forall2 (polygon_over Q) b c -> Forall2 (polygon_over R) a c.
Proof. intros H F G. refine (Forall2_compose _ _ _ _ _ _ _ F G). intros x y z. exact (over_trans P Q R x y z H). Qed.
Lemma overs_In (P : point -> point -> Prop) (G : point -> Prop) a b : (forall l p, In l a -> In (Some p) l -> G p) -> Forall2 (polygon_over P) a b -> Forall2 (polygon_over (fun p q => G p /\ P p q)) a b.
Proof. intros H F. induction F as [|x y l k X F IH]; constructor; [apply over_In; auto; intros p; apply H; now left|apply IH; intros; eapply H; eauto; now right]. Qed.
Lemma polygon_points x l p : In l (polygons x) -> In (Some p) l -> In p (m_points x).
Proof. intros H I'. unfold polygons in H. apply in_map_iff in H as (f & <- & _). apply in_map_iff in I' as (i & E & _). now apply nth_error_In in E. Qed.
Lemma nth_same (R : point -> point -> Prop) P Q i : Forall2 R P Q -> (i < nsize P)%N -> on R (nth_error P (N.to_nat i)) (nth_error Q (N.to_nat i)).
Proof.
  intros F L. unfold nsize in L. assert (N.to_nat i < List.length P) as L' by lia. clear L. revert L'. generalize (N.to_nat i) as k. induction F as [|p q l m X F IH]; intros k L; [cbn in L; lia|].
  destruct k; cbn [nth_error List.length] in *; [exists p, q; auto|apply IH; lia].
Qed.
(** meshes with related points and rotated faces *)
Lemma faces_over (R : point -> point -> Prop) x y : mesh_wf x -> Forall2 R (m_points x) (m_points y) -> Forall2 rotation (m_faces x) (m_faces y) -> Forall2 (polygon_over R) (polygons x) (polygons y).
Proof.
  intros W F G. unfold polygons. unfold mesh_wf in W. revert W. induction G as [|f g l k (u & v & -> & ->) G IH]; intros W; cbn [map]; constructor; [|apply IH; intros; apply W; now right].
  destruct (W (u ++ v) (or_introl eq_refl)) as [_ B]. set (at1 := fun i : N => nth_error (m_points x) (N.to_nat i)). exists (map at1 (v ++ u)). split; [exists (map at1 u), (map at1 v); split; apply map_app|].
  assert (forall i, In i (v ++ u) -> (i < nsize (m_points x))%N) as B' by (intros i I'; apply B; apply in_app_or in I' as [I'|I']; apply in_or_app; auto). clear -B' F. induction (v ++ u) as [|i l IH]; cbn [map]; constructor; [|apply IH; intros; apply B'; now right].
  apply (nth_same R); auto. apply B'. now left.
Qed.
Lemma reads_over a b : poly_reads_back a b -> Forall2 (polygon_over pt_reads_back) a b.
Proof. intros F. induction F as [|x y l k X F IH]; constructor; auto. exists x. split; [exists [], x; now rewrite app_nil_r|exact X]. Qed.
Lemma rotation_refl l : Forall2 rotation l l.
Proof. induction l as [|f l IH]; constructor; auto. exists [], f. now rewrite app_nil_r. Qed.
(** ** Meshes *)
Lemma same_mesh_parts x y : simple_faces x -> same_mesh x y -> m_name y = m_name x /\ Forall2 same_point (m_points x) (m_points y) /\ Forall2 rotation (m_faces x) (m_faces y).
Proof. intros S [N E]. split; auto. now apply (C77_mesh_equality x y S). Qed.
Lemma same_wf x y : simple_faces x -> same_mesh x y -> mesh_wf x -> mesh_wf y.
Proof.
  intros S E W g Hg. destruct (same_mesh_parts x y S E) as (_ & P & F). destruct (Forall2_In_r _ _ _ F g Hg) as (f & Hf & u & v & -> & ->). destruct (W _ Hf) as [L B]. rewrite app_length in *. split; [lia|].
  intros i Hi. unfold nsize. rewrite <- (Forall2_len P). apply B. apply in_app_or in Hi as [Hi|Hi]; apply in_or_app; auto.
Qed.
Lemma same_real x y : simple_faces x -> same_mesh x y -> (forall p, In p (m_points x) -> pt_real p) -> forall p, In p (m_points y) -> pt_real p.
Proof. intros S E R q Hq. destruct (same_mesh_parts x y S E) as (_ & P & _). destruct (Forall2_In_r _ _ _ P q Hq) as (p & Hp & Sp). exact (pt_real_same p q (R p Hp) Sp). Qed.
Lemma same_size x y : simple_faces x -> same_mesh x y -> nsize (m_points y) = nsize (m_points x).
Proof. intros S E. destruct (same_mesh_parts x y S E) as (_ & P & _). unfold nsize. now rewrite (Forall2_len P). Qed.
Lemma same_savable xs ys : (forall x, In x xs -> simple_faces x) -> Forall2 same_mesh xs ys -> obj_savable xs -> obj_savable ys.
Proof.
  intros S F (Z & A & N & L). split; [intros ->; inversion F; subst; now apply Z|]. split; [|split].
  - intros y Hy. destruct (Forall2_In_r _ _ _ F y Hy) as (x & Hx & E). destruct (A x Hx) as (W & Ns & R). specialize (S x Hx). destruct (same_mesh_parts x y S E) as (Nm & _). rewrite Nm. split; [now apply (same_wf x y)|]. split; auto. now apply (same_real x y).
  - rewrite (Forall2_names m_name m_name (fun x y => mesh_eqb x y = Ok true) xs ys F). exact N.
  - assert (sum_points ys = sum_points xs) as ->; auto. clear -F S. unfold sum_points. induction F as [|x y l k E F IH]; auto. cbn [map fold_right]. rewrite IH by (intros; apply S; now right). f_equal. apply same_size; auto. apply S. now left.
Qed.
Lemma over_lengths (R : point -> point -> Prop) (h k : N -> option point) fx : forall fy, Forall2 (polygon_over R) (map (map h) fx) (map (map k) fy) -> Forall2 (fun f g => List.length g = List.length f) fx fy.
Proof.
  induction fx as [|f fx IH]; intros [|g fy] F; cbn [map] in F; inversion F as [|? ? ? ? (c & (u & v & E & ->) & G) F']; subst; constructor; auto.
  apply Forall2_len in G. apply (f_equal (@List.length (option point))) in E. rewrite !map_length, ?app_length in *. lia.
Qed.
(** what the OFF writer can store *)
Lemma savable_over (R : point -> point -> Prop) x y : off_savable x -> Forall2 (polygon_over R) (polygons x) (polygons y) -> mesh_wf y -> (forall p, In p (m_points y) -> pt_real p) ->
  ~ In newline (m_name y) -> (nsize (m_points y) < two64)%N -> off_savable y.
Proof.
  intros (_ & Fo & _ & _ & Fl) F W Re Nn Np. split; auto. assert (Forall2 (fun f g => List.length g = List.length f) (m_faces x) (m_faces y)) as L.
  { exact (over_lengths R _ _ _ _ F). }
  split; [|split; [exact Nn|split; [exact Np|]]].
  - intros g Hg. destruct (Forall2_In_r _ _ _ L g Hg) as (f & Hf & E). destruct (Fo f Hf) as (_ & B & _). destruct (W g Hg) as [W1 W2]. split; auto. unfold nsize in *. rewrite E. split; auto. intros i Hi. specialize (W2 i Hi). lia.
  - pose proof (Forall2_len L) as Q. unfold nsize, face in *. change (list (list N)) with (list face) in *. rewrite <- Q. exact Fl.
Qed.
Lemma tree_written f g p : fs_tree f -> p <> [] -> f p <> Some Dir -> f (removelast p) = Some Dir -> differ_only_at p f g -> fs_tree g.
Proof.
  intros [R T] Z Fp Fd D. assert (removelast p <> p) as Np. { intros E. rewrite E in Fd. auto. } split; [rewrite <- (D []); auto|].
  intros q Zq Hq. destruct (list_eq_dec (list_eq_dec ascii_dec) q p) as [->|Nq]; [rewrite <- D; auto|]. rewrite <- (D q Nq) in Hq. specialize (T q Zq Hq). rewrite <- D; auto. intros E. rewrite E in T. auto.
Qed.
Lemma no_space_newline n : no_space n -> ~ In newline n.
Proof. intros H I'. specialize (H _ I'). discriminate H. Qed.
Lemma one_terrain (out : list mesh) r rs ms : interleave ms out rs -> NoDup (map m_name rs) -> (forall x, In x out -> m_name x = lit "terrain") -> In r out -> out = [r].
Proof.
  intros I' Nd O Hr. assert (NoDup (map m_name out)) as No.
  { clear -I' Nd. induction I' as [|x ms out rs I' IH|x ms out rs I' IH]; cbn [map] in *; [constructor| |]; apply NoDup_cons_iff in Nd as [Ni Nd]; auto. constructor; auto. intros Hx. apply Ni. apply in_map_iff in Hx as (y & <- & Hy). apply in_map. apply (interleave_In _ _ _ y) in I'. tauto. }
  destruct out as [|a [|b out]]; [destruct Hr|destruct Hr as [->|[]]; reflexivity|]. exfalso. cbn [map] in No. apply NoDup_cons_iff in No as [Na _]. apply Na. left. rewrite (O a), (O b); cbn; auto.
Qed.
(** ** C104 *)
Section BACK.
Context (T : soup_tools) (tod : Qc -> dbl) (E : exact_on_doubles tod) (X : externals) (prune : body -> outcome body) (line : surface -> nat -> outcome str) (listing : fs -> path -> list str).
Notation convert := (format_main X (body_of_mesh T) b_surface (node_mesh tod) prune line listing).
(** the meshes that can be written as OBJ and as OFF, and keep six digits *)
Definition portable (xs : list mesh) : Prop := obj_savable xs /\ forall x, In x xs -> off_savable x /\ file_safe (m_name x) /\ forall p, In p (m_points x) -> pt_not_tiny p.
(** what the OBJ file gives back *)
Lemma lone_terrain f p c rs r : f (os_path p) = Some (File c) -> obj_read c = Ok rs -> NoDup (map m_name rs) -> In r rs -> m_name r = lit "terrain" ->
  exists bs, Permutation (bs ++ [r]) rs /\ forall ls, scene_read X (body_of_mesh T) f ls (mkSceneH p [(lit "read", true)] obj) = scene_make (body_of_mesh T) bs (mkMesh (m_name r) (m_points r) (m_faces r) (m_bbox mesh_empty)) point_default 2154.
Proof.
  intros Fc R Nd Hr Tn. set (isT := fun x : mesh => str_eqb (m_name x) (lit "terrain")).
  assert (filter isT rs = [r] /\ Permutation (filter (fun x => negb (isT x)) rs ++ [r]) rs) as [Fo Pe].
  { apply in_split in Hr. destruct Hr as (pre & post & ->). rewrite map_app in Nd. cbn [map] in Nd. apply NoDup_remove_2 in Nd. rewrite Tn in Nd.
    assert (forall l, ~ In (lit "terrain") (map m_name l) -> filter isT l = [] /\ filter (fun x => negb (isT x)) l = l) as Q.
    { intros l. induction l as [|x l IH]; intros H; [auto|]. cbn [filter]. destruct (isT x) eqn:Ex; [exfalso; apply H; left; unfold isT in Ex; now apply str_eqb_eq in Ex|]. cbn [negb]. destruct IH as [I1 I2]; [intros I'; apply H; now right|]. rewrite I1, I2. auto. }
    destruct (Q pre) as [Q1 Q2]; [intros I'; apply Nd, in_or_app; now left|]. destruct (Q post) as [Q3 Q4]; [intros I'; apply Nd, in_or_app; now right|].
    assert (isT r = true) as Tr by (unfold isT; now apply str_eqb_eq). rewrite !filter_app. cbn [filter]. rewrite Tr, Q1, Q2, Q3, Q4. cbn [negb app]. split; auto. rewrite <- app_assoc. apply Permutation_app_head. symmetry. apply Permutation_cons_append. }
  exists (filter (fun x => negb (isT x)) rs). split; auto. intros ls. unfold scene_read. cbn [sh_fmt sh_path sh_modes]. unfold obj_get_scene.
  assert (obj_handler_read f (mkObjH p [(lit "read", true)] []) = Ok (mkObjH p [(lit "read", true)] rs)) as Rd. { apply obj_read_value; [repeat constructor; intros []|]. cbn [oh_modes oh_path oh_meshes]. split; [now left|]. split; auto. split; auto. exists c; auto. }
  rewrite Rd. cbn [bind]. unfold exclude_mesh. cbn [oh_meshes oh_path oh_modes]. change s_terrain with (lit "terrain"). fold isT. change (fun x => negb (str_eqb (m_name x) (lit "terrain"))) with (fun x => negb (isT x)). rewrite Fo. unfold scene_make_default. cbn [oh_meshes].
  replace (snd (mesh_set_name (sum_meshes [r]) (lit "terrain"))) with (mkMesh (m_name r) (m_points r) (m_faces r) (m_bbox mesh_empty)); [match goal with |- context [scene_make ?a ?l ?b ?c ?d] => destruct (scene_make a l b c d); reflexivity end|]. destruct r as [n P F bx]. cbn [m_name] in Tn. subst n. reflexivity.
Qed.
Lemma obj_gives_back c xs ys : obj_savable xs -> (forall x, In x xs -> simple_faces x) -> Forall2 same_mesh xs ys -> obj_write ys = Ok c ->
  exists rs, obj_read c = Ok rs /\ NoDup (map m_name rs) /\ (forall n, In n (map m_name rs) <-> In n (map m_name xs)) /\
    forall x y, In x xs -> same_mesh x y -> In y ys -> exists r, In r rs /\ m_name r = m_name x /\ poly_reads_back (polygons y) (polygons r) /\ mesh_wf r /\ (nsize (m_points r) <= nsize (m_points x))%N.
Proof.
  intros Sv Si F W. destruct (C26_obj_round_trip ys (same_savable xs ys Si F Sv)) as (c' & rs & W' & R & Inc & Len & Each). assert (c' = c) as -> by congruence.
  assert (forall x y, In x xs -> same_mesh x y -> In y ys -> exists r, In r rs /\ m_name r = m_name x /\ poly_reads_back (polygons y) (polygons r) /\ mesh_wf r /\ (nsize (m_points r) <= nsize (m_points x))%N) as Ea.
  { intros x y Hx S Hy. destruct (Each y Hy) as (r & Hr & Nm & P & _ & Wf & Sz). rewrite (same_size x y (Si x Hx) S) in Sz. exists r. split; auto. split; auto. rewrite Nm. apply S. }
  assert (incl (map m_name xs) (map m_name rs)) as In1. { intros n Hn. apply in_map_iff in Hn as (x & <- & Hx). destruct (Forall2_In_l _ _ _ F x Hx) as (y & Hy & S). destruct (Ea x y Hx S Hy) as (r & Hr & <- & _). now apply in_map. }
  assert (List.length (map m_name rs) <= List.length (map m_name xs)) as Ln. { rewrite !map_length, Len. rewrite (Forall2_len F). auto. }
  destruct Sv as (_ & _ & Nd & _). exists rs. split; [exact R|]. split; [now apply increasing_NoDup|]. split; [|exact Ea]. intros n. split; [apply (NoDup_length_incl Nd Ln In1)|apply In1].
Qed.
(** OFF directory to OBJ file and back to an OFF directory: every mesh comes back, under its
    name, with its polygons in six digits *)
Theorem C104_there_and_back : forall m1 a1 m2 a2 w d ns rest ms t,
  format_given m1 a1 -> fa_prune a1 = false -> fa_graphs a1 = false -> fa_format a1 = lit "OFF" -> fa_outfmt a1 = lit "OBJ" ->
  format_given m2 a2 -> fa_prune a2 = false -> fa_graphs a2 = false -> fa_format a2 = lit "OBJ" -> fa_outfmt a2 = lit "OFF" -> fa_path a2 = fa_out a1 ->
  resolves (fa_path a1) d -> no_nul d -> w_fs w d = Some Dir -> (forall n, In n (listing (w_fs w) d) -> ~ In nul n) -> interleave ns rest (listing (w_fs w) d) ->
  Forall2 (building_in (w_fs w) d) ns ms -> (forall n, In n rest -> ~ building_entry (w_fs w) d n) -> stored_as (w_fs w) (d ++ [lit "terrain.off"]) (lit "terrain") t ->
  (forall x, In x (ms ++ [t]) -> taken_as_is T x) -> portable (ms ++ [t]) ->
  let p := fa_out a1 in let d2 := fa_out a2 in
  fs_tree (w_fs w) -> ends_with_ci (filename p) (lit ".obj") -> no_nul p -> p <> [] -> w_fs w p <> Some Dir -> w_fs w (removelast p) = Some Dir ->
  no_nul d2 -> d2 <> [] -> d2 <> p -> w_fs w d2 = None -> w_fs w (removelast d2) = Some Dir ->
  exists w1 c rs, convert (PArgs m1) w = (w1, Exit 0 None, []) /\ differ_only_at p (w_fs w) (w_fs w1) /\ w_fs w1 p = Some (File c) /\ obj_read c = Ok rs /\
    (forall n, In n (map m_name rs) <-> In n (map m_name (ms ++ [t]))) /\
    (forall x, In x (ms ++ [t]) -> exists r, In r rs /\ m_name r = m_name x /\ over x r) /\
    ((forall r, In r rs -> taken_as_is T r) ->
     exists w2, convert (PArgs m2) w1 = (w2, Exit 0 None, []) /\ only_in [d2] (w_fs w1) (w_fs w2) /\ w_fs w2 d2 = Some Dir /\
       (forall n, w_fs w2 (d2 ++ [n]) <> None <-> exists x, In x (ms ++ [t]) /\ n = m_name x ++ lit ".off") /\
       forall x, In x (ms ++ [t]) -> exists z, stored_as (w_fs w2) (d2 ++ [m_name x ++ lit ".off"]) (m_name x) z /\ over x z).
Proof.
  intros m1 a1 m2 a2 w d ns rest ms t G1 Pr1 Gr1 Fi1 Fo1 G2 Pr2 Gr2 Fi2 Fo2 Pa Rd Nd Dd Nn I' B O St A Po p d2 Ft Ex Np Zp Fp Fd Nd2 Zd2 Dp Fr2 Fd2.
  assert (Po' := Po). destruct Po' as [Sv Off].
  destruct (C92_off_to_obj T tod E X prune line listing m1 a1 w d ns rest ms t) as (f1 & ys & c & R1 & D1 & FS & OW & Fc); auto.
  { destruct Sv as (_ & _ & _ & L). change (2 ^ 53)%N with 9007199254740992%N in L. unfold two64. lia. }
  fold p in D1, Fc. assert (forall x, In x (ms ++ [t]) -> simple_faces x) as Si by (intros x Hx; apply (A x Hx)).
  assert (m_name t = lit "terrain") as Tn by (destruct St as (? & ? & _ & _ & Q & _); exact Q).
  destruct (obj_gives_back c (ms ++ [t]) ys Sv Si FS OW) as (rs & Rr & ND & Nm & Ea).
  assert (forall x y, In x (ms ++ [t]) -> same_mesh x y -> Forall2 (polygon_over (fun p q => (pt_real p /\ pt_not_tiny p) /\ same_point p q)) (polygons x) (polygons y)) as O1.
  { intros x y Hx S. destruct (same_mesh_parts x y (Si x Hx) S) as (_ & P & F). destruct Sv as (_ & Sv & _). destruct (Sv x Hx) as (W & _ & Re). destruct (Off x Hx) as (_ & _ & Ti). apply overs_In; [|now apply faces_over]. intros l q Hl Hq. pose proof (polygon_points x l q Hl Hq). auto. }
  exists (mkWorld f1 (w_vectors w) (w_rasters w)), c, rs. cbn [w_fs]. split; [exact R1|]. split; [exact D1|]. split; [exact Fc|]. split; [exact Rr|]. split; [exact Nm|]. split.
  { intros x Hx. destruct (Forall2_In_l _ _ _ FS x Hx) as (y & Hy & S). destruct (Ea x y Hx S Hy) as (r & Hr & Nr & P & _). exists r. split; auto. split; auto. refine (overs_trans _ _ _ _ _ _ _ (O1 x y Hx S) (reads_over _ _ P)). intros u v z ((Re & _) & Su) Ru. now apply (pt_once u v z). }
  intros Tk0. assert (exists b, In b rs /\ m_name b = lit "terrain") as (b & Hb & Tb). { destruct (Forall2_In_l _ _ _ FS t) as (y & Hy & S); [apply in_or_app; right; now left|]. destruct (Ea t y) as (r & Hr & Nr & _); auto; [apply in_or_app; right; now left|]. exists r. split; auto. now rewrite Nr. }
  destruct (lone_terrain f1 p c rs b) as (bs & Pe & Sc); auto; [rewrite (os_path_plain p Np); exact Fc|]. set (b' := mkMesh (m_name b) (m_points b) (m_faces b) (m_bbox mesh_empty)) in *.
  assert (forall r, In r rs <-> In r bs \/ r = b) as Ip. { intros r. split; intros H; [apply (Permutation_in r (Permutation_sym Pe)) in H; apply in_app_or in H as [H|[<-|[]]]; auto|]. apply (Permutation_in r Pe), in_or_app. destruct H as [H| ->]; [now left|right; now left]. }
  assert (forall r, In r (bs ++ [b']) -> taken_as_is T r) as Tk. { intros r Hr. apply in_app_or in Hr as [Hr|[<-|[]]]; [apply Tk0, Ip; now left|exact (Tk0 b Hb)]. }
  assert (map m_name (bs ++ [b']) = map m_name (bs ++ [b])) as Mb by (rewrite !map_app; reflexivity).
  assert (NoDup (map m_name (bs ++ [b']))) as NDp by (rewrite Mb; apply (Permutation_NoDup (l := map m_name rs)); [apply Permutation_map; now symmetry|exact ND]).
  assert (forall n, In n (map m_name (bs ++ [b'])) <-> In n (map m_name (ms ++ [t]))) as Nmp. { intros n. rewrite <- Nm, Mb. split; apply Permutation_in; apply Permutation_map; [exact Pe|now symmetry]. }
  assert (forall r, In r (bs ++ [b']) -> file_safe (m_name r)) as Sf. { intros r Hr. apply (in_map m_name) in Hr. apply Nmp in Hr. apply in_map_iff in Hr as (x & <- & Hx). apply (Off x Hx). }
  destruct (C92_to_off T tod E X prune line listing m2 a2 (mkWorld f1 (w_vectors w) (w_rasters w)) bs b') as (f2 & R2 & O2 & D2 & Fn & Ff); cbn [w_fs w_vectors w_rasters]; auto.
  - split; [exact G2|]. split; [exact Pr2|]. split; [exact Gr2|]. split; [|exact Tk]. exists (mkSceneH p [(lit "read", true)] obj), p, point_default, 2154%N. rewrite Pa. fold p. split; [rewrite Fi2; now apply named_ok|]. split; [right; split; auto; now apply obj_not_dot|]. apply Sc.
  - exact (tree_written _ _ _ Ft Zp Fp Fd D1).
  - fold d2. rewrite <- (D1 d2 Dp). exact Fr2.
  - fold d2. rewrite <- D1; [exact Fd2|]. intros Q. rewrite Q in Fd2. auto.
  - fold d2 in O2, D2, Fn, Ff. cbn [w_fs] in *. exists (mkWorld f2 (w_vectors w) (w_rasters w)). cbn [w_fs]. split; [exact R2|]. split; [exact O2|]. split; [exact D2|]. split.
    + intros n. rewrite Fn. split; intros (x & Hx & ->).
      * apply (in_map m_name), Nmp, in_map_iff in Hx. destruct Hx as (y & Q & Hy). exists y. now rewrite Q.
      * apply (in_map m_name), Nmp, in_map_iff in Hx. destruct Hx as (y & Q & Hy). exists y. now rewrite Q.
    + intros x Hx. destruct (Forall2_In_l _ _ _ FS x Hx) as (y & Hy & S). destruct (Ea x y Hx S Hy) as (r0 & Hr0 & Nr & P & Wr & Sr). assert (exists r, In r (bs ++ [b']) /\ m_name r = m_name x /\ poly_reads_back (polygons y) (polygons r) /\ mesh_wf r /\ (nsize (m_points r) <= nsize (m_points x))%N) as (r & Hr & Nr' & P2 & Wr2 & Sr2) by (destruct (proj1 (Ip r0) Hr0) as [H| ->]; [exists r0; split; [apply in_or_app; now left|auto]|exists b'; split; [apply in_or_app; right; now left|auto]]). clear r0 Hr0 Nr P Wr Sr. rename Nr' into Nr, P2 into P, Wr2 into Wr, Sr2 into Sr. destruct (Ff r Hr) as (y' & S' & F'). rewrite Nr in F'.
      assert (simple_faces r) as Sir by apply (Tk r Hr). destruct (same_mesh_parts r y' Sir S') as (Ny & P' & Fy').
      pose proof (faces_over same_point r y' Wr P' Fy') as O3. destruct (Off x Hx) as (Ox & (_ & _ & Nl) & _).
      assert (Forall2 (polygon_over (fun p q => (pt_real p /\ pt_not_tiny p) /\ exists q1 q2, same_point p q1 /\ pt_reads_back q1 q2 /\ same_point q2 q)) (polygons x) (polygons y')) as O4.
      { refine (overs_trans (fun p q => (pt_real p /\ pt_not_tiny p) /\ exists q1, same_point p q1 /\ pt_reads_back q1 q) _ _ _ _ _ _ _ O3).
        - intros u v z (Ru & q1 & Su & Bu) Sv'. split; auto. exists q1, v. auto.
        - refine (overs_trans _ _ _ _ _ _ _ (O1 x y Hx S) (reads_over _ _ P)). intros u v z (Ru & Su) Bu. split; auto. exists v. auto. }
      assert (off_savable y') as Sy'. { apply (savable_over _ x y' Ox O4); [now apply (same_wf r y')|apply (same_real r y' Sir S'); apply (Tk r Hr)|rewrite Ny, Nr; exact Nl|]. rewrite (same_size r y' Sir S'). destruct Ox as (_ & _ & _ & L & _). lia. }
      destruct (C21_off_round_trip y' Sy') as (z & Rz & Fz & Pz & _ & _). exists (mkMesh (m_name x) (m_points z) (m_faces z) (m_bbox z)). split.
      * exists (off_write y'), z. repeat split; auto.
      * refine (overs_trans _ pt_reads_back _ _ _ _ _ O4 _).
        { intros u v k ((Ru & Tu) & q1 & q2 & S1 & B1 & S2) B2. now apply (pt_twice u q1 q2 v k). }
        apply (faces_over pt_reads_back y' (mkMesh (m_name x) (m_points z) (m_faces z) (m_bbox z))); cbn [m_points m_faces]; [now apply (same_wf r y')|exact Pz|rewrite Fz; apply rotation_refl].
Qed.
End BACK.

(** ** Example: the town of C92_example, to OBJ and back *)
Definition building_tools : soup_tools := mkTools (fun P F => (P, F)) (fun P F => Ok (build_surface P (map (map N.to_nat) F))) (fun _ => true) (fun s => s) (fun _ => mkBox3 v0 v0) (mkBox3 v0 v0).
Definition back_map : list (str * value) :=
  [(lit "--formats", VBool false); (lit "<scene>", VStr (lit "town.obj")); (lit "--input-format", VStr (lit "OBJ")); (lit "--prune", VBool false); (lit "--graphs", VBool false);
   (lit "--terrain", VBool true); (lit "output", VBool true); (lit "<path>", VStr (lit "back")); (lit "--output-format", VStr (lit "OFF"))].
Definition back_a : format_arguments := mkFormat [lit "town.obj"] (lit "OBJ") false false true [lit "back"] (lit "OFF").
Definition flights (m : list (str * value)) (w : world) := format_main no_ext (body_of_mesh building_tools) b_surface (node_mesh dq) (fun s => Ok s) (fun _ _ => Ok []) listed (PArgs m) w.
Lemma built_turn P F F' s : built_as P F' s -> Forall2 rotation F F' -> built_as P F s.
Proof.
  intros (V & N & Q & B) R. split; auto. split; auto. split; auto. refine (Forall2_compose _ _ _ _ _ _ _ R B). intros f g x Rf (vs & fc & C & Rg & Nu). exists vs, fc. split; auto. split; auto. exact (turned_trans f g fc Rf Rg).
Qed.
(** a mesh [building_tools] takes as it is *)
Lemma builds x P s Fy : (forall f, In f (m_faces x) -> NoDup f /\ f <> []) -> (forall p, In p (m_points x) -> pt_real p) -> Forall2 at_point (m_points x) P -> s = build_surface P (map (map N.to_nat) (m_faces x)) -> valid s -> NoDup (s_vertices s) -> points s = P ->
  (let* y := mesh_of_surface dq [] s in Ok (m_faces y)) = Ok Fy -> Forall2 rotation (m_faces x) Fy -> taken_as_is building_tools x.
Proof.
  intros Si Re At -> V Nd Pt Ey Ro. apply bind_Ok_inv in Ey. destruct Ey as (y & Ex & Ey). apply Ok_inj in Ey. subst Fy. split; [exact Si|]. split; [exact Re|]. exists P. eexists. split; [exact At|]. split; [reflexivity|]. split; [reflexivity|]. split; [|now right].
  rewrite <- Pt at 1. exact (built_turn _ _ _ _ (built_self dq [] _ y V Nd Ex) Ro).
Qed.
Lemma flat_builds x : m_points x = flat_points -> m_faces x = flat_faces -> taken_as_is building_tools x.
Proof.
  intros Ep Ef. apply (builds x [pt 0 0 0; pt 1 0 0; pt 1 1 0; pt 0 1 0] (build_surface [pt 0 0 0; pt 1 0 0; pt 1 1 0; pt 0 1 0] [[1; 2; 0]; [3; 0; 2]]) [[2; 0; 1]; [0; 2; 3]]%N); rewrite ?Ep, ?Ef.
  - intros f [<-|[<-|[]]]; (split; [repeat constructor; cbn; intuition discriminate|discriminate]).
  - intros p H. cbn in H. repeat (destruct H as [<-|H]; [repeat split; vm_compute; reflexivity|]). destruct H.
  - repeat constructor; apply Qc_is_canon; vm_compute; reflexivity.
  - reflexivity.
  - apply check_valid. vm_compute. reflexivity.
  - apply nodup_b_NoDup. vm_compute. reflexivity.
  - vm_compute. reflexivity.
  - vm_compute. reflexivity.
  - repeat constructor; [exists [1%N], [2%N; 0%N]|exists [3%N], [0%N; 2%N]]; split; reflexivity.
Qed.
Definition back_points : list point := [mkPoint (dofZ 1) (dofZ 1) (dofZ 0); mkPoint (dofZ 0) (dofZ 0) (dofZ 0); mkPoint (dofZ 1) (dofZ 0) (dofZ 0); mkPoint (dofZ 0) (dofZ 1) (dofZ 0)].
Definition back_faces : list face := [[0; 1; 2]; [1; 0; 3]]%N.
Lemma back_builds x : m_points x = back_points -> m_faces x = back_faces -> taken_as_is building_tools x.
Proof.
  intros Ep Ef. apply (builds x [pt 1 1 0; pt 0 0 0; pt 1 0 0; pt 0 1 0] (build_surface [pt 1 1 0; pt 0 0 0; pt 1 0 0; pt 0 1 0] [[0; 1; 2]; [1; 0; 3]]) [[1; 2; 0]; [0; 3; 1]]%N); rewrite ?Ep, ?Ef.
  - intros f [<-|[<-|[]]]; (split; [repeat constructor; cbn; intuition discriminate|discriminate]).
  - intros p H. cbn in H. repeat (destruct H as [<-|H]; [repeat split; vm_compute; reflexivity|]). destruct H.
  - repeat constructor; apply Qc_is_canon; vm_compute; reflexivity.
  - reflexivity.
  - apply check_valid. vm_compute. reflexivity.
  - apply nodup_b_NoDup. vm_compute. reflexivity.
  - vm_compute. reflexivity.
  - vm_compute. reflexivity.
  - repeat constructor; [exists [0%N], [1%N; 2%N]|exists [1%N], [0%N; 3%N]]; split; reflexivity.
Qed.
Example C104_example : exists w1 w2 x z, flights town_map (mkWorld town_disk [] []) = (w1, Exit 0 None, []) /\ flights back_map w1 = (w2, Exit 0 None, []) /\
  stored_as town_disk [lit "town"; lit "Hut.OFF"] (lit "Hut") x /\ stored_as (w_fs w2) [lit "back"; lit "Hut.off"] (lit "Hut") z /\ over x z.
Proof.
  assert (format_given town_map town_a) as G1 by (apply C75_arguments; vm_compute; reflexivity). assert (format_given back_map back_a) as G2 by (apply C75_arguments; vm_compute; reflexivity).
  destruct C91_example as (ms & t & I' & B & O & St & Nm & _ & Sz).
  assert (forall p a x, town_disk p = Some (File flat_text) -> stored_as town_disk p a x -> m_points x = flat_points /\ m_faces x = flat_faces) as Fl.
  { intros p a x Ep (c & r & Ec & Er & _ & Px & Fx & _). destruct flat_read as (r' & R & P & F). rewrite Ep in Ec. injection Ec as <-. rewrite R in Er. apply Ok_inj in Er. subst r'. split; congruence. }
  destruct ms as [|x [|y ms]]; [inversion B| |inversion B as [|? ? ? ? _ B']; inversion B']. assert (stored_as town_disk [lit "town"; lit "Hut.OFF"] (lit "Hut") x) as Sx.
  { inversion B as [|? ? ? ? (a & _ & _ & S) _]; subst. destruct S as (c & r & Q1 & Q2 & Q3 & Q4). cbn [map] in Nm. injection Nm as Nm. assert (a = lit "Hut") as -> by (rewrite <- Q3; exact Nm). exists c, r. repeat split; auto; apply Q4. }
  destruct (Fl [lit "town"; lit "Hut.OFF"] _ x eq_refl Sx) as [Px Fx]. destruct (Fl ([lit "town"] ++ [lit "terrain.off"]) _ t eq_refl St) as [Pt Ft']. assert (m_name x = lit "Hut") as Nx by (injection Nm as Q; exact Q). assert (m_name t = lit "terrain") as Nt by (destruct St as (? & ? & _ & _ & Q & _); exact Q).
  assert (forall n, In n [lit "Hut"; lit "terrain"] -> no_space n /\ file_safe n /\ ~ In newline n) as Ns. { intros n [<-|[<-|[]]]; (split; [intros k Hk; cbn in Hk; repeat (destruct Hk as [<-|Hk]; [reflexivity|]); destruct Hk|split; [repeat split|]; cbn; intuition discriminate]). }
  assert (forall p, In p flat_points -> pt_real p /\ pt_not_tiny p) as Rf. { intros p H. cbn in H. repeat (destruct H as [<-|H]; [split; [repeat split; vm_compute; reflexivity|repeat split; first [left; vm_compute; reflexivity|right; vm_compute; discriminate]]|]). destruct H. }
  assert (forall f, In f flat_faces -> 3 <= List.length f /\ (nsize f <= 1152921504606846975)%N /\ forall i, In i f -> (i < 4)%N) as Ff. { intros f [<-|[<-|[]]]; (split; [cbn; lia|split; [vm_compute; discriminate|cbn; intros i [<-|[<-|[<-|[]]]]; lia]]). }
  assert (forall y, In y [x; t] -> m_points y = flat_points /\ m_faces y = flat_faces /\ In (m_name y) [lit "Hut"; lit "terrain"]) as Al. { intros y [<-|[<-|[]]]; rewrite ?Nx, ?Nt; cbn; auto. }
  assert (portable [x; t]) as Po.
  { split.
    - split; [discriminate|]. split; [|split].
      + intros y Hy. destruct (Al y Hy) as (Py & Fy & Ny). split; [intros f Hf; rewrite Py; rewrite Fy in Hf; destruct (Ff f Hf) as (L & _ & Bd); split; auto|]. split; [now apply Ns|]. rewrite Py. intros p Hp. now apply Rf.
      + cbn [map]. rewrite Nx, Nt. repeat constructor; cbn; intuition discriminate.
      + cbn [app] in Sz. rewrite Sz. reflexivity.
    - intros y Hy. destruct (Al y Hy) as (Py & Fy & Ny). destruct (Ns _ Ny) as (_ & Sf & Nl). split; [|split; [exact Sf|rewrite Py; intros p Hp; now apply Rf]]. unfold off_savable. rewrite Py, Fy. split; [intros p Hp; now apply Rf|]. split; [|split; [exact Nl|split; reflexivity]].
      unfold faces_ok. rewrite Fy. intros f Hf. destruct (Ff f Hf) as (L & L' & Bd). split; auto. split; auto. intros i Hi. specialize (Bd i Hi). unfold two64. lia. }
  destruct (C104_there_and_back building_tools dq exact_dq no_ext (fun s => Ok s) (fun _ _ => Ok []) listed town_map town_a back_map back_a (mkWorld town_disk [] []) [lit "town"] [lit "Hut.OFF"] [lit "notes.txt"; lit "terrain.off"] [x] t G1 eq_refl eq_refl eq_refl eq_refl G2 eq_refl eq_refl eq_refl eq_refl eq_refl) as (w1 & c & rs & R1 & _ & Fc & Rr & _ & _ & K); auto.
  - apply resolves_location. reflexivity.
  - intros k [<-|[]]. now apply no_nul_check.
  - intros n H. change (In n town_ls) in H. destruct H as [<-|[<-|[<-|[]]]]; now apply no_nul_check.
  - intros y Hy. destruct (Al y Hy) as (Py & Fy & _). now apply flat_builds.
  - split; [reflexivity|]. intros p Zp Hp. cbn [w_fs] in *. unfold town_disk in Hp. destruct (path_eqb p []) eqn:E0; [apply (list_eqb_spec _ str_eqb_eq) in E0; easy|].
    repeat match type of Hp with (if path_eqb p ?q then _ else _) <> None => destruct (path_eqb p q) eqn:?; [match goal with H : path_eqb p q = true |- _ => apply (list_eqb_spec _ str_eqb_eq) in H; subst p; reflexivity end|] end. easy.
  - exists (lit "town"), (lit ".obj"). split; [reflexivity|]. repeat (constructor; [now left|]). constructor.
  - intros k [<-|[]]. now apply no_nul_check.
  - discriminate.
  - discriminate.
  - intros k [<-|[]]. now apply no_nul_check.
  - discriminate.
  - discriminate.
  - assert (forall r, In r rs -> taken_as_is building_tools r) as Tk.
    { change (flights town_map (mkWorld town_disk [] []) = (w1, Exit 0 None, [])) in R1. assert (w_fs (fst (fst (flights town_map (mkWorld town_disk [] [])))) [lit "town.obj"] = Some (File c)) as Fc' by (rewrite R1; exact Fc).
      assert (forall o, w_fs (fst (fst (flights town_map (mkWorld town_disk [] [])))) [lit "town.obj"] = o -> match o with Some (File c) => obj_read c | _ => UB end = Ok rs) as Q by (intros o <-; rewrite Fc'; exact Rr).
      eassert (_ = Ok rs) as Q'. { refine (Q _ _). vm_compute. reflexivity. } clear -Q'. vm_compute in Q'. apply Ok_inj in Q'. subst rs. intros r [<-|[<-|[]]]; apply back_builds; reflexivity. }
    destruct (K Tk) as (w2 & R2 & _ & _ & _ & Z). destruct (Z x) as (z & Sz' & Ov); [now left|]. rewrite Nx in Sz'. exists w1, w2, x, z. auto.
Qed.
