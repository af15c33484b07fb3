(** * Proofs about 3DS node trees and the scene tree (C35-C39). *)
From Coq Require Import String.
From Verif Require Import Base Dbl Dbl_facts Decimal Shadow Spec_shadow Shadow_proofs Streams Spec_text
  Handlers Spec_io Handlers_proofs.
Close Scope string_scope.

(** ** Induction on node trees *)
Lemma node_ind' (P : node -> Prop) : (forall s o l, (forall c, In c l -> P c) -> P (Node s o l)) -> forall n, P n.
Proof.
  intros H. fix IH 1. intros [s o l]. apply H. revert l. fix IHl 1. intros [|c l].
  - intros x [].
  - intros x [<-|Hx]; [apply IH|apply (IHl l x Hx)].
Qed.

(** ** C35 *)
Lemma rounds_spec root k : forall acc, get_nodes_rounds k [Some root] acc = Ok (acc ++ concat (repeat (n_childs root) k)).
Proof.
  induction k as [|k IH]; intros acc; cbn; [now rewrite app_nil_r|]. rewrite IH. now rewrite <- app_assoc.
Qed.
Lemma map_concat_repeat {A B} (g : A -> B) l k : map g (concat (repeat l k)) = concat (repeat (map g l) k).
Proof. induction k as [|k IH]; cbn; auto. rewrite map_app, IH. reflexivity. Qed.
Lemma C35_proof : forall h x root rest k, th_file h = Some x -> f_nodes x = root :: rest ->
  t3ds_get_nodes h k = Ok (concat (repeat (map node_label (node_kids root)) k)).
Proof.
  intros h x root rest k H1 H2. unfold t3ds_get_nodes, t3ds_file. rewrite H1. cbn [bind]. rewrite H2. cbn [hd_error].
  rewrite rounds_spec. cbn [bind app]. rewrite map_concat_repeat. destruct root. reflexivity.
Qed.
Lemma C35_null_proof : forall h k, (th_file h = None -> t3ds_get_nodes h k = UB) /\
  (forall x, th_file h = Some x -> f_nodes x = [] -> t3ds_get_nodes h k = match k with O => Ok [] | _ => UB end).
Proof.
  intros h k. unfold t3ds_get_nodes, t3ds_file. split; [intros ->; reflexivity|]. intros x -> H. cbn [bind]. rewrite H.
  destruct k; reflexivity.
Qed.
Lemma C35_refuted_proof : exists h root, th_file h = Some (mk3ds [root] []) /\
  t3ds_get_nodes h 2 <> Ok (map node_label (at_depth 2 [root])) /\ t3ds_get_nodes h 0 <> Ok (map node_label (at_depth 0 [root])).
Proof.
  exists (mk3dsH [] [] (Some (mk3ds [Node (lit "r") true [Node (lit "a") true [Node (lit "b") true []]]] []))), (Node (lit "r") true [Node (lit "a") true [Node (lit "b") true []]]).
  split; [reflexivity|]. split; discriminate.
Qed.

(** ** Node search *)
Lemma find_app' {A} (p : A -> bool) l1 l2 : find p (l1 ++ l2) = match find p l1 with Some a => Some a | None => find p l2 end.
Proof. induction l1 as [|a l1 IH]; cbn; auto. destruct (p a); auto. Qed.
Definition is_named (s : str) (n : node) : bool := is_object n && str_eqb (node_label n) s.
Lemma node_by_name_find s : forall n, node_by_name n s = find (is_named (c_str s)) (descendants n).
Proof.
  apply node_ind'. intros t o l H. cbn. induction l as [|c l IH]; cbn; auto.
  destruct c as [cn co cl] eqn:Ec. unfold is_named at 1. cbn [is_object node_label].
  destruct (co && str_eqb cn (c_str s)) eqn:E; auto.
  rewrite find_app'. rewrite <- (H (Node cn co cl)) by (left; auto).
  destruct (node_by_name (Node cn co cl) s); auto. apply IH. intros x Hx. apply H. right; auto.
Qed.
Lemma find_split {A} (p : A -> bool) l a : find p l = Some a <-> exists pre post, l = pre ++ a :: post /\ p a = true /\ forall x, In x pre -> p x = false.
Proof.
  split.
  - induction l as [|b l IH]; cbn; [discriminate|]. destruct (p b) eqn:E.
    + intros H. injection H as <-. exists [], l. split; auto. split; auto. intros x [].
    + intros H. destruct (IH H) as (pre & post & -> & H1 & H2). exists (b :: pre), post. split; auto. split; auto. intros x [<-|Hx]; auto.
  - intros (pre & post & -> & H1 & H2). induction pre as [|b pre IH]; cbn; [now rewrite H1|].
    rewrite (H2 b) by (left; auto). apply IH. intros; apply H2; right; auto.
Qed.
Lemma is_named_true s n : is_named s n = true <-> is_object n = true /\ node_label n = s.
Proof. unfold is_named. rewrite andb_true_iff, str_eqb_eq. reflexivity. Qed.
Lemma is_named_false s n : is_named s n = false <-> (is_object n = true -> node_label n <> s).
Proof.
  rewrite <- not_true_iff_false, is_named_true. tauto.
Qed.
Lemma node_by_name_found root s n : found_at root (c_str s) n <-> node_by_name root s = Some n.
Proof.
  rewrite node_by_name_find, find_split. unfold found_at. split.
  - intros (pre & post & E & H1 & H2 & H3). exists pre, post. split; auto. split; [now apply is_named_true|].
    intros x Hx. apply is_named_false. auto.
  - intros (pre & post & E & H1 & H3). apply is_named_true in H1 as [H1 H2]. exists pre, post. repeat split; auto.
    intros x Hx. apply is_named_false. auto.
Qed.
Lemma node_by_name_not root s : not_found root (c_str s) <-> node_by_name root s = None.
Proof.
  rewrite node_by_name_find. unfold not_found. split.
  - intros H. destruct (find (is_named (c_str s)) (descendants root)) eqn:E; auto. apply find_some in E as [E1 E2].
    apply is_named_true in E2 as [E2 E3]. exfalso. apply (H n); auto.
  - intros H n Hn. apply is_named_false. apply (find_none _ _ H); auto.
Qed.

(** ** Mesh table *)
Lemma mesh_by_name_spec x n : mesh_of_node (f_meshes x) n (mesh_by_name x (node_label n)).
Proof.
  unfold mesh_by_name. destruct (find _ (f_meshes x)) as [lm|] eqn:E.
  - apply find_split in E as (pre & post & E & H1 & H2). apply str_eqb_eq in H1. eapply mon_some; eauto.
    intros y Hy. apply str_eqb_neq. apply (H2 y Hy).
  - apply mon_none. intros y Hy. apply str_eqb_neq. apply (find_none _ _ E y Hy).
Qed.
Lemma mesh_of_node_fun tab n : forall a b, mesh_of_node tab n a -> mesh_of_node tab n b -> a = b.
Proof.
  intros a b Ha Hb. destruct Ha as [pre lm post E H1 H2|H], Hb as [pre' lm' post' E' H1' H2'|H']; auto.
  - f_equal. revert pre' E' H2'. subst tab. revert H2. induction pre as [|y pre IH]; intros H2 pre' E' H2'.
    + destruct pre' as [|z pre']; cbn in E'; injection E' as E1 E2; auto. subst. exfalso. apply (H2' z); auto. left; auto.
    + destruct pre' as [|z pre']; cbn in E'; injection E' as E1 E2.
      * subst. exfalso. apply (H2 lm'); auto. left; auto.
      * eapply IH; eauto. intros; apply H2; right; auto. intros; apply H2'; right; auto.
  - exfalso. apply (H' lm); auto. subst tab. apply in_or_app; right; left; auto.
  - exfalso. apply (H lm'); auto. subst tab. apply in_or_app; right; left; auto.
Qed.

(** ** The typed map *)
Lemma char_code_inj c d : char_code c = char_code d -> c = d.
Proof.
  unfold char_code. cbv zeta. intros H. pose proof (N_ascii_bounded c). pose proof (N_ascii_bounded d).
  assert (N_of_ascii c = N_of_ascii d).
  { destruct (Z.of_N (N_of_ascii c) <? 128)%Z eqn:?, (Z.of_N (N_of_ascii d) <? 128)%Z eqn:?; lia. }
  rewrite <- (ascii_N_embedding c), <- (ascii_N_embedding d). congruence.
Qed.
Lemma char_code_signed c : char_code c = signed_code c.
Proof.
  unfold char_code, signed_code. cbv zeta. destruct (N_of_ascii c <? 128)%N eqn:E, (Z.of_N (N_of_ascii c) <? 128)%Z eqn:E'; lia.
Qed.
Definition at_type {A} (m : list (ascii * list A)) (c : ascii) : list A :=
  match find (fun p => Ascii.eqb (fst p) c) m with Some p => snd p | None => [] end.
Inductive tmap {A} : list (ascii * list A) -> Prop :=
| tm_nil : tmap []
| tm_cons c l m : l <> [] -> (forall d, In d (map fst m) -> (char_code c < char_code d)%Z) -> tmap m -> tmap ((c, l) :: m).
Lemma type_push_keys {A} c (a : A) m d : In d (map fst (type_push c a m)) <-> d = c \/ In d (map fst m).
Proof.
  induction m as [|[e l] m IH]; cbn; [intuition|].
  destruct (char_code c <? char_code e)%Z eqn:E1; cbn; [intuition|].
  destruct (char_code e <? char_code c)%Z eqn:E2; cbn; [rewrite IH; intuition|].
  assert (c = e) by (apply char_code_inj; lia). subst. intuition.
Qed.
Lemma type_push_tmap {A} c (a : A) m : tmap m -> tmap (type_push c a m).
Proof.
  induction 1 as [|d l m Hl Hd Hm IH]; cbn; [constructor; [discriminate|intros d []|constructor]|].
  destruct (char_code c <? char_code d)%Z eqn:E1.
  - constructor; [discriminate| |constructor; auto]. apply Z.ltb_lt in E1. intros e [<-|He]; [exact E1|]. specialize (Hd e He). lia.
  - destruct (char_code d <? char_code c)%Z eqn:E2.
    + constructor; auto. intros e He. apply type_push_keys in He as [->|He]; [now apply Z.ltb_lt|auto].
    + constructor; auto. destruct l; discriminate.
Qed.
Lemma type_push_at {A} c (a : A) m d : tmap m -> at_type (type_push c a m) d = at_type m d ++ (if Ascii.eqb c d then [a] else []).
Proof.
  induction 1 as [|e l m Hl Hd Hm IH]; unfold at_type in *; cbn.
  - destruct (Ascii.eqb c d); reflexivity.
  - destruct (char_code c <? char_code e)%Z eqn:E1; cbn.
    + destruct (Ascii.eqb c d) eqn:Ed; [|rewrite app_nil_r; reflexivity]. apply Ascii.eqb_eq in Ed. subst.
      destruct (Ascii.eqb e d) eqn:Ee; [apply Ascii.eqb_eq in Ee; subst; lia|].
      destruct (find (fun p => Ascii.eqb (fst p) d) m) as [p|] eqn:F; auto.
      apply find_some in F as [F1 F2]. apply Ascii.eqb_eq in F2. exfalso.
      assert (In d (map fst m)) by (rewrite <- F2; apply in_map; auto). specialize (Hd d H). lia.
    + destruct (char_code e <? char_code c)%Z eqn:E2; cbn.
      * destruct (Ascii.eqb e d) eqn:Ee; auto. apply Ascii.eqb_eq in Ee. subst.
        destruct (Ascii.eqb c d) eqn:Ed; [apply Ascii.eqb_eq in Ed; subst; lia|]. now rewrite app_nil_r.
      * assert (c = e) by (apply char_code_inj; lia). subst. destruct (Ascii.eqb e d); auto. now rewrite app_nil_r.
Qed.

(** ** Collection *)
Definition selected (x : lib3ds_file) (types : list ascii) (n : node) : list lib3ds_mesh :=
  match mesh_by_name x (node_label n) with
  | Some lm => if char_in (first_char (lm_name lm)) types then [lm] else []
  | None => []
  end.
Fixpoint push_all (l : list (lib3ds_mesh * mesh)) (m : list (ascii * list mesh)) : list (ascii * list mesh) :=
  match l with [] => m | (lm, r) :: l => push_all l (type_push (first_char (lm_name lm)) r m) end.
Lemma push_all_app l1 l2 : forall m, push_all (l1 ++ l2) m = push_all l2 (push_all l1 m).
Proof. induction l1 as [|[lm r] l1 IH]; intros m; cbn; auto. Qed.
Lemma combine_app {A B} (a1 : list A) : forall (b1 : list B) a2 b2, length a1 = length b1 -> combine (a1 ++ a2) (b1 ++ b2) = combine a1 b1 ++ combine a2 b2.
Proof. induction a1 as [|a a1 IH]; intros [|b b1] a2 b2 H; cbn; auto; try discriminate. rewrite IH; auto. Qed.
(** collecting = importing the selected meshes of the post-order, then pushing them in order *)
Lemma collect_spec x types : forall n m,
  node_meshes_rec x types n m = (let* rs := omapM mesh_of_3ds (flat_map (selected x types) (postorder n)) in
                                 Ok (push_all (combine (flat_map (selected x types) (postorder n)) rs) m)).
Proof.
  apply (node_ind' (fun n => forall m, node_meshes_rec x types n m = _)). intros s o l H m. cbn [node_meshes_rec postorder].
  rewrite flat_map_app. cbn [flat_map]. rewrite app_nil_r. unfold selected at 2 4. cbn [node_label].
  match goal with |- bind (?g l m) _ = _ => set (go := g) end.
  assert (G : forall l, (forall c, In c l -> forall m, node_meshes_rec x types c m =
      (let* rs := omapM mesh_of_3ds (flat_map (selected x types) (postorder c)) in Ok (push_all (combine (flat_map (selected x types) (postorder c)) rs) m))) ->
     forall m, go l m = (let* rs := omapM mesh_of_3ds (flat_map (selected x types) (flat_map postorder l)) in
                          Ok (push_all (combine (flat_map (selected x types) (flat_map postorder l)) rs) m))).
  { clear. induction l as [|c l IH]; intros H m; [reflexivity|].
    change (go (c :: l) m) with (let* m := node_meshes_rec x types c m in go l m).
    rewrite H by (left; auto). cbn [flat_map]. rewrite flat_map_app, omapM_app.
    destruct (omapM mesh_of_3ds (flat_map (selected x types) (postorder c))) as [r1| |] eqn:E1; cbn [bind]; auto.
    rewrite IH by (intros; apply H; right; auto).
    destruct (omapM mesh_of_3ds (flat_map (selected x types) (flat_map postorder l))) as [r2| |]; cbn [bind]; auto.
    apply omapM_Ok, Forall2_len in E1. rewrite combine_app by auto. now rewrite push_all_app. }
  rewrite (G l H). clear G.
  rewrite omapM_app. destruct (omapM mesh_of_3ds (flat_map (selected x types) (flat_map postorder l))) as [r1| |] eqn:E1; cbn [bind]; auto.
  apply omapM_Ok, Forall2_len in E1.
  destruct (mesh_by_name x s) as [lm|]; cbn [omapM bind]; [|now rewrite combine_app, push_all_app].
  destruct (char_in (first_char (lm_name lm)) types); cbn [omapM bind]; [|now rewrite combine_app, push_all_app].
  destruct (mesh_of_3ds lm) as [r| |]; cbn [bind]; auto. rewrite combine_app by auto. now rewrite push_all_app.
Qed.
Lemma push_all_tmap l : forall m, tmap m -> tmap (push_all l m).
Proof. induction l as [|[lm r] l IH]; intros m H; cbn; auto. apply IH. apply type_push_tmap; auto. Qed.
Lemma push_all_at l : forall m c, tmap m -> at_type (push_all l m) c = at_type m c ++ map snd (filter (fun p => Ascii.eqb (first_char (lm_name (fst p))) c) l).
Proof.
  induction l as [|[lm r] l IH]; intros m c H; cbn [push_all filter map]; [now rewrite app_nil_r|].
  rewrite IH by (apply type_push_tmap; auto). rewrite type_push_at by auto. cbn [fst].
  destruct (Ascii.eqb (first_char (lm_name lm)) c); cbn; rewrite <- app_assoc; reflexivity.
Qed.
Lemma filter_combine {A B} (R : A -> B -> Prop) (p : A -> bool) la : forall lb, Forall2 R la lb ->
  Forall2 R (filter p la) (map snd (filter (fun q => p (fst q)) (combine la lb))).
Proof.
  induction la as [|a la IH]; intros lb H; inversion H; subst; cbn; [constructor|].
  destruct (p a); cbn; auto.
Qed.
Lemma selected_filter x types l : flat_map (selected x types) l =
  filter (fun lm => char_in (letter lm) types) (options (map (fun n => mesh_by_name x (node_label n)) l)).
Proof.
  induction l as [|n l IH]; [reflexivity|]. cbn [flat_map map]. rewrite IH. unfold options. cbn [flat_map]. rewrite filter_app. f_equal.
  unfold selected. destruct (mesh_by_name x (node_label n)) as [lm|]; [|reflexivity]. cbn [filter].
  change (first_char (lm_name lm)) with (letter lm). destruct (char_in (letter lm) types); reflexivity.
Qed.
Lemma subtree_meshes_spec x n ms : subtree_meshes (f_meshes x) n ms <->
  ms = options (map (fun n => mesh_by_name x (node_label n)) (postorder n)).
Proof.
  unfold subtree_meshes. split.
  - intros (os & F & ->). f_equal. revert os F. induction (postorder n) as [|a l IH]; intros os F; inversion F; subst; cbn; auto.
    f_equal; auto. eapply mesh_of_node_fun; eauto using mesh_by_name_spec.
  - intros ->. eexists. split; [|reflexivity]. induction (postorder n); cbn; constructor; auto using mesh_by_name_spec.
Qed.
Lemma char_in_In c l : char_in c l = true <-> In c l.
Proof.
  unfold char_in. rewrite existsb_exists. split.
  - intros (d & H & E). apply Ascii.eqb_eq in E. now subst.
  - intros H. exists c. split; auto. apply Ascii.eqb_eq; auto.
Qed.
Lemma tmap_sorted {A} (m : list (ascii * list A)) : tmap m -> sorted_by (fun p => signed_code (fst p)) m.
Proof.
  induction 1 as [|c l m Hl Hd Hm IH]; [constructor|]. destruct m as [|[d l'] m]; constructor; auto.
  cbn. rewrite <- !char_code_signed. apply Hd. left; auto.
Qed.
Lemma tmap_nonempty {A} (m : list (ascii * list A)) c l : tmap m -> In (c, l) m -> l <> [].
Proof. induction 1 as [|c' l' m Hl Hd Hm IH]; intros H; [destruct H|]. destruct H as [H|H]; auto. injection H as <- <-. auto. Qed.
Lemma tmap_at {A} (m : list (ascii * list A)) c l : tmap m -> In (c, l) m -> at_type m c = l.
Proof.
  unfold at_type. induction 1 as [|c' l' m Hl Hd Hm IH]; intros H; [destruct H|]. cbn. destruct H as [H|H].
  - injection H as <- <-. now rewrite Ascii.eqb_refl.
  - destruct (Ascii.eqb c' c) eqn:E; auto. apply Ascii.eqb_eq in E. subst. exfalso.
    assert (In c (map fst m)) by (change c with (fst (c, l)); apply in_map; auto). specialize (Hd c H0). lia.
Qed.
Lemma at_type_In {A} (m : list (ascii * list A)) c : at_type m c <> [] -> In (c, at_type m c) m.
Proof.
  unfold at_type. destruct (find (fun p => Ascii.eqb (fst p) c) m) as [[d l]|] eqn:E; [|congruence]. intros _.
  apply find_some in E as [E1 E2]. cbn in *. apply Ascii.eqb_eq in E2. now subst.
Qed.
Lemma Forall2_nil_iff {A B} (R : A -> B -> Prop) l1 l2 : Forall2 R l1 l2 -> (l1 = [] <-> l2 = []).
Proof. intros H. destruct H; split; auto; discriminate. Qed.
Lemma filter_filter {A} (p q : A -> bool) l : filter p (filter q l) = filter (fun x => p x && q x) l.
Proof.
  induction l as [|a l IH]; cbn; auto. destruct (q a); cbn.
  - destruct (p a); cbn; now rewrite IH.
  - rewrite andb_false_r. auto.
Qed.
Lemma filter_ext_in' {A} (p q : A -> bool) l : (forall a, In a l -> p a = q a) -> filter p l = filter q l.
Proof. apply filter_ext_in. Qed.

Lemma collect_value x types n m' : node_meshes_rec x types n [] = Ok m' ->
  tmap m' /\ forall c, Forall2 (fun lm r => mesh_of_3ds lm = Ok r)
     (filter (fun lm => Ascii.eqb (letter lm) c) (flat_map (selected x types) (postorder n))) (at_type m' c).
Proof.
  rewrite collect_spec. intros H. apply bind_Ok in H as (rs & E & H). apply Ok_inj in H. subst m'. apply omapM_Ok in E.
  split; [apply push_all_tmap; constructor|]. intros c. rewrite push_all_at by constructor. cbn [at_type find app].
  apply (filter_combine (fun lm r => mesh_of_3ds lm = Ok r) (fun lm => Ascii.eqb (letter lm) c)) in E. exact E.
Qed.

Lemma C36_value_proof : forall h x s types m, th_file h = Some x -> node_meshes_by_type h s types = Ok m ->
  exists root rest n ms, f_nodes x = root :: rest /\ found_at root (c_str s) n /\ subtree_meshes (f_meshes x) n ms /\
    sorted_by (fun p => signed_code (fst p)) m /\
    (forall c, (In c types /\ exists lm, In lm ms /\ letter lm = c) <-> In c (map fst m)) /\
    (forall c rs, In (c, rs) m -> Forall2 (fun lm r => mesh_of_3ds lm = Ok r) (filter (fun lm => Ascii.eqb (letter lm) c) ms) rs).
Proof.
  intros h x s types m Hx H. unfold node_meshes_by_type in H. destruct (can_read (th_modes h)); [|discriminate].
  unfold t3ds_file in H. rewrite Hx in H. cbn [bind] in H. destruct (f_nodes x) as [|root rest] eqn:Er; [discriminate|].
  destruct (node_by_name root s) as [n|] eqn:En; [|discriminate]. apply node_by_name_found in En.
  apply collect_value in H as [T V]. exists root, rest, n, (options (map (fun n => mesh_by_name x (node_label n)) (postorder n))).
  split; auto. split; auto. split; [now apply subtree_meshes_spec|]. split; [now apply tmap_sorted|].
  set (ms := options (map (fun n => mesh_by_name x (node_label n)) (postorder n))) in *.
  assert (V' : forall c, In c types -> Forall2 (fun lm r => mesh_of_3ds lm = Ok r) (filter (fun lm => Ascii.eqb (letter lm) c) ms) (at_type m c)).
  { intros c Hc. specialize (V c). rewrite selected_filter in V. fold ms in V. rewrite filter_filter in V.
    erewrite filter_ext_in' in V; [exact V|]. intros lm _. cbn. destruct (Ascii.eqb (letter lm) c) eqn:E; auto. cbn.
    apply Ascii.eqb_eq in E. apply char_in_In. now rewrite E. }
  assert (V0 : forall c, ~ In c types -> at_type m c = []).
  { intros c Hc. specialize (V c). rewrite selected_filter, filter_filter in V. fold ms in V.
    assert (E : filter (fun lm => Ascii.eqb (letter lm) c && char_in (letter lm) types) ms = []).
    { destruct (filter _ ms) as [|lm l] eqn:E; auto. exfalso. assert (G : In lm (lm :: l)) by (left; auto). rewrite <- E in G.
      apply filter_In in G as [_ G]. apply andb_true_iff in G as [G1 G2]. apply Ascii.eqb_eq in G1. apply char_in_In in G2. congruence. }
    rewrite E in V. inversion V; auto. }
  split.
  - intros c. split.
    + intros (Hc & lm & Hlm & Hl). specialize (V' c Hc). change c with (fst (c, at_type m c)). apply in_map. apply at_type_In.
      intros E. apply (proj2 (Forall2_nil_iff _ _ _ V')) in E.
      assert (In lm (filter (fun lm => Ascii.eqb (letter lm) c) ms)) by (apply filter_In; split; auto; rewrite Hl; apply Ascii.eqb_refl).
      rewrite E in H. destruct H.
    + intros Hc. apply in_map_iff in Hc as ([c' l] & E & Hc). cbn in E. subst c'.
      pose proof (tmap_nonempty _ _ _ T Hc) as Nl. pose proof (tmap_at _ _ _ T Hc) as Al.
      destruct (in_dec ascii_dec c types) as [I|I]; [|rewrite V0 in Al by auto; congruence]. split; auto.
      specialize (V' c I). rewrite Al in V'. destruct (filter (fun lm => Ascii.eqb (letter lm) c) ms) as [|lm r] eqn:E; [inversion V'; congruence|].
      assert (G : In lm (lm :: r)) by (left; auto). rewrite <- E in G. apply filter_In in G as [G1 G2]. apply Ascii.eqb_eq in G2. eauto.
  - intros c rs Hc. pose proof (tmap_at _ _ _ T Hc) as Al. pose proof (tmap_nonempty _ _ _ T Hc) as Nl.
    destruct (in_dec ascii_dec c types) as [I|I]; [|rewrite V0 in Al by auto; congruence]. specialize (V' c I). now rewrite Al in V'.
Qed.

Lemma mesh_of_3ds_fine lm : indices_fine lm -> exists r, mesh_of_3ds lm = Ok r.
Proof.
  intros H. unfold mesh_of_3ds. cbv zeta.
  assert (E : exists F, omapM (face_of_3ds (map pt_of_3ds (lm_points lm))) (lm_faces lm) = Ok F).
  { revert H. unfold indices_fine. induction (lm_faces lm) as [|t l IH]; intros H; [exists []; reflexivity|].
    destruct IH as [F EF]. { intros; apply H; right; auto. }
    destruct (H t) as (A & B & C); [left; auto|]. cbn [omapM].
    assert (V : forall i, (i < nsize (lm_points lm))%N -> exists p, vidxN (map pt_of_3ds (lm_points lm)) i = Ok p).
    { intros i Hi. unfold nsize in Hi. destruct (nth_error (map pt_of_3ds (lm_points lm)) (N.to_nat i)) as [p|] eqn:E.
      - exists p. now apply vidxN_Ok.
      - apply nth_error_None in E. rewrite map_length in E. lia. }
    unfold face_of_3ds at 1. destruct (V _ A) as [p0 ->], (V _ B) as [p1 ->], (V _ C) as [p2 ->]. cbn [bind]. rewrite EF. cbn [bind].
    eexists; reflexivity. }
  destruct E as [F E]. rewrite E. eexists; reflexivity.
Qed.
Lemma mesh_of_3ds_wf lm r : mesh_of_3ds lm = Ok r -> mesh_wf r /\ m_name r = lm_name lm /\ m_points r = map pt_of_3ds (lm_points lm).
Proof.
  unfold mesh_of_3ds. cbv zeta. intros H. apply bind_Ok in H as (F & E & H). apply Ok_inj in H. subst r. cbn [m_name m_points].
  split; auto. intros f Hf. cbn [m_faces m_points] in *. apply omapM_Ok in E.
  assert (G : exists lf, face_of_3ds (map pt_of_3ds (lm_points lm)) lf = Ok f).
  { clear - E Hf. induction E; [destruct Hf|]. destruct Hf as [->|Hf]; eauto. }
  destruct G as [lf G]. unfold face_of_3ds in G. apply bind_Ok in G as (p0 & E0 & G). apply bind_Ok in G as (p1 & E1 & G).
  apply bind_Ok in G as (p2 & E2 & G). apply Ok_inj in G.
  assert (V : forall i p, vidxN (map pt_of_3ds (lm_points lm)) i = Ok p -> (i < nsize (map pt_of_3ds (lm_points lm)))%N).
  { intros i p. unfold vidxN. destruct (i <? nsize (map pt_of_3ds (lm_points lm)))%N eqn:Ei; [|discriminate]. intros _. lia. }
  apply V in E0, E1, E2. subst f. unfold face_tri. match goal with |- context [if ?b then _ else _] => destruct b end; (split; [cbn; lia|]);
    intros i Hi; cbn in Hi; intuition; subst; auto.
Qed.

Lemma C36_defined_proof : forall h x s types root rest n ms, th_file h = Some x -> can_read (th_modes h) = true ->
  f_nodes x = root :: rest -> found_at root (c_str s) n -> subtree_meshes (f_meshes x) n ms -> (forall lm, In lm ms -> indices_fine lm) ->
  exists m, node_meshes_by_type h s types = Ok m.
Proof.
  intros h x s types root rest n ms Hx Hr Hroot Hn Hms Hf. unfold node_meshes_by_type. rewrite Hr. unfold t3ds_file. rewrite Hx. cbn [bind]. rewrite Hroot.
  apply node_by_name_found in Hn. rewrite Hn. rewrite collect_spec. apply subtree_meshes_spec in Hms.
  rewrite selected_filter, <- Hms.
  assert (E : exists rs, omapM mesh_of_3ds (filter (fun lm => char_in (letter lm) types) ms) = Ok rs).
  { clear - Hf. induction ms as [|lm ms IH]; [exists []; reflexivity|]. destruct IH as [rs E]. { intros; apply Hf; right; auto. }
    cbn [filter]. destruct (char_in (letter lm) types); eauto. destruct (mesh_of_3ds_fine lm) as [r Er]. { apply Hf; left; auto. }
    cbn [omapM]. rewrite Er, E. eexists; reflexivity. }
  destruct E as [rs ->]. eexists; reflexivity.
Qed.
Lemma C36_undefined_proof : forall h s types, can_read (th_modes h) = true ->
  (th_file h = None \/ (exists x, th_file h = Some x /\ (f_nodes x = [] \/ exists root rest, f_nodes x = root :: rest /\ not_found root (c_str s)))) ->
  node_meshes_by_type h s types = UB.
Proof.
  intros h s types Hr H. unfold node_meshes_by_type. rewrite Hr. unfold t3ds_file.
  destruct H as [->|(x & -> & [H|(root & rest & H & Hn)])]; auto; cbn [bind]; rewrite H; auto.
  apply node_by_name_not in Hn. now rewrite Hn.
Qed.

(** ** C37, C38 *)
Lemma fold_total {A} (m : list (ascii * list A)) : forall k, fold_left (fun t p => (t + length (snd p))%nat) m k = (k + length (concat (map snd m)))%nat.
Proof. induction m as [|p m IH]; intros k; cbn; [lia|]. rewrite IH, app_length. lia. Qed.
Lemma fold_append {A} (m : list (ascii * list A)) : forall v, fold_left (fun v p => v ++ snd p) m v = v ++ concat (map snd m).
Proof. induction m as [|p m IH]; intros v; cbn; [now rewrite app_nil_r|]. rewrite IH, <- app_assoc. reflexivity. Qed.
Lemma C37_proof : forall h s types m, node_meshes_by_type h s types = Ok m ->
  node_meshes h s types = Ok (repeat mesh_empty (length (concat (map snd m))) ++ concat (map snd m)).
Proof.
  intros h s types m H. unfold node_meshes. rewrite H. cbn [bind]. rewrite fold_total, fold_append. reflexivity.
Qed.
Lemma concat_map_concat {A B} (g : A -> list B) (l : list (list A)) : concat (map g (concat l)) = concat (map (fun x => concat (map g x)) l).
Proof. induction l as [|a l IH]; cbn; auto. rewrite map_app, concat_app, IH. reflexivity. Qed.
Lemma sum_points_app a b : sum_points (a ++ b) = (sum_points a + sum_points b)%N.
Proof. induction a as [|m a IH]; cbn; auto. fold (sum_points (a ++ b)). rewrite IH. fold (sum_points a). lia. Qed.
Lemma sum_points_concat l : sum_points l = nsize (concat (map m_points l)).
Proof. induction l as [|m l IH]; cbn; auto. fold (sum_points l). rewrite IH, nsize_app. reflexivity. Qed.
Lemma collected_wf h s types m : node_meshes_by_type h s types = Ok m -> forall r, In r (concat (map snd m)) -> mesh_wf r.
Proof.
  intros H r Hr. assert (Ex : exists x, th_file h = Some x).
  { unfold node_meshes_by_type in H. destruct (can_read (th_modes h)); [|discriminate]. unfold t3ds_file in H. destruct (th_file h); [eauto|discriminate]. }
  destruct Ex as [x Hx]. destruct (C36_value_proof h x s types m Hx H) as (root & rest & n & ms & _ & _ & _ & _ & _ & V).
  apply in_concat in Hr as (l & Hl & Hr). apply in_map_iff in Hl as ([c rs] & <- & Hc). specialize (V c rs Hc). cbn in Hr.
  assert (G : exists lm, mesh_of_3ds lm = Ok r).
  { clear - V Hr. induction V; [destruct Hr|]. destruct Hr as [->|Hr]; eauto. }
  destruct G as [lm G]. now apply mesh_of_3ds_wf in G.
Qed.
Lemma C38_proof : forall h s types m, node_meshes_by_type h s types = Ok m -> (sum_points (concat (map snd m)) <= two64)%N ->
  exists r, t3ds_mesh h s types = Ok r /\ m_name r = s /\ mesh_wf r /\
    polygons r = concat (map polygons (concat (map snd m))) /\ m_points r = concat (map m_points (concat (map snd m))).
Proof.
  intros h s types m H Hs. pose proof (collected_wf h s types m H) as W. unfold t3ds_mesh, t3ds_mesh_by_type. rewrite H. cbn [bind].
  eexists. split; [reflexivity|]. cbn [snd mesh_set_name mesh_copy m_name]. split; auto. rewrite map_map. cbn [snd].
  assert (G : forall p, In p m -> mesh_wf (sum_meshes (snd p)) /\ polygons (sum_meshes (snd p)) = concat (map polygons (snd p)) /\ m_points (sum_meshes (snd p)) = concat (map m_points (snd p))).
  { intros p Hp. apply sum_meshes_spec.
    - intros r Hr. apply W. apply in_concat. exists (snd p). split; auto. apply in_map; auto.
    - apply in_split in Hp as (a & b & ->). rewrite map_app, concat_app in Hs. cbn [map concat] in Hs. rewrite !sum_points_app in Hs. lia. }
  assert (E1 : concat (map polygons (map (fun p => sum_meshes (snd p)) m)) = concat (map polygons (concat (map snd m)))).
  { rewrite concat_map_concat. rewrite !map_map. f_equal. apply map_ext_in. intros p Hp. apply G; auto. }
  assert (E2 : concat (map m_points (map (fun p => sum_meshes (snd p)) m)) = concat (map m_points (concat (map snd m)))).
  { rewrite concat_map_concat. rewrite !map_map. f_equal. apply map_ext_in. intros p Hp. apply G; auto. }
  destruct (sum_meshes_spec (map (fun p => sum_meshes (snd p)) m)) as (A & B & C).
  { intros r Hr. apply in_map_iff in Hr as (p & <- & Hp). apply G; auto. }
  { rewrite sum_points_concat, E2, <- sum_points_concat. exact Hs. }
  rewrite E1 in B. rewrite E2 in C. split; [exact A|]. split; [exact B|exact C].
Qed.
