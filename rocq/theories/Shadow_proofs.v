(** * Proofs about the shadow layer (C01-C17). *)
From Verif Require Import Base Dbl Dbl_facts Shadow Shadow_hist Spec_shadow.

Arguments compute_bbox : simpl never.

(** ** C01, C02: boxes *)

Lemma dmin_assoc_eq a b c : disnan a = false -> disnan b = false ->
  dmin (dmin a b) c = dmin a (dmin b c).
Proof.
  intros Ha Hb. destruct (disnan c) eqn:Hc.
  { apply disnan_true in Hc; subst. rewrite !dmin_nan_r. reflexivity. }
  unfold dmin. destruct (dltb b a) eqn:Eba; destruct (dltb c b) eqn:Ecb.
  - assert (dltb c a = true) as ->; auto.
    apply dltb_key; auto. apply dltb_key in Eba, Ecb; auto. eapply lexlt_trans; eauto.
  - rewrite Eba. reflexivity.
  - reflexivity.
  - rewrite Eba. assert (dltb c a = false) as ->; auto.
    apply not_true_is_false. intros H.
    pose proof (dltb_false_dleb _ _ Hb Ha Eba) as H1.
    pose proof (dltb_false_dleb _ _ Hc Hb Ecb) as H2.
    pose proof (dleb_trans _ _ _ H1 H2) as H3.
    apply dleb_key in H3; auto. apply dltb_key in H; auto.
    destruct H3 as [H3|H3]; [exact (lexlt_asym _ _ H H3)|rewrite H3 in H; exact (lexlt_irrefl _ H)].
Qed.
Lemma dmax_assoc_eq a b c : disnan a = false -> disnan b = false ->
  dmax (dmax a b) c = dmax a (dmax b c).
Proof.
  intros Ha Hb. destruct (disnan c) eqn:Hc.
  { apply disnan_true in Hc; subst. rewrite !dmax_nan_r. reflexivity. }
  unfold dmax. destruct (dltb a b) eqn:Eba; destruct (dltb b c) eqn:Ecb.
  - assert (dltb a c = true) as ->; auto.
    apply dltb_key; auto. apply dltb_key in Eba, Ecb; auto. eapply lexlt_trans; eauto.
  - rewrite Eba. reflexivity.
  - reflexivity.
  - rewrite Eba. assert (dltb a c = false) as ->; auto.
    apply not_true_is_false. intros H.
    pose proof (dltb_false_dleb _ _ Ha Hb Eba) as H1.
    pose proof (dltb_false_dleb _ _ Hb Hc Ecb) as H2.
    pose proof (dleb_trans _ _ _ H2 H1) as H3.
    apply dleb_key in H3; auto. apply dltb_key in H; auto.
    destruct H3 as [H3|H3]; [exact (lexlt_asym _ _ H H3)|rewrite H3 in H; exact (lexlt_irrefl _ H)].
Qed.

Ltac split_box := unfold encloses, box_same, box_nan_free in *; cbn [bbox_add xmin xmax ymin ymax zmin zmax] in *;
  repeat match goal with H : _ /\ _ |- _ => destruct H end.

Lemma bbox_add_lub_proof a b : box_nan_free a -> box_nan_free b ->
  encloses (bbox_add a b) a /\ encloses (bbox_add a b) b /\
  (forall c, encloses c a -> encloses c b -> encloses c (bbox_add a b)) /\
  box_nan_free (bbox_add a b).
Proof.
  intros Ha Hb. split_box. repeat split;
    auto using dmin_le_l, dmin_le_r, dmax_ge_l, dmax_ge_r, dmin_notnan, dmax_notnan;
    intros; split_box; auto using dmin_glb, dmax_lub.
Qed.
Lemma bbox_add_comm_proof a b : box_nan_free a -> box_nan_free b -> box_same (bbox_add a b) (bbox_add b a).
Proof. intros Ha Hb. split_box. repeat split; auto using dmin_comm, dmax_comm. Qed.
Lemma bbox_add_assoc_proof a b c : box_nan_free a -> box_nan_free b ->
  bbox_add (bbox_add a b) c = bbox_add a (bbox_add b c).
Proof.
  intros Ha Hb. split_box. unfold bbox_add; cbn. f_equal; auto using dmin_assoc_eq, dmax_assoc_eq.
Qed.
Lemma bbox_add_idem_proof a : bbox_add a a = a.
Proof. destruct a; unfold bbox_add; cbn. rewrite !dmin_idem, !dmax_idem. reflexivity. Qed.
Lemma bbox_add_empty_r a : bbox_add a bbox_empty = a.
Proof. destruct a; unfold bbox_add; cbn. rewrite !dmin_inf_r, !dmax_ninf_r. reflexivity. Qed.
Lemma bbox_add_empty_l a : box_nan_free a -> bbox_add bbox_empty a = a.
Proof.
  intros Ha. split_box. destruct a; unfold bbox_add; cbn in *.
  rewrite !dmin_inf_l, !dmax_ninf_l by auto. reflexivity.
Qed.

Lemma compute_bbox_fold P : forall b,
  fold_left (fun b p => bbox_add b (pt_bbox p)) P b =
  mkBbox (fold_left dmin (map px P) (xmin b)) (fold_left dmax (map px P) (xmax b))
         (fold_left dmin (map py P) (ymin b)) (fold_left dmax (map py P) (ymax b))
         (fold_left dmin (map pz P) (zmin b)) (fold_left dmax (map pz P) (zmax b)).
Proof. induction P as [|p P IH]; intros b; cbn. destruct b; reflexivity. rewrite IH. reflexivity. Qed.

Lemma tight_fold l : tight_range l (fold_left dmin l dinf) (fold_left dmax l dninf).
Proof.
  unfold tight_range. repeat split.
  - apply fold_dmin_le; auto.
  - apply fold_dmax_ge; auto.
  - destruct (fold_dmin_attained l dinf) as [E|E]; auto.
    destruct (Exists_dec (fun x => disnan x = false) l) as [Hx|Hx].
    { intros x; destruct (disnan x); [right|left]; congruence. }
    + apply Exists_exists in Hx as (x & Hin & Hn). left.
      pose proof (fold_dmin_le l dinf x eq_refl Hin Hn) as H. rewrite E in *.
      apply dleb_inf_l in H. subst; auto.
    + right. split; auto. intros x Hin. destruct (disnan x) eqn:Hn; auto.
      exfalso; apply Hx, Exists_exists; eauto.
  - destruct (fold_dmax_attained l dninf) as [E|E]; auto.
    destruct (Exists_dec (fun x => disnan x = false) l) as [Hx|Hx].
    { intros x; destruct (disnan x); [right|left]; congruence. }
    + apply Exists_exists in Hx as (x & Hin & Hn). left.
      pose proof (fold_dmax_ge l dninf x eq_refl Hin Hn) as H. rewrite E in *.
      apply dleb_ninf_r in H. subst; auto.
    + right. split; auto. intros x Hin. destruct (disnan x) eqn:Hn; auto.
      exfalso; apply Hx, Exists_exists; eauto.
  - apply fold_dmin_notnan; auto.
  - apply fold_dmax_notnan; auto.
Qed.

Lemma compute_bbox_tight P : tight_box P (compute_bbox P).
Proof. unfold tight_box, compute_bbox. rewrite compute_bbox_fold. cbn. auto using tight_fold. Qed.

Lemma mesh_make_tight_proof n P F :
  tight_box P (m_bbox (mesh_make n P F)) /\
  m_name (mesh_make n P F) = n /\ m_points (mesh_make n P F) = P /\ m_faces (mesh_make n P F) = F.
Proof. split; [apply compute_bbox_tight|auto]. Qed.

Lemma compute_bbox_nan_free P : box_nan_free (compute_bbox P).
Proof.
  destruct (compute_bbox_tight P) as (Hx & Hy & Hz).
  unfold box_nan_free, tight_range in *. tauto.
Qed.
Lemma fold_dmin_app l1 : forall l2 a, disnan a = false ->
  fold_left dmin (l1 ++ l2) a = dmin (fold_left dmin l1 a) (fold_left dmin l2 dinf).
Proof.
  assert (forall l2 a, disnan a = false -> fold_left dmin l2 a = dmin a (fold_left dmin l2 dinf)) as H.
  { induction l2 as [|b l2 IH]; intros a Ha; cbn.
    - rewrite dmin_inf_r; auto.
    - destruct (disnan b) eqn:Hb.
      + apply disnan_true in Hb; subst. rewrite !dmin_nan_r. auto.
      + rewrite (dmin_inf_l b) by auto. rewrite (IH (dmin a b)) by auto using dmin_notnan.
        rewrite (IH b Hb). apply dmin_assoc_eq; auto. }
  intros l2 a Ha. rewrite fold_left_app. apply H. apply fold_dmin_notnan; auto.
Qed.
Lemma fold_dmax_app l1 : forall l2 a, disnan a = false ->
  fold_left dmax (l1 ++ l2) a = dmax (fold_left dmax l1 a) (fold_left dmax l2 dninf).
Proof.
  assert (forall l2 a, disnan a = false -> fold_left dmax l2 a = dmax a (fold_left dmax l2 dninf)) as H.
  { induction l2 as [|b l2 IH]; intros a Ha; cbn.
    - rewrite dmax_ninf_r; auto.
    - destruct (disnan b) eqn:Hb.
      + apply disnan_true in Hb; subst. rewrite !dmax_nan_r. auto.
      + rewrite (dmax_ninf_l b) by auto. rewrite (IH (dmax a b)) by auto using dmax_notnan.
        rewrite (IH b Hb). apply dmax_assoc_eq; auto. }
  intros l2 a Ha. rewrite fold_left_app. apply H. apply fold_dmax_notnan; auto.
Qed.
Lemma compute_bbox_app P Q : compute_bbox (P ++ Q) = bbox_add (compute_bbox P) (compute_bbox Q).
Proof.
  unfold compute_bbox. rewrite !compute_bbox_fold. cbn. rewrite !map_app.
  unfold bbox_add; cbn. f_equal; (apply fold_dmin_app || apply fold_dmax_app); reflexivity.
Qed.

(** ** C03: histories of mesh variables *)

Definition store_exact (s : store) : Prop :=
  forall i m, s i = Some m -> m_bbox m = compute_bbox (m_points m).

Lemma store_exact_upd s i m : store_exact s ->
  (forall m', m = Some m' -> m_bbox m' = compute_bbox (m_points m')) -> store_exact (upd s i m).
Proof.
  intros H Hm j m' E. unfold upd in E. destruct (j =? i)%nat; auto. eapply H; eauto.
Qed.

Lemma mesh_is_empty_false m : m_points m <> [] -> mesh_is_empty m = false.
Proof. unfold mesh_is_empty. destruct (m_points m); congruence. Qed.
Lemma mesh_is_empty_true m : m_points m = [] -> mesh_is_empty m = true.
Proof. unfold mesh_is_empty. intros ->. reflexivity. Qed.

Lemma mesh_add_assign_exact a b : m_points a <> [] ->
  m_bbox a = compute_bbox (m_points a) -> m_bbox b = compute_bbox (m_points b) ->
  m_bbox (mesh_add_assign a b) = compute_bbox (m_points (mesh_add_assign a b)).
Proof.
  intros Ha Ea Eb. unfold mesh_add_assign. rewrite mesh_is_empty_false by auto. cbn.
  rewrite compute_bbox_app. congruence.
Qed.

Lemma mstep_exact s o s' : store_exact s -> no_copy_assign s o -> mstep s o = Some s' -> store_exact s'.
Proof.
  intros H Hc E.
  destruct o as [i|i n P F|i j|i j|i j|i j|i j|i j|i j k|i n]; cbn in E, Hc;
    repeat match type of E with
           | match s ?x with _ => _ end = _ => destruct (s x) eqn:?Hs; try discriminate
           | (if ?b then _ else _) = _ => destruct b eqn:?; try discriminate
           end; try contradiction.
  all: try (injection E as <-; repeat apply store_exact_upd; auto; intros m' Em; inversion Em; subst; cbn; eauto; fail).
  - (* += self *)
    unfold mesh_add_assign_self in E. rewrite mesh_is_empty_false in E by auto. discriminate.
  - injection E as <-. apply store_exact_upd; auto. intros m' Em. injection Em as <-.
    apply mesh_add_assign_exact; eauto.
  - injection E as <-. apply store_exact_upd; auto. intros m' Em. injection Em as <-.
    unfold mesh_add. apply mesh_add_assign_exact; cbn; eauto.
Qed.

Lemma mrun_exact os : forall s s', store_exact s -> no_copy_assign_run s os -> mrun s os = Some s' -> store_exact s'.
Proof.
  induction os as [|o os IH]; intros s s' H Hc E; cbn in *.
  - injection E as <-; exact H.
  - destruct Hc as [Hc1 Hc2]. destruct (mstep s o) as [s1|] eqn:E1; try discriminate.
    apply (IH s1); auto. apply (mstep_exact s o); auto.
Qed.

Lemma C03_boxes_tight_proof os s i m :
  no_copy_assign_run store_init os -> mrun store_init os = Some s -> s i = Some m ->
  tight_box (m_points m) (m_bbox m).
Proof.
  intros Hc E Ei. assert (store_exact s) as H.
  { apply (mrun_exact os store_init); auto. intros j m' E'. discriminate. }
  rewrite (H _ _ Ei). apply compute_bbox_tight.
Qed.

Lemma C03_transfer_proof a b :
  (mesh_copy b = b) /\
  (fst (mesh_move b) = b) /\
  (fst (mesh_move_assign a b) = b) /\
  (mesh_swap a b = (b, a)) /\
  (m_name (mesh_assign a b) = m_name b /\ m_points (mesh_assign a b) = m_points b /\
   m_faces (mesh_assign a b) = m_faces b /\ m_bbox (mesh_assign a b) = m_bbox a) /\
  (forall n, let m := fst (mesh_set_name b n) in m_name m = n /\ m_points m = m_points b /\ m_faces m = m_faces b /\ m_bbox m = m_bbox b /\
     snd (mesh_set_name b n) = m) /\
  (* a moved-from mesh has no name, points or faces, but keeps its box *)
  (forall m, m = snd (mesh_move b) \/ m = snd (mesh_move_assign a b) -> m_name m = [] /\ m_points m = [] /\ m_faces m = [] /\ m_bbox m = m_bbox b).
Proof.
  destruct a, b; cbn. repeat (split; auto). all: match goal with H : _ \/ _ |- _ => destruct H as [-> | ->]; reflexivity end.
Qed.

Definition p123 : point := mkPoint (dofZ 1) (dofZ 2) (dofZ 3).
Lemma C03_refuted_proof :
  exists os s i m p, mrun store_init os = Some s /\ s i = Some m /\ In p (m_points m) /\
    ~ box_contains_point (m_bbox m) p.
Proof.
  exists [ODefault 0; OMake 1 [] [p123] []; OAssign 0 1].
  eexists. exists 0%nat. eexists. exists p123.
  split; [vm_compute; reflexivity|]. split; [vm_compute; reflexivity|].
  split; [left; reflexivity|]. unfold box_contains_point, within.
  intros (H & _). specialize (H eq_refl). vm_compute in H. destruct H; discriminate.
Qed.

(** ** C04-C07: sums *)

Lemma face_offset_small d f (n : N) :
  (forall i, In i f -> (i < n)%N) -> (n + d <= two64)%N ->
  face_offset d f = map (fun i => (i + d)%N) f.
Proof.
  intros H Hn. unfold face_offset. apply map_ext_in. intros i Hi. unfold wrap64.
  apply N.mod_small. specialize (H _ Hi). lia.
Qed.

Lemma nth_error_app_shift {A} (P Q : list A) i :
  nth_error (P ++ Q) (N.to_nat (i + nsize P)) = nth_error Q (N.to_nat i).
Proof.
  rewrite nth_error_app2; unfold nsize; [f_equal; lia|lia].
Qed.

Lemma mesh_add_split a b : m_points a <> [] ->
  mesh_add a b = mkMesh (m_name a ++ underscore :: m_name b) (m_points a ++ m_points b)
    (m_faces a ++ map (face_offset (nsize (m_points a))) (m_faces b))
    (bbox_add (m_bbox a) (m_bbox b)).
Proof.
  intros H. unfold mesh_add, mesh_add_assign. rewrite mesh_is_empty_false by exact H. reflexivity.
Qed.
Lemma mesh_add_empty_left a b : m_points a = [] ->
  mesh_add a b = mkMesh (m_name b) (m_points b) (m_faces b) (m_bbox a).
Proof.
  intros H. unfold mesh_add, mesh_add_assign. rewrite mesh_is_empty_true by exact H. reflexivity.
Qed.

Lemma wf_no_points_no_faces m : mesh_wf m -> m_points m = [] -> m_faces m = [].
Proof.
  intros H E. destruct (m_faces m) as [|f F] eqn:EF; auto.
  destruct (H f) as [Hl Hi]; [rewrite EF; left; auto|].
  destruct f as [|i f]; [cbn in Hl; lia|].
  specialize (Hi i (or_introl eq_refl)). rewrite E in Hi. cbn in Hi. lia.
Qed.

Lemma points_dec (m : mesh) : m_points m = [] \/ m_points m <> [].
Proof. destruct (m_points m); [left|right]; congruence. Qed.

Lemma C04_proof a b : mesh_wf a -> mesh_wf b ->
  (nsize (m_points a) + nsize (m_points b) <= two64)%N ->
  mesh_wf (mesh_add a b) /\
  polygons (mesh_add a b) = polygons a ++ polygons b /\
  m_points (mesh_add a b) = m_points a ++ m_points b /\
  length (m_faces (mesh_add a b)) = (length (m_faces a) + length (m_faces b))%nat.
Proof.
  intros Ha Hb Hs. destruct (points_dec a) as [E|E].
  - rewrite mesh_add_empty_left by auto. unfold polygons; cbn.
    rewrite (wf_no_points_no_faces a Ha E), E. cbn. repeat split; auto; apply Hb; auto.
  - rewrite mesh_add_split by auto. unfold polygons; cbn.
    assert (forall f, In f (m_faces b) ->
      face_offset (nsize (m_points a)) f = map (fun i => (i + nsize (m_points a))%N) f) as Hoff.
    { intros f Hf. apply face_offset_small with (n := nsize (m_points b)); [apply Hb; auto|lia]. }
    repeat split; auto.
    + cbn in H. apply in_app_or in H as [H|H]; [apply Ha; auto|].
      apply in_map_iff in H as (g & <- & Hg). unfold face_offset. rewrite map_length. apply Hb; auto.
    + cbn in H |- *. intros i Hi. rewrite nsize_app. apply in_app_or in H as [H|H].
      * specialize (proj2 (Ha f H) i Hi). lia.
      * apply in_map_iff in H as (g & <- & Hg). rewrite Hoff in Hi by auto.
        apply in_map_iff in Hi as (j & <- & Hj). specialize (proj2 (Hb g Hg) j Hj). lia.
    + rewrite map_app. f_equal.
      * apply map_ext_in. intros f Hf. apply map_ext_in. intros i Hi.
        apply nth_error_app1. specialize (proj2 (Ha f Hf) i Hi). unfold nsize. lia.
      * rewrite map_map. apply map_ext_in. intros f Hf. rewrite Hoff by auto.
        rewrite map_map. apply map_ext. intros i. apply nth_error_app_shift.
    + rewrite app_length, map_length. reflexivity.
Qed.

Lemma face_offset_offset d e f : (d + e < two64)%N -> face_offset d (face_offset e f) = face_offset (d + e) f.
Proof.
  intros H. unfold face_offset. rewrite map_map. apply map_ext. intros i. unfold wrap64.
  rewrite N.add_mod_idemp_l by discriminate. f_equal. lia.
Qed.
Lemma face_offset_offset' d e f : face_offset d (face_offset e f) = face_offset (e + d) f.
Proof.
  unfold face_offset. rewrite map_map. apply map_ext. intros i. unfold wrap64.
  rewrite N.add_mod_idemp_l by discriminate. f_equal. lia.
Qed.

Lemma C05_assoc_proof a b c :
  m_points a <> [] -> m_points b <> [] ->
  m_name (mesh_add (mesh_add a b) c) = m_name (mesh_add a (mesh_add b c)) /\
  m_points (mesh_add (mesh_add a b) c) = m_points (mesh_add a (mesh_add b c)) /\
  m_faces (mesh_add (mesh_add a b) c) = m_faces (mesh_add a (mesh_add b c)).
Proof.
  intros Ha Hb. rewrite (mesh_add_split a b Ha), (mesh_add_split b c Hb).
  rewrite !mesh_add_split; cbn; auto.
  2: { destruct (m_points a); [congruence|discriminate]. }
  rewrite <- !app_assoc, map_app, map_map. cbn. repeat split.
  do 2 f_equal. rewrite nsize_app. apply map_ext. intros f.
  rewrite face_offset_offset'. f_equal. lia.
Qed.
Lemma C05_units_proof m :
  (m_name (mesh_add mesh_empty m) = m_name m /\ m_points (mesh_add mesh_empty m) = m_points m /\
   m_faces (mesh_add mesh_empty m) = m_faces m) /\
  (m_points m <> [] ->
   m_name (mesh_add m mesh_empty) = m_name m ++ [underscore] /\
   m_points (mesh_add m mesh_empty) = m_points m /\ m_faces (mesh_add m mesh_empty) = m_faces m /\
   m_bbox (mesh_add m mesh_empty) = m_bbox m).
Proof.
  split; [cbn; auto|]. intros H. rewrite mesh_add_split by auto. cbn.
  rewrite !app_nil_r. repeat split. apply bbox_add_empty_r.
Qed.
(** the middle operand must not be empty: (m + Mesh()) + m' and m + (Mesh() + m') differ in name *)
Lemma C05_refuted_proof : exists a b c, mesh_add (mesh_add a b) c <> mesh_add a (mesh_add b c)
   /\ m_points a <> [] /\ m_points c <> [].
Proof.
  exists (mesh_make [] [p123] []), mesh_empty, (mesh_make [] [p123] []).
  split; [|split; discriminate]. intros E. apply (f_equal m_name) in E. vm_compute in E. discriminate.
Qed.

(** the meshes after the first one that has points *)
Lemma fold_add_nonempty l : forall a, m_points a <> [] ->
  m_bbox (fold_left mesh_add l a) = fold_left bbox_add (map m_bbox l) (m_bbox a).
Proof.
  induction l as [|m l IH]; intros a Ha; cbn; auto.
  rewrite IH; rewrite mesh_add_split by auto; cbn; auto.
  destruct (m_points a); [congruence|discriminate].
Qed.
Lemma C06_fold_proof l : forall a, m_points a = [] ->
  m_bbox (fold_left mesh_add l a) = fold_left bbox_add (map m_bbox (after_first_nonempty l)) (m_bbox a).
Proof.
  induction l as [|m l IH]; intros a Ha; cbn; auto.
  rewrite mesh_add_empty_left by auto. destruct (m_points m) as [|p P] eqn:E.
  - rewrite IH by (cbn; auto). reflexivity.
  - rewrite fold_add_nonempty by (cbn; discriminate). reflexivity.
Qed.
Lemma C06_two_proof a b :
  (m_points a <> [] -> m_bbox (mesh_add a b) = bbox_add (m_bbox a) (m_bbox b)) /\
  (m_points a = [] -> m_bbox (mesh_add a b) = m_bbox a).
Proof.
  split; intros H; [rewrite mesh_add_split by auto|rewrite mesh_add_empty_left by auto]; reflexivity.
Qed.
Lemma C06_refuted_proof : exists l p,
  In p (m_points (fold_left mesh_add l mesh_empty)) /\
  ~ box_contains_point (m_bbox (fold_left mesh_add l mesh_empty)) p.
Proof.
  exists [mesh_make [] [p123] []], p123. split; [left; reflexivity|].
  unfold box_contains_point, within. intros (H & _). specialize (H eq_refl). vm_compute in H. destruct H; discriminate.
Qed.

Lemma C07_proof m :
  (mesh_add_assign_self m = UB <-> m_points m <> []) /\
  (m_points m = [] -> mesh_add_assign_self m = Ok m).
Proof.
  unfold mesh_add_assign_self, mesh_is_empty. destruct m as [n P F b]; cbn. destruct P; cbn; split; try split; try congruence; auto.
Qed.
