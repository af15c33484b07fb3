(** * More on C04, C07, C12 and C13: sums of meshes with faces of any degree,
    sum of a mesh with itself, normals of the exported triangles, outcome of the
    3DS export. *)
From Verif Require Import Base Dbl Dbl_facts Shadow Shadow_hist Spec_shadow
  Shadow_proofs Face_proofs Face3ds_proofs Props_shadow.

(** C04 under the sole condition that indices exist (faces of any degree).  A mesh
    without points but with faces of degree 0 loses those faces. *)
Theorem C04_indices : forall a b,
  (forall f i, In f (m_faces a) -> In i f -> (i < nsize (m_points a))%N) ->
  (forall f i, In f (m_faces b) -> In i f -> (i < nsize (m_points b))%N) ->
  (nsize (m_points a) + nsize (m_points b) <= two64)%N ->
  (forall f i, In f (m_faces (mesh_add a b)) -> In i f -> (i < nsize (m_points (mesh_add a b)))%N) /\
  m_points (mesh_add a b) = m_points a ++ m_points b /\
  (m_points a <> [] \/ m_faces a = [] -> polygons (mesh_add a b) = polygons a ++ polygons b) /\
  (m_points a = [] -> polygons (mesh_add a b) = polygons b).
Proof.
  intros a b Ha Hb Hs. destruct (points_dec a) as [E|E].
  - rewrite mesh_add_empty_left by auto. unfold polygons; cbn [m_points m_faces]. rewrite E. cbn [app].
    split; [exact Hb|]. split; [reflexivity|]. split; [|reflexivity].
    intros [H|H]; [congruence|]. rewrite H. reflexivity.
  - rewrite mesh_add_split by auto. unfold polygons; cbn [m_points m_faces].
    assert (forall f, In f (m_faces b) ->
      face_offset (nsize (m_points a)) f = map (fun i => (i + nsize (m_points a))%N) f) as Hoff.
    { intros f Hf. apply face_offset_small with (n := nsize (m_points b)); [intros; eapply Hb; eauto|lia]. }
    split; [|split; [reflexivity|split; [|congruence]]].
    + intros f i H Hi. rewrite nsize_app. apply in_app_or in H as [H|H].
      * specialize (Ha f i H Hi). lia.
      * apply in_map_iff in H as (g & <- & Hg). rewrite Hoff in Hi by auto.
        apply in_map_iff in Hi as (j & <- & Hj). specialize (Hb g j Hg Hj). lia.
    + intros _. rewrite map_app. f_equal.
      * apply map_ext_in. intros f Hf. apply map_ext_in. intros i Hi.
        apply nth_error_app1. specialize (Ha f i Hf Hi). unfold nsize in *. lia.
      * rewrite map_map. apply map_ext_in. intros f Hf. rewrite Hoff by auto.
        rewrite map_map. apply map_ext. intros i. apply nth_error_app_shift.
Qed.
Example C04_indices_example :
  let seg := mesh_make [] [p123; point_default] [[1; 0]%N; []] in
  m_faces (mesh_add seg seg) = [[1; 0]; []; [3; 2]; []]%N /\
  m_faces (mesh_add (mesh_make [] [] [[]]) seg) = [[1; 0]; []]%N.
Proof. split; vm_compute; reflexivity. Qed.

(** C07: m + m is well defined and doubles the geometry *)
Theorem C07_copy : forall m, mesh_wf m -> (2 * nsize (m_points m) <= two64)%N ->
  mesh_wf (mesh_add m m) /\ polygons (mesh_add m m) = polygons m ++ polygons m /\
  m_points (mesh_add m m) = m_points m ++ m_points m /\ m_bbox (mesh_add m m) = m_bbox m /\
  (m_points m <> [] -> m_name (mesh_add m m) = m_name m ++ underscore :: m_name m).
Proof.
  intros m H Hs. destruct (C04_sum_concatenates m m H H) as (A & B & C & _); [lia|].
  split; [exact A|]. split; [exact B|]. split; [exact C|]. split.
  - destruct (points_dec m) as [E|E]; [apply C06_box_of_sum, E|].
    rewrite (proj1 (C06_box_of_sum m m) E). apply C01_union_idempotent.
  - intros E. rewrite mesh_add_split by exact E. reflexivity.
Qed.
Example C07_example : mesh_add_assign_self tri_mesh = UB /\ mesh_wf tri_mesh /\
  (2 * nsize (m_points tri_mesh) <= two64)%N /\ length (m_points (mesh_add tri_mesh tri_mesh)) = 6%nat.
Proof.
  split; [vm_compute; reflexivity|]. split; [exact (proj1 C04_example)|]. split; [vm_compute; discriminate|vm_compute; reflexivity].
Qed.

(** the exported triangle (a,b,c): 16-bit indices and binary32 unit normal of its corners *)
Definition triangle_3ds (P : list point) (t : N * N * N) (lf : lib3ds_face) : Prop :=
  let '(a, b, c) := t in
  let n := normal_to (pt P a) (pt P b) (pt P c) in
  lf = mkLFace (a mod 65536) (b mod 65536) (c mod 65536) (f32_of_dbl (vx n)) (f32_of_dbl (vy n)) (f32_of_dbl (vz n)).
(** C12: every triangle of the fan, with its normal *)
Theorem C12_triangles : forall f P,
  (length f <= length P)%nat -> (forall i, In i f -> (i < nsize P)%N) ->
  face_is_convex f P = Ok true ->
  exists lfs, face_to_3ds f P = Ok lfs /\ Forall2 (triangle_3ds P) (fan f) lfs.
Proof.
  intros f P HP Hi Hc. assert (3 <= length f)%nat as Hd.
  { destruct (Nat.lt_ge_cases (length f) 3); auto. exfalso.
    assert (face_is_convex f P = Throw OutOfRange) by (apply C11_throws_proof; auto). congruence. }
  unfold face_to_3ds. destruct (Nat.ltb_spec (length P) (length f)); [lia|]. rewrite Hc. cbn [bind].
  destruct f as [|a l]; [cbn in Hd; lia|].
  assert (forall ps, (forall bc, In bc ps -> In (fst bc) l /\ In (snd bc) l) ->
    exists lfs, omapM (fun bc => fan_face P a (fst bc) (snd bc)) ps = Ok lfs /\
      Forall2 (triangle_3ds P) (map (fun bc => (a, fst bc, snd bc)) ps) lfs) as Hps.
  { induction ps as [|[b c] ps IH]; intros Hin; [exists []; split; [reflexivity|constructor]|].
    destruct (Hin (b, c) (or_introl eq_refl)) as [Hb Hb']. cbn [fst snd] in Hb, Hb'.
    destruct IH as (lfs & E3 & E4); [intros; apply Hin; right; auto|].
    cbn [omapM map fst snd]. unfold fan_face at 1.
    rewrite !pt_ok by (apply Hi; cbn; auto). cbn [bind]. rewrite E3. cbn [bind].
    eexists; split; [reflexivity|]. constructor; [reflexivity|exact E4]. }
  destruct (Hps (fan_pairs l)) as (lfs & E1 & E2); [intros; apply fan_pairs_In; auto|].
  exists lfs. split; [exact E1|].
  replace (fan (a :: l)) with (map (fun bc => (a, fst bc, snd bc)) (fan_pairs l)); [exact E2|].
  apply fan_pairs_fan. cbn [length] in Hd. lia.
Qed.
Example C12_triangles_example : omap (map (fun t => (lf_tri t, lf_nz t))) (face_to_3ds [0;1;2;3]%N square) =
  Ok [((0, 1, 2)%N, f32_of_dbl (dofZ 1)); ((0, 2, 3)%N, f32_of_dbl (dofZ 1))].
Proof. vm_compute. reflexivity. Qed.

(** C13: within the limits the export succeeds exactly for convex faces *)
Definition convex_at (f : face) (P : list point) : Prop :=
  length f = 3%nat \/ forall k, (k < length f)%nat -> corner_convex f P k = true.
Lemma store_faces_outcome P : forall F k, (length F <= k)%nat ->
  (forall f, In f F -> (3 <= length f <= length P)%nat /\ forall i, In i f -> (i < nsize P)%N) ->
  ((forall f, In f F -> face_is_convex f P = Ok true) -> exists ts, store_faces P F k = Ok ts) /\
  (~ (forall f, In f F -> face_is_convex f P = Ok true) -> store_faces P F k = Throw LogicError).
Proof.
  induction F as [|f F IH]; intros k Hk H.
  - split; [intros _; exists []; reflexivity|]. intros N. destruct N. intros f [].
  - destruct k as [|k]; [cbn in Hk; lia|]. cbn [store_faces].
    destruct (IH k) as [IH1 IH2]; [cbn in Hk; lia|intros; apply H; right; auto|].
    destruct (H f (or_introl eq_refl)) as [[Hd Hp] Hi].
    assert (exists b, face_is_convex f P = Ok b) as [b Hb].
    { destruct (C11_convexity_value f P Hp) as [C1 C2].
      destruct (Nat.eq_dec (length f) 3) as [E3|E3]; [eexists; apply C1, E3|eexists; apply C2; [lia|exact Hi]]. }
    destruct (C12_fan f P Hp Hi) as [F1 F2]. destruct b.
    + destruct (F1 Hb) as (lfs & -> & Hl & _). cbn [bind]. destruct lfs as [|t lfs]; [cbn in Hl; lia|]. split.
      * intros A. destruct IH1 as [ts ->]; [intros; apply A; right; auto|]. cbn [bind]. eauto.
      * intros A. rewrite IH2; [reflexivity|]. intros B. apply A. intros g [<-|Hg]; auto.
    + rewrite (F2 Hb). cbn [bind]. split; [|reflexivity]. intros A. rewrite (A f (or_introl eq_refl)) in Hb. discriminate.
Qed.
Theorem C13_outcome : forall m,
  (length (c_str (m_name m)) < 63)%nat -> (nsize (m_points m) < 65536)%N ->
  (Z.of_nat (sum_deg 2 (m_faces m)) < 2147483648)%Z ->
  mesh_wf m -> (forall f, In f (m_faces m) -> (length f <= length (m_points m))%nat) ->
  ((forall f, In f (m_faces m) -> convex_at f (m_points m)) ->
    exists lm, mesh_to_3ds m = Ok lm /\ lm_name lm = c_str (m_name m) /\
      lm_points lm = map (fun p => (f32_of_dbl (px p), f32_of_dbl (py p), f32_of_dbl (pz p))) (m_points m) /\
      length (lm_faces lm) = sum_deg 2 (m_faces m) /\
      forall k f, nth_error (m_faces m) k = Some f ->
        exists t, nth_error (lm_faces lm) k = Some t /\ triangle_3ds (m_points m) (cyc f 0, cyc f 1, cyc f 2) t) /\
  (~ (forall f, In f (m_faces m) -> convex_at f (m_points m)) -> mesh_to_3ds m = Throw LogicError).
Proof.
  intros m Hn Hp Hs W Hd.
  assert (forall f, In f (m_faces m) -> (face_is_convex f (m_points m) = Ok true <-> convex_at f (m_points m))) as Hcv.
  { intros f Hf. destruct (C11_convexity_value f (m_points m) (Hd f Hf)) as [C1 C2]. unfold convex_at.
    destruct (W f Hf) as [L I]. destruct (Nat.eq_dec (length f) 3) as [E3|E3]; [rewrite C1 by auto; tauto|].
    rewrite C2 by (auto; lia). split.
    - intros H. right. intros k Hk.
      assert (forallb (corner_convex f (m_points m)) (seq 0 (length f)) = true) as H' by congruence.
      rewrite forallb_forall in H'. apply H'. apply in_seq. lia.
    - intros [H|H]; [congruence|]. f_equal. apply forallb_forall. intros k Hk. apply in_seq in Hk. apply H. lia. }
  assert (length (m_faces m) <= sum_deg 2 (m_faces m))%nat as Hl.
  { rewrite sum_deg_split by (intros; apply W; auto). lia. }
  destruct (store_faces_outcome (m_points m) (m_faces m) (sum_deg 2 (m_faces m)) Hl) as [S1 S2].
  { intros f Hf. split; [split; [apply W, Hf|apply Hd, Hf]|apply W, Hf]. }
  assert (mesh_to_3ds m = let* tris := store_faces (m_points m) (m_faces m) (sum_deg 2 (m_faces m)) in
      Ok (mkLMesh (c_str (m_name m)) (map pt_to_3ds (m_points m))
                  (tris ++ repeat lface_zero (sum_deg 2 (m_faces m) - length tris)))) as Em.
  { unfold mesh_to_3ds. destruct (Nat.leb_spec 63 (length (c_str (m_name m)))); [lia|].
    destruct (N.leb_spec 65536 (nsize (m_points m))); [lia|].
    assert (slots_3ds (m_faces m) = Z.of_nat (sum_deg 2 (m_faces m))) as Es.
    { unfold slots_3ds. rewrite slots_sum; [lia|]. intros f Hf; destruct (W f Hf); lia. }
    rewrite Es. destruct (Z.ltb_spec (Z.of_nat (sum_deg 2 (m_faces m))) 0); [lia|].
    destruct (Z.leb_spec 2147483648 (Z.of_nat (sum_deg 2 (m_faces m)))); [lia|]. cbn [orb]. rewrite Nat2Z.id. reflexivity. }
  split.
  - intros A. destruct S1 as [ts Ets]; [intros f Hf; apply Hcv; auto|].
    rewrite Ets in Em. cbn [bind] in Em. eexists. split; [exact Em|]. cbn [lm_name lm_points].
    split; [reflexivity|]. split; [reflexivity|].
    destruct (C13_export_first_triangles m _ Em) as (L & K & _). split; [exact L|].
    intros k f Hk. destruct (K k f Hk) as (t & r & E1 & E2). exists t. split; [exact E2|].
    assert (In f (m_faces m)) as Hf by (eapply nth_error_In; eauto).
    destruct (W f Hf) as [L3 I].
    destruct (C12_triangles f (m_points m) (Hd f Hf) I) as (lfs & E3 & F2); [apply Hcv; auto|].
    rewrite E1 in E3. injection E3 as <-. unfold fan in F2. destruct (length f - 2)%nat as [|d] eqn:Ed; [lia|].
    cbn [seq map] in F2. inversion F2. assumption.
  - intros A. rewrite Em, S2; [reflexivity|]. intros B. apply A. intros f Hf. apply Hcv; auto.
Qed.
Example C13_outcome_example : mesh_to_3ds (mesh_make [] dart [[0;1;2;3]%N]) = Throw LogicError /\
  mesh_wf (mesh_make [] dart [[0;1;2;3]%N]) /\ corner_convex [0;1;2;3]%N dart 1 = false.
Proof.
  split; [vm_compute; reflexivity|]. split; [|vm_compute; reflexivity].
  intros f [<-|[]]. split; [cbn; lia|]. intros i Hi. cbn in Hi. vm_compute. intuition; subst; reflexivity.
Qed.

(** ** What a name is as a C string (C13, C15, C36, C79): up to the first NUL byte *)
Definition up_to_nul (s t : str) : Prop := ~ In "000"%char t /\ (s = t \/ exists r, s = t ++ "000"%char :: r).
Theorem C15_name_cut : forall s t, c_str s = t <-> up_to_nul s t.
Proof.
  unfold up_to_nul. induction s as [|a s IH]; intros t; cbn [c_str].
  - split; [intros <-; split; [intros []|auto]|]. intros [_ [->|(r & E)]]; auto. destruct t; discriminate.
  - destruct (Ascii.eqb_spec a zero) as [->|N].
    + split; [intros <-; split; [intros []|right; exists s; reflexivity]|]. intros [H [E|(r & E)]]; [subst t; exfalso; apply H; now left|]. destruct t as [|b t]; auto. cbn [app] in E. injection E as <- _. exfalso. apply H. now left.
    + split.
      * intros <-. destruct (proj1 (IH _) eq_refl) as [H K]. split; [intros [E|I']; [now apply N|auto]|]. destruct K as [K|(r & K)]; [left; congruence|right; exists r; cbn [app]; congruence].
      * intros [H K]. destruct t as [|b t].
        -- exfalso. destruct K as [K|(r & K)]; [discriminate|]. cbn [app] in K. injection K as K _. now apply N.
        -- assert (a = b) as -> by (destruct K as [K|(r & K)]; cbn [app] in K; congruence). f_equal. apply IH. split; [intros I'; apply H; now right|]. destruct K as [K|(r & K)]; cbn [app] in K; [left; congruence|right; exists r; congruence].
Qed.
Example C15_name_cut_example : up_to_nul ["a"; "000"; "b"]%char ["a"]%char.
Proof. split; [intros [|[]]; discriminate|]. right. now exists ["b"%char]. Qed.

(** ** C03: what a statement does to the variables *)
(** the variables a statement names *)
Definition named (o : mop) : list nat :=
  match o with
  | ODefault i | OMake i _ _ _ | OSetName i _ => [i]
  | OCopy i j | OMove i j | OAssign i j | OMoveAssign i j | OSwap i j | OAddAssign i j => [i; j]
  | OAdd i j k => [i; j; k]
  end.
(** the variables only read *)
Definition read (o : mop) : list nat := match o with OCopy _ j | OAssign _ j | OAddAssign _ j => [j] | OAdd _ j k => [j; k] | _ => [] end.
Definition target (o : mop) : nat :=
  match o with ODefault i | OMake i _ _ _ | OSetName i _ | OCopy i _ | OMove i _ | OAssign i _ | OMoveAssign i _ | OSwap i _ | OAddAssign i _ | OAdd i _ _ => i end.
Lemma upd_same s i m : upd s i m i = m.
Proof. unfold upd. now rewrite Nat.eqb_refl. Qed.
Lemma upd_other s i m k : k <> i -> upd s i m k = s k.
Proof. intros N. unfold upd. apply Nat.eqb_neq in N. now rewrite N. Qed.
Theorem C03_statements : forall s o s', mstep s o = Some s' ->
  (forall k, ~ In k (named o) -> s' k = s k) /\ (forall k, In k (read o) -> k <> target o -> s' k = s k) /\
  (forall i j, o = OSwap i j -> s' i = s j /\ s' j = s i) /\
  (forall i j, o = OCopy i j -> s' i = s j) /\
  (forall i j, o = OMove i j \/ o = OMoveAssign i j -> s' i = s j /\ s' j = None) /\
  (forall i j, o = OAssign i j -> exists a b m, s i = Some a /\ s j = Some b /\ s' i = Some m /\ m_name m = m_name b /\ m_points m = m_points b /\ m_faces m = m_faces b /\ m_bbox m = m_bbox a) /\
  (forall i j, o = OAddAssign i j -> i <> j -> exists a b m, s i = Some a /\ s j = Some b /\ s' i = Some m /\ m = mesh_add a b) /\
  (forall i j k, o = OAdd i j k -> exists a b, s j = Some a /\ s k = Some b /\ s' i = Some (mesh_add a b)) /\
  (forall i n, o = OSetName i n -> exists a m, s i = Some a /\ s' i = Some m /\ m_name m = n /\ m_points m = m_points a /\ m_faces m = m_faces a /\ m_bbox m = m_bbox a) /\
  (forall i n P F, o = OMake i n P F -> exists m, s' i = Some m /\ m_name m = n /\ m_points m = P /\ m_faces m = F) /\
  (forall i, o = ODefault i -> exists m, s' i = Some m /\ m_name m = [] /\ m_points m = [] /\ m_faces m = []).
Proof.
  assert (forall a b, mesh_add_assign a b = mesh_add a b) as Add by reflexivity.
  intros s o s' E.
  split; [|split; [|split; [|split; [|split; [|split; [|split; [|split; [|split; [|split]]]]]]]]].
  - intros k N. destruct o; cbn [mstep named In] in *; repeat match type of E with context [match ?x with _ => _ end] => destruct x eqn:? end; try discriminate; injection E as <-; rewrite ?upd_other; auto; intros ->; apply N; auto.
  - intros k I N. destruct o; cbn [mstep read target In] in *; try contradiction; repeat match type of E with context [match ?x with _ => _ end] => destruct x eqn:? end; try discriminate; injection E as <-; now rewrite upd_other.
  - intros i j ->. cbn [mstep] in E. destruct (s i) as [a|] eqn:Ei; [|discriminate]. destruct (s j) as [b|] eqn:Ej; [|discriminate]. destruct (C03_transfer a b) as (_ & _ & _ & Sw & _). rewrite Sw in E. cbn [fst snd] in E. injection E as <-. rewrite upd_same. split; auto. destruct (Nat.eq_dec j i) as [->|N]; [rewrite upd_same; congruence|]. rewrite upd_other, upd_same; auto.
  - intros i j ->. cbn [mstep] in E. destruct (s j) as [b|]; [|discriminate]. destruct (C03_transfer b b) as (Cp & _). rewrite Cp in E. injection E as <-. now rewrite upd_same.
  - intros i j [-> | ->]; cbn [mstep] in E.
    + destruct (s j) as [b|]; [|discriminate]. destruct (Nat.eqb_spec i j); [discriminate|]. injection E as <-. rewrite upd_same. split; [apply f_equal, (C03_transfer b b)|]. rewrite upd_other, upd_same; auto.
    + destruct (s i) as [a|]; [|discriminate]. destruct (s j) as [b|]; [|discriminate]. destruct (Nat.eqb_spec i j); [discriminate|]. injection E as <-. rewrite upd_same. split; [apply f_equal, (C03_transfer a b)|]. rewrite upd_other, upd_same; auto.
  - intros i j ->. cbn [mstep] in E. destruct (s i) as [a|]; [|discriminate]. destruct (s j) as [b|]; [|discriminate]. injection E as <-. exists a, b. eexists. split; auto. split; auto. rewrite upd_same. split; [reflexivity|]. apply C03_transfer.
  - intros i j -> N. cbn [mstep] in E. destruct (s i) as [a|]; [|discriminate]. destruct (s j) as [b|]; [|discriminate]. apply Nat.eqb_neq in N. rewrite N in E. injection E as <-. exists a, b. eexists. split; auto. split; auto. rewrite upd_same. split; [reflexivity|]. apply Add.
  - intros i j k ->. cbn [mstep] in E. destruct (s j) as [a|]; [|discriminate]. destruct (s k) as [b|]; [|discriminate]. injection E as <-. exists a, b. rewrite upd_same. auto.
  - intros i n ->. cbn [mstep] in E. destruct (s i) as [a|]; [|discriminate]. injection E as <-. exists a. eexists. split; auto. rewrite upd_same. split; [reflexivity|]. destruct (C03_transfer a a) as (_ & _ & _ & _ & _ & T & _). specialize (T n). cbv zeta in T. tauto.
  - intros i n P F ->. cbn [mstep] in E. injection E as <-. eexists. rewrite upd_same. split; [reflexivity|]. now split.
  - intros i ->. cbn [mstep] in E. injection E as <-. eexists. rewrite upd_same. split; [reflexivity|]. now split.
Qed.
Example C03_statements_example : exists s s' a b, mrun store_init [OMake 0 [] dart [[0;1;2;3]%N]; ODefault 1] = Some s /\
  mstep s (OSwap 0 1) = Some s' /\ s' 0%nat = Some a /\ s' 1%nat = Some b /\ m_points a = [] /\ m_points b = dart /\ dart <> [].
Proof. do 4 eexists. split; [vm_compute; reflexivity|]. split; [vm_compute; reflexivity|]. split; [vm_compute; reflexivity|]. split; [vm_compute; reflexivity|]. repeat split. discriminate. Qed.
