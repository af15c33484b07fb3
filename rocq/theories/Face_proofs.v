(** * Proofs about faces (C08-C12). *)
From Verif Require Import Base Dbl Dbl_facts Shadow Spec_shadow.

(** ** Rotations *)
Lemma rotation_refl a : rotation a a.
Proof. exists [], a. split; [reflexivity|]. rewrite app_nil_r. reflexivity. Qed.
Lemma rotation_sym a b : rotation a b -> rotation b a.
Proof. intros (u & v & -> & ->). exists v, u. auto. Qed.
Lemma rotation_length a b : rotation a b -> length a = length b.
Proof. intros (u & v & -> & ->). rewrite !app_length. lia. Qed.
Lemma rotation_perm a b : rotation a b -> Permutation a b.
Proof. intros (u & v & -> & ->). apply Permutation_app_comm. Qed.
Lemma app_eq_cases {A} (u v x y : list A) : u ++ v = x ++ y ->
  (exists w, x = u ++ w /\ v = w ++ y) \/ (exists w, u = x ++ w /\ y = w ++ v).
Proof.
  revert x; induction u as [|a u IH]; intros x E; cbn in E.
  - left. exists x. auto.
  - destruct x as [|b x]; cbn in E.
    + right. exists (a :: u). auto.
    + injection E as -> E. destruct (IH x E) as [(w & -> & ->)|(w & -> & ->)]; [left|right]; exists w; auto.
Qed.
Lemma rotation_trans a b c : rotation a b -> rotation b c -> rotation a c.
Proof.
  intros (u & v & -> & Eb) (x & y & Eb' & ->). rewrite Eb in Eb'.
  apply app_eq_cases in Eb' as [(w & -> & ->)|(w & -> & ->)].
  - exists w, (y ++ v). rewrite <- !app_assoc. auto.
  - exists (u ++ x), w. rewrite <- !app_assoc. auto.
Qed.

Lemma find_idx_Some x l k : find_idx x l = Some k ->
  nth_error l k = Some x /\ (k < length l)%nat /\ ~ In x (firstn k l).
Proof.
  revert k; induction l as [|a l IH]; intros k E; cbn in E; try discriminate.
  destruct (N.eqb_spec a x) as [->|Hn].
  - injection E as <-. cbn. repeat split; auto; lia.
  - destruct (find_idx x l) as [k'|]; try discriminate. injection E as <-.
    destruct (IH k' eq_refl) as (H1 & H2 & H3). cbn. repeat split; auto; try lia.
    intros [H|H]; auto.
Qed.
Lemma find_idx_None x l : find_idx x l = None <-> ~ In x l.
Proof.
  induction l as [|a l IH]; cbn; [tauto|].
  destruct (N.eqb_spec a x) as [->|Hn]; [split; [discriminate|tauto]|].
  destruct (find_idx x l); cbn; split; try discriminate; intros H.
  - exfalso. apply H. right. destruct (in_dec N.eq_dec x l); auto. exfalso. destruct IH. auto.
    discriminate (H1 n0).
  - intros [E|E]; [auto|]. apply IH in E; auto.
  - auto.
Qed.

Lemma list_eqb_N a b : list_eqb N.eqb a b = true <-> a = b.
Proof. apply list_eqb_spec. apply N.eqb_eq. Qed.

(** equality implies rotation for all faces *)
Lemma face_eqb_rotation a b : face_eqb a b = Ok true -> rotation a b.
Proof.
  unfold face_eqb. destruct (Nat.eqb_spec (length a) (length b)) as [El|]; cbn; try discriminate.
  destruct a as [|x a]; try discriminate. destruct (find_idx x b) as [k|] eqn:Ek; try discriminate.
  intros H. apply Ok_inj in H. apply list_eqb_N in H.
  exists (skipn k b), (firstn k b). split; auto. symmetry. apply firstn_skipn.
Qed.
Lemma NoDup_app_unique {A} (x : A) (u v u' v' : list A) :
  NoDup (u ++ x :: v) -> u ++ x :: v = u' ++ x :: v' -> u = u' /\ v = v'.
Proof.
  intros H E. apply app_eq_cases in E as [(w & Hw1 & Hw2)|(w & Hw1 & Hw2)].
  - destruct w as [|y w]; cbn in *.
    + rewrite app_nil_r in Hw1. injection Hw2 as ->. auto.
    + injection Hw2 as <- ->. exfalso.
      apply NoDup_remove_2 in H. apply H. apply in_or_app. right. apply in_or_app. right. left; auto.
  - destruct w as [|y w]; cbn in *.
    + rewrite app_nil_r in Hw1. injection Hw2 as ->. auto.
    + injection Hw2 as <- ->. subst. exfalso. rewrite <- app_assoc in H. cbn in H.
      apply NoDup_remove_2 in H. apply H. apply in_or_app. right. apply in_or_app. right. left; auto.
Qed.
Lemma rotation_face_eqb a b : NoDup a -> a <> [] -> rotation a b -> face_eqb a b = Ok true.
Proof.
  intros Hnd Hne Hr. unfold face_eqb. rewrite (rotation_length _ _ Hr), Nat.eqb_refl. cbn.
  destruct a as [|x a]; [congruence|].
  assert (In x b) as Hin. { eapply Permutation_in; [apply rotation_perm; eauto|left; auto]. }
  destruct (find_idx x b) as [k|] eqn:Ek; [|apply find_idx_None in Ek; tauto].
  f_equal. apply list_eqb_N. destruct (find_idx_Some _ _ _ Ek) as (Hk & Hlt & _).
  destruct Hr as (u & v & E1 & E2).
  apply nth_error_split in Hk as (l1 & l2 & Hb & Hl1).
  assert (NoDup b) as Hndb. { eapply Permutation_NoDup; [|exact Hnd]. apply rotation_perm. exists u, v; auto. }
  assert (firstn k b = l1 /\ skipn k b = x :: l2) as [-> ->].
  { rewrite Hb, <- Hl1. rewrite firstn_app, skipn_app, Nat.sub_diag, firstn_all, skipn_all. cbn.
    rewrite app_nil_r. auto. }
  destruct u as [|y u]; cbn in E1.
  - subst v. rewrite app_nil_r in E2. subst b. symmetry in Hb.
    apply (NoDup_app_unique x l1 l2 [] a) in Hb as [-> ->]; [|rewrite Hb; auto].
    rewrite app_nil_r. reflexivity.
  - injection E1 as -> ->. rewrite Hb in E2.
    apply NoDup_app_unique in E2 as [-> ->]; [|rewrite <- Hb; auto]. reflexivity.
Qed.

Lemma C08_rotation_proof a b : NoDup a -> a <> [] -> (face_eqb a b = Ok true <-> rotation a b).
Proof. intros H1 H2. split; [apply face_eqb_rotation|apply rotation_face_eqb; auto]. Qed.
Lemma face_eqb_defined a b : a <> [] \/ b <> [] -> exists r, face_eqb a b = Ok r.
Proof.
  intros H. unfold face_eqb. destruct (Nat.eqb_spec (length a) (length b)); cbn; eauto.
  destruct a as [|x a]; [|destruct (find_idx x b); eauto].
  destruct b; [destruct H; congruence|discriminate].
Qed.
Lemma C08_neq_proof a b : NoDup a -> a <> [] \/ b <> [] -> face_neqb a b = omap negb (face_eqb a b).
Proof.
  intros Hnd Hne. unfold face_neqb. f_equal.
  destruct (face_eqb_defined a b Hne) as [r Hr].
  destruct (face_eqb_defined b a) as [r' Hr']; [tauto|].
  rewrite Hr, Hr'. f_equal.
  destruct r, r'; auto.
  - assert (rotation a b) as Hab by (apply face_eqb_rotation; auto).
    assert (b <> []) as Hb. { intros ->. apply rotation_length in Hab. destruct a; try discriminate; destruct Hne; congruence. }
    assert (face_eqb b a = Ok true) as Hc; [|congruence].
    apply rotation_face_eqb; auto using rotation_sym.
    eapply Permutation_NoDup; [apply rotation_perm; eauto|auto].
  - assert (rotation b a) as Hba by (apply face_eqb_rotation; auto).
    assert (a <> []) as Ha. { intros ->. apply rotation_length in Hba. destruct b; try discriminate; destruct Hne; congruence. }
    assert (face_eqb a b = Ok true) as Hc; [|congruence].
    apply rotation_face_eqb; auto using rotation_sym.
Qed.
Lemma C08_equivalence_proof :
  (forall a, NoDup a -> a <> [] -> face_eqb a a = Ok true) /\
  (forall a b, NoDup a -> a <> [] -> face_eqb a b = Ok true -> face_eqb b a = Ok true) /\
  (forall a b c, NoDup a -> a <> [] -> face_eqb a b = Ok true -> face_eqb b c = Ok true -> face_eqb a c = Ok true).
Proof.
  repeat split.
  - intros. apply rotation_face_eqb; auto using rotation_refl.
  - intros a b Hn He H. apply face_eqb_rotation in H. apply rotation_face_eqb; auto using rotation_sym.
    + eapply Permutation_NoDup; [apply rotation_perm; eauto|auto].
    + intros ->. apply rotation_length in H. destruct a; try discriminate; congruence.
  - intros a b c Hn He H1 H2. apply face_eqb_rotation in H1, H2.
    apply rotation_face_eqb; auto. eapply rotation_trans; eauto.
Qed.
Lemma C08_refuted_proof : exists a b,
  (3 <= length a)%nat /\ face_eqb a b = Ok true /\ face_neqb a b = Ok true /\ face_eqb b a = Ok false /\ rotation b a.
Proof.
  exists [2;1;3;1]%N, [1;2;1;3]%N. repeat split; try (vm_compute; reflexivity); cbn; try lia.
  exists [1]%N, [2;1;3]%N. split; reflexivity.
Qed.
Lemma C08_degree0_proof : face_eqb [] [] = Throw OutOfRange /\ face_neqb [] [] = Throw OutOfRange.
Proof. split; reflexivity. Qed.

(** ** C09 *)
(** edges of the open path x, l1, ..., y *)
Fixpoint path_edges (x : N) (l : list N) : list (N * N) :=
  match l with [] => [] | y :: l => (x, y) :: path_edges y l end.
Lemma cycle_path a l : cycle_edges (a :: l) = path_edges a (l ++ [a]).
Proof.
  unfold cycle_edges.
  assert (forall l x z, combine (x :: l) (l ++ [z]) = path_edges x (l ++ [z])) as H.
  { clear. induction l as [|y l IH]; intros x z; cbn; auto. f_equal. apply IH. }
  apply H.
Qed.
Lemma path_app l1 : forall x y l2, path_edges x (l1 ++ y :: l2) = path_edges x (l1 ++ [y]) ++ path_edges y l2.
Proof.
  induction l1 as [|z l1 IH]; intros x y l2; cbn; auto. rewrite IH. reflexivity.
Qed.
Lemma path_rev l : forall x y, path_edges y (rev l ++ [x]) = rev (map flip (path_edges x (l ++ [y]))).
Proof.
  induction l as [|z l IH]; intros x y; cbn; auto.
  rewrite <- app_assoc. cbn. rewrite path_app. cbn. rewrite IH. reflexivity.
Qed.
Lemma cycle_edges_rotation a b : rotation a b -> Permutation (cycle_edges a) (cycle_edges b).
Proof.
  intros (u & v & -> & ->). destruct u as [|x u]; [rewrite app_nil_r; reflexivity|].
  destruct v as [|y v]; [rewrite app_nil_r; reflexivity|].
  cbn [app]. rewrite !cycle_path, <- !app_assoc. cbn.
  rewrite (path_app u x y (v ++ [x])), (path_app v y x (u ++ [y])). apply Permutation_app_comm.
Qed.
Lemma cycle_edges_invert a l : Permutation (cycle_edges (a :: rev l)) (map flip (cycle_edges (a :: l))).
Proof.
  rewrite !cycle_path, path_rev. apply Permutation_sym, Permutation_rev.
Qed.
Lemma C09_invert_proof f :
  (f = [] -> face_invert f = UB) /\
  (f <> [] -> exists g, face_invert f = Ok g /\ face_invert g = Ok f /\ hd_error g = hd_error f /\
     length g = length f /\ Permutation (cycle_edges g) (map flip (cycle_edges f)) /\ tl g = rev (tl f)).
Proof.
  split; [intros ->; reflexivity|]. destruct f as [|a l]; [congruence|]. intros _.
  exists (a :: rev l). cbn. rewrite rev_involutive, rev_length. repeat split; auto.
  apply cycle_edges_invert.
Qed.

Lemma face_rotate_Ok f n : (0 <= n <= Z.of_nat (length f))%Z ->
  face_rotate f n = Ok (skipn (Z.to_nat n) f ++ firstn (Z.to_nat n) f).
Proof.
  intros H. unfold face_rotate. destruct (Z.ltb_spec n 0); [lia|].
  destruct (Z.ltb_spec (Z.of_nat (length f)) n); [lia|]. reflexivity.
Qed.
Lemma nth_error_rot {A} (f : list A) k i : (k <= length f)%nat -> (i < length f)%nat ->
  nth_error (skipn k f ++ firstn k f) i = nth_error f ((i + k) mod length f).
Proof.
  intros Hk Hi. destruct (Nat.lt_ge_cases i (length f - k)) as [H|H].
  - rewrite nth_error_app1 by (rewrite skipn_length; lia).
    rewrite Nat.mod_small by lia. rewrite nth_error_skipn. f_equal; lia.
  - rewrite nth_error_app2 by (rewrite skipn_length; lia). rewrite skipn_length.
    assert ((i + k) mod length f = i + k - length f)%nat as ->.
    { replace (i + k)%nat with ((i + k - length f) + 1 * length f)%nat at 1 by lia.
      rewrite Nat.mod_add by lia. apply Nat.mod_small. lia. }
    rewrite nth_error_firstn. replace (i - (length f - k))%nat with (i + k - length f)%nat by lia.
    destruct (Nat.ltb_spec (i + k - length f) k); [reflexivity|lia].
Qed.
Lemma C09_rotate_proof f n :
  (~ (0 <= n <= Z.of_nat (length f))%Z -> face_rotate f n = UB) /\
  ((0 <= n <= Z.of_nat (length f))%Z -> exists g, face_rotate f n = Ok g /\ rotation f g /\
     (forall i, (i < length f)%nat -> nth_error g i = nth_error f ((i + Z.to_nat n) mod length f)) /\
     Permutation (cycle_edges g) (cycle_edges f) /\
     (NoDup f -> f <> [] -> face_eqb f g = Ok true)).
Proof.
  split; intros H.
  - unfold face_rotate. destruct (Z.ltb_spec n 0); cbn; auto.
    destruct (Z.ltb_spec (Z.of_nat (length f)) n); auto. exfalso; lia.
  - rewrite face_rotate_Ok by auto. eexists; split; [reflexivity|].
    assert (rotation f (skipn (Z.to_nat n) f ++ firstn (Z.to_nat n) f)) as Hr.
    { exists (firstn (Z.to_nat n) f), (skipn (Z.to_nat n) f). split; auto. symmetry; apply firstn_skipn. }
    repeat split; auto.
    + intros i Hi. apply nth_error_rot; lia.
    + apply Permutation_sym, cycle_edges_rotation; auto.
    + intros; apply rotation_face_eqb; auto.
Qed.
(** rotate() applied n times *)
Lemma rotate1_cons a l : face_rotate1 (a :: l) = Ok (l ++ [a]).
Proof. unfold face_rotate1. rewrite face_rotate_Ok by (cbn [length]; lia). reflexivity. Qed.
Lemma rotate1_times_app u : forall v, rotate1_times (length u) (u ++ v) = Ok (v ++ u).
Proof.
  induction u as [|a u IH]; intros v; cbn [length rotate1_times app]; [rewrite app_nil_r; auto|].
  rewrite rotate1_cons. cbn [bind]. rewrite <- app_assoc, IH, <- app_assoc. reflexivity.
Qed.
Lemma C09_full_turn_proof f : rotate1_times (length f) f = Ok f.
Proof. rewrite <- (app_nil_r f) at 2. rewrite rotate1_times_app. reflexivity. Qed.

(** ** C10 *)
Lemma C10_make_proof l :
  (face_make l = Throw LogicError <-> (length l < 3)%nat) /\
  (face_make l = Ok l <-> (3 <= length l)%nat) /\ (forall f, face_make l = Ok f -> f = l) /\ face_make l <> UB.
Proof.
  unfold face_make. destruct (Nat.ltb_spec (length l) 3); repeat split; try congruence; try lia.
Qed.
Lemma C10_overide_proof f i j :
  (fst (face_overide f i j) = true <-> In i f) /\
  (~ In i f -> snd (face_overide f i j) = f) /\
  (forall u v, f = u ++ i :: v -> ~ In i u -> snd (face_overide f i j) = u ++ j :: v).
Proof.
  induction f as [|a f IH]; cbn.
  - repeat split; try tauto; try discriminate. intros [|? ?]; discriminate.
  - destruct (N.eqb_spec a i) as [->|Hn]; cbn.
    + repeat split; auto; try tauto. intros u v E Hu. destruct u as [|b u]; cbn in *.
      * injection E as ->. reflexivity.
      * injection E as -> E. tauto.
    + destruct (face_overide f i j) as [b g]; cbn in *. destruct IH as (H1 & H2 & H3).
      repeat split.
      * intros H. right. apply H1; auto.
      * intros [H|H]; [congruence|]. apply H1; auto.
      * intros H. f_equal. apply H2. tauto.
      * intros u v E Hu. destruct u as [|c u]; cbn in *.
        -- injection E as -> _. congruence.
        -- injection E as -> E. f_equal. apply H3; auto.
Qed.
Lemma C10_offset_proof d f : (d < two64)%N -> (forall i, In i f -> (i < two64)%N) ->
  map (fun i => (i + d) mod two64)%N f = face_offset d f /\
  face_offset (two64 - d) (face_offset d f) = f.
Proof.
  intros Hd Hf. split; [reflexivity|]. unfold face_offset. rewrite map_map.
  rewrite <- (map_id f) at 2. apply map_ext_in. intros i Hi. unfold wrap64.
  rewrite N.add_mod_idemp_l by discriminate.
  replace (i + d + (two64 - d))%N with (i + 1 * two64)%N by lia.
  rewrite N.mod_add by discriminate. apply N.mod_small. auto.
Qed.
