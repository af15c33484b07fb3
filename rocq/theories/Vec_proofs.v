(** * Proofs about vectors of doubles (C16, C17). *)
From Verif Require Import Base Dbl Dbl_facts Shadow Spec_shadow.

(** the vectors are opposite, coordinate by coordinate, up to the sign of zero *)

Lemma v_add_comm_proof a b : v_add a b = v_add b a.
Proof. unfold v_add. rewrite (dadd_comm (vx a)), (dadd_comm (vy a)), (dadd_comm (vz a)). reflexivity. Qed.
Lemma v_dot_sym_proof a b : v_dot a b = v_dot b a.
Proof. unfold v_dot. rewrite (dmul_comm (vx a)), (dmul_comm (vy a)), (dmul_comm (vz a)). reflexivity. Qed.
Lemma v_sub_anti_proof a b : v_opposite (v_sub a b) (v_sub b a).
Proof. repeat split; apply dsub_opp. Qed.
Lemma vec_pp_anti_proof p q : v_opposite (vec_pp p q) (vec_pp q p).
Proof. repeat split; apply dsub_opp. Qed.
Lemma v_cross_anti_proof a b : v_opposite (v_cross a b) (v_cross b a).
Proof.
  unfold v_opposite, v_cross; cbn.
  rewrite (dmul_comm (vy b)), (dmul_comm (vz b) (vy a)), (dmul_comm (vz b) (vx a)),
    (dmul_comm (vx b) (vz a)), (dmul_comm (vx b) (vy a)), (dmul_comm (vy b)).
  repeat split; apply dsub_opp.
Qed.
Lemma C16_proof :
  (forall a b, v_add a b = v_add b a) /\ (forall a b, v_dot a b = v_dot b a) /\
  (forall a b, v_opposite (v_sub a b) (v_sub b a)) /\ (forall a b, v_opposite (v_cross a b) (v_cross b a)) /\
  (forall p q, v_opposite (pt_sub p q) (pt_sub q p)).
Proof.
  repeat split; auto using v_add_comm_proof, v_dot_sym_proof; try apply v_sub_anti_proof;
    try apply v_cross_anti_proof; apply vec_pp_anti_proof.
Qed.
(** opposite: equal to the negation by double ==, or both NaN *)
Lemma opposite_meaning_proof x y : opposite x y ->
  (disnan x = true /\ disnan y = true) \/ (disnan x = false /\ deqb x (dopp y) = true).
Proof.
  intros H. pose proof (opposite_nan x y H) as Hn. destruct (disnan x) eqn:E; [left|right]; split; auto.
  apply opposite_deqb; auto.
Qed.
Lemma C16_refuted_proof : exists p q,
  (dfinite (px p) = true /\ dfinite (px q) = true /\ dvalid (px p) = true /\ dvalid (px q) = true) /\
  pt_eqb (pt_add p (pt_sub q p)) q = false.
Proof.
  exists (mkPoint (dofZ 1) dzero dzero), (mkPoint (S754_finite false 4503599627370496 (-112)) dzero dzero).
  split; [repeat split|]; vm_compute; reflexivity.
Qed.

Lemma dmul_nan_r x : dmul x dnan = dnan.
Proof. destruct x; reflexivity. Qed.
Lemma dmul_nan_l x : dmul dnan x = dnan.
Proof. reflexivity. Qed.
Lemma dadd_nan_r x : dadd x dnan = dnan.
Proof. destruct x; reflexivity. Qed.
Lemma dsub_nan_r x : dsub x dnan = dnan.
Proof. destruct x; reflexivity. Qed.

Lemma normal_zero a b c :
  let v := v_cross (vec_pp a b) (vec_pp b c) in
  is_zero (vx v) -> is_zero (vy v) -> is_zero (vz v) -> normal_to a b c = mkVect dnan dnan dnan.
Proof.
  cbv zeta. unfold normal_to. destruct (v_cross (vec_pp a b) (vec_pp b c)) as [x y z]. cbn.
  intros [[] ->] [[] ->] [[] ->]; reflexivity.
Qed.
Lemma v_det_nan a b : v_det a b (mkVect dnan dnan dnan) = dnan.
Proof. unfold v_det. cbn [vx vy vz]. rewrite !dmul_nan_r. reflexivity. Qed.
(** all three points coincide (and are finite): the normal is NaN *)
Lemma dsub_self x : dfinite x = true -> exists s, dsub x x = S754_zero s.
Proof.
  destruct x as [s|s| |s m e]; cbn; try discriminate; intros _.
  - destruct s; cbn; eauto.
  - unfold dsub, SFsub. rewrite Z.sub_diag. cbn. eauto.
Qed.
