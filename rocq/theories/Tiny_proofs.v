(** * Doubles that round to zero: proofs for C93. *)
From Verif Require Import Base Dbl Decimal Shadow Streams Spec_text Spec_num Spec_arith Spec_edges.
From Verif Require Import Round_proofs Rn_proofs Nearest_proofs Arith_proofs Sum_proofs.
From Coq Require Import QArith Qabs Lqa.
Open Scope Q_scope.

Lemma real_big x : real_double x -> ~ dval x == 0 -> pw 2 (-1074) <= Qabs (dval x) /\ (Qabs (dval x) == pw 2 (-1074) -> ~ even_mantissa x).
Proof.
  intros [V F] N. destruct x as [s|s| |s m e]; try discriminate; [exfalso; apply N; reflexivity|].
  destruct (dvalid_bounds s m e V) as (He & _ & _).
  assert (Qabs (dval (S754_finite s m e)) == qz (Zpos m) * pw 2 e) as A.
  { rewrite dval_finite. pose proof (fin_pos m e). destruct s; [rewrite Qabs_neg by lra; lra|rewrite Qabs_pos by lra; lra]. }
  rewrite A. rewrite (pw_mult 2 (-1074) e (Zpos m)) by lia.
  pose proof (pw_pos 2 (-1074) ltac:(lia)) as P.
  assert (1 <= Zpos m * 2 ^ (e - -1074))%Z as G by (pose proof (Z.pow_pos_nonneg 2 (e - -1074) ltac:(lia) ltac:(lia)); nia).
  assert (1 <= qz (Zpos m * 2 ^ (e - -1074))) as G' by (unfold qz; change 1 with (inject_Z 1); rewrite <- Zle_Qle; lia).
  split; [nra|]. intros E. assert (qz (Zpos m * 2 ^ (e - -1074)) == 1) as E1 by (apply (Qmult_inj_r _ _ (pw 2 (-1074))); lra). unfold qz in E1. change 1 with (inject_Z 1) in E1. assert (Zpos m * 2 ^ (e - -1074) = 1)%Z as E2 by (apply inject_Z_injective; exact E1).
  assert (Zpos m = 1)%Z as M by (apply Z.eq_mul_1 in E2; lia). cbn [even_mantissa]. rewrite M. discriminate.
Qed.
Lemma nearest_zero q d : nearest_double q d -> (dval d == 0 <-> Qabs q <= pw 2 (-1075)).
Proof.
  intros [R H]. pose proof (pw_half (-1074)) as Hf. change (-1074 - 1)%Z with (-1075)%Z in Hf. pose proof (pw_pos 2 (-1074) ltac:(lia)) as P. split.
  - intros Z. destruct (Qlt_le_dec (pw 2 (-1075)) (Qabs q)) as [L|]; auto. exfalso.
    assert (forall neg, real_double (S754_finite neg 1 (-1074)) /\ dval (S754_finite neg 1 (-1074)) == (if neg then -1 else 1) * pw 2 (-1074)) as Lst.
    { intros neg. split; [split; [apply dvalid_intro; [reflexivity|lia]|reflexivity]|]. rewrite dval_finite. assert (qz 1 == 1) as -> by reflexivity. destruct neg; lra. }
    rewrite Hf in L. destruct (Qlt_le_dec q 0) as [Ng|Ps].
    + destruct (Lst true) as [R1 V1]. destruct (H _ R1) as [A B]. rewrite Z in A, B. rewrite V1 in A, B. revert A B L. rewrite (Qabs_neg q) by lra. rewrite (Qabs_pos (0 - q)) by lra.
      intros A B L. destruct (Qlt_le_dec (- (1) * pw 2 (-1074) - q) 0) as [C|C]; [rewrite Qabs_neg in A by lra; lra|rewrite Qabs_pos in A by lra; lra].
    + destruct (Lst false) as [R1 V1]. destruct (H _ R1) as [A B]. rewrite Z in A, B. rewrite V1 in A, B. revert A B L. rewrite (Qabs_pos q) by lra. rewrite (Qabs_neg (0 - q)) by lra.
      intros A B L. destruct (Qlt_le_dec (1 * pw 2 (-1074) - q) 0) as [C|C]; [rewrite Qabs_neg in A by lra; lra|rewrite Qabs_pos in A by lra; lra].
  - intros L. destruct (Qeq_dec (dval d) 0) as [|N]; auto. exfalso. destruct (real_big d R N) as [B1 B2].
    destruct (H (S754_zero false)) as [A B]; [split; reflexivity|]. change (dval (S754_zero false)) with 0 in A, B.
    assert (Qabs (0 - q) == Qabs q) as E0. { rewrite <- Qabs_opp. apply Qabs_wd. lra. }
    rewrite E0 in A, B. pose proof (Qabs_triangle (dval d - q) q) as T. assert (Qabs (dval d - q + q) == Qabs (dval d)) as E1 by (apply Qabs_wd; lra). rewrite E1 in T.
    apply B2; [lra|]. apply B; [lra|auto].
Qed.
Lemma root_not_zero d y : real_double d -> 0 < dval d -> rounded_root (dval d) y -> 0 < dval y.
Proof.
  intros Rd P (R & Py & H). destruct (Qlt_le_dec 0 (dval y)) as [|L]; auto. exfalso. assert (dval y == 0) as Z by lra.
  set (z := S754_finite false (2 ^ 52) (-589)). assert (real_double z /\ dval z == pw 2 (-537)) as [Rz Vz].
  { split; [split; reflexivity|]. unfold z. rewrite dval_finite. rewrite (pw_split 2 52 (-589) (-537)) by lia. rewrite (pw_Z 2 52) by lia. change (Zpos (2 ^ 52)) with (2 ^ 52)%Z. lra. }
  pose proof (pw_pos 2 (-537) ltac:(lia)) as Pz. destruct (H z Rz) as [A _]; [lra|]. rewrite Vz, Z in A.
  assert (dval d <= (1 # 2) * (0 + pw 2 (-537)) * ((1 # 2) * (0 + pw 2 (-537)))) as B by (apply A; exact Pz). clear A.
  destruct (real_big d Rd) as [B1 _]; [lra|]. rewrite Qabs_pos in B1 by lra. rewrite (pw_split 2 (-537) (-537) (-1074)) in B1 by lia. nra.
Qed.
Lemma root_of_zero d y : dval d == 0 -> rounded_root (dval d) y -> dval y == 0.
Proof.
  intros Z (R & Py & H). destruct (H (S754_zero false)) as [_ A]; [split; reflexivity|change (dval (S754_zero false)) with 0; lra|]. change (dval (S754_zero false)) with 0 in A.
  destruct (Qlt_le_dec 0 (dval y)) as [P|]; [|lra]. specialize (A P). rewrite Z in A. nra.
Qed.
