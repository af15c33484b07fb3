(** * Mean_proofs: the rounding errors of a running mean. *)
From Verif Require Import Base Dbl Dbl_facts Geom Decimal Shadow Handlers Surface Spec_surface Projection Spec_text Spec_num Spec_arith Raster Rn_proofs Float_proofs Nearest_proofs Dq_proofs Arith_proofs Spec_edges Sqrt_proofs Sum_proofs Rootsq_proofs Lattice_proofs.
From Coq Require Import QArith Qabs Qcanon Qround Lqa.
From Verif Require Import Round_proofs.
From Verif Require Props_height.
Open Scope Q_scope.

(** ** Each operation gives a closest double *)
Lemma closest_zero d q : q == 0 -> represents d 0 -> closest q d.
Proof. intros E R. apply represents_real in R as [R V]. split; auto. intros y _. rewrite V, E. setoid_replace (0 - 0) with 0 by ring. apply Qabs_nonneg. Qed.
Lemma dmul_closest x y p q : represents x p -> represents y q -> in_range (p * q) -> closest (p * q) (dmul x y).
Proof.
  intros X Y R. destruct (Qeq_dec (p * q) 0) as [Z|Z].
  { apply closest_zero; auto. apply (represents_ext _ _ _ Z). apply dmul_exact; auto. exists dzero. apply (represents_ext _ 0); [now rewrite Z|apply represents_zero]. }
  assert (~ p == 0) as P by (intros E; apply Z; rewrite E; ring). assert (~ q == 0) as Q by (intros E; apply Z; rewrite E; ring).
  destruct (represents_finite x p X P) as (s & m & e & -> & V & E). destruct (represents_finite y q Y Q) as (t & n & f & -> & W & F).
  destruct (fin_rat m e) as (a & b & Ha & Hb & Rm). destruct (fin_rat n f) as (a' & b' & Ha' & Hb' & Rn).
  assert (rat (a * a') (b * b') == (qz (Zpos m) * pw 2 e) * (qz (Zpos n) * pw 2 f)) as RR.
  { rewrite <- Rm, <- Rn. unfold rat. rewrite !qz_mul. field. split; [pose proof (qz_pos b' Hb'); lra|pose proof (qz_pos b Hb); lra]. }
  rewrite (dmul_rn64 s m e t n f (a * a') (b * b') V W ltac:(nia) ltac:(nia) RR). apply nearest_closest.
  apply (rn_signed (xorb s t) (a * a') (b * b') (p * q)); [nia|nia| |exact R]. destruct s, t; cbn [xorb signed]; rewrite RR, E, F; unfold sg; ring.
Qed.
Lemma ddiv_closest x y p q : represents x p -> represents y q -> ~ q == 0 -> in_range (p / q) -> closest (p / q) (ddiv x y).
Proof.
  intros X Y N R. destruct (Qeq_dec (p / q) 0) as [Z|Z].
  { apply closest_zero; auto. apply (represents_ext _ _ _ Z). apply ddiv_exact; auto. exists dzero. apply (represents_ext _ 0); [now rewrite Z|apply represents_zero]. }
  set (h := Q2Qc (p / q)). assert (this h == p / q) as Eh by apply this_Q2Qc.
  assert (h <> 0%Qc) as Hn. { intros H. apply Z. rewrite <- Eh, H. reflexivity. }
  rewrite (Props_height.ddiv_dq x y p q h X Y N Eh Hn). apply (closest_ext (this h) (p / q)); auto. apply nearest_closest. apply dq_correct. unfold in_range in *. now rewrite Eh.
Qed.
Lemma dadd_closest x y p q : represents x p -> represents y q -> in_range (p + q) -> closest (p + q) (dadd x y).
Proof.
  intros X Y R. apply represents_real in X as [X Ex]. apply represents_real in Y as [Y Ey]. apply (closest_ext (dval x + dval y)); [now rewrite Ex, Ey|]. apply nearest_closest. apply (dadd_correct x y X Y). unfold in_range in *. now rewrite Ex, Ey.
Qed.
(** ** The error of rounding *)
Lemma closest_opp q d : closest q d -> closest (- q) (dopp d).
Proof.
  intros [R C]. split; [now apply real_opp|]. intros y Y. rewrite dval_opp. specialize (C (dopp y) (real_opp y Y)). rewrite dval_opp in C.
  rewrite <- (Qabs_opp (- dval d - - q)), <- (Qabs_opp (dval y - - q)). setoid_replace (- (- dval d - - q)) with (dval d - q) by ring. setoid_replace (- (dval y - - q)) with (- dval y - q) by ring. exact C.
Qed.
Lemma round_error q d : Qabs q < pw 2 1022 -> closest q d -> Qabs (dval d - q) <= pw 2 (-53) * Qabs q + pw 2 (-1074).
Proof.
  assert (forall w v, 0 < w -> w < pw 2 1022 -> closest w v -> Qabs (dval v - w) <= pw 2 (-53) * w + pw 2 (-1074)) as Pos.
  { intros w v P L C. pose proof (pw_pos 2 (-1074) ltac:(lia)) as P1. pose proof (pw_pos 2 (-53) ltac:(lia)) as P2. destruct (Qlt_le_dec w (pw 2 (-1022))) as [S|S].
    - set (n := Qfloor (w * pw 2 1074)). assert (w == w * pw 2 1074 * pw 2 (-1074)) as Ew by (rewrite <- Qmult_assoc, <- pw_add by lia; change (1074 + -1074)%Z with 0%Z; rewrite pw_0; ring).
      assert (qz n <= w * pw 2 1074 < qz n + 1) as [N1 N2]. { split; [apply Qfloor_le|]. pose proof (Qlt_floor (w * pw 2 1074)) as X. fold n in X. change (inject_Z (n + 1)) with (qz (n + 1)) in X. rewrite qz_add in X. exact X. }
      assert (w * pw 2 1074 < pw 2 52) as N3. { change 52%Z with (-1022 + 1074)%Z. rewrite pw_add by lia. apply Qmult_lt_r; [apply pw_pos; lia|exact S]. }
      assert (0 < w * pw 2 1074) as N4. { pose proof (pw_pos 2 1074 ltac:(lia)) as X. rewrite <- (Qmult_0_l (pw 2 1074)). apply Qmult_lt_r; auto. }
      assert (Z.abs n < 2 ^ 53)%Z as Nn.
      { assert (qz n < qz (2 ^ 52)) as A by (eapply Qle_lt_trans; [exact N1|exact N3]). assert (qz 0 < qz (n + 1)) as B by (rewrite qz_add; eapply Qlt_trans; [exact N4|exact N2]). apply (proj2 (qz_lt _ _)) in A, B. lia. }
      destruct (lat_double (-1074) n ltac:(lia) Nn) as [y Y]. unfold lat in Y. apply represents_real in Y as [Ry Vy]. eapply Qle_trans; [apply C; exact Ry|]. rewrite Vy.
      apply Qabs_Qle_condition. set (h := pw 2 (-1074)) in *. set (u := pw 2 (-53)) in *. set (k := w * pw 2 1074) in *. assert (k * h - h <= qz n * h) by nra. assert (qz n * h <= k * h) by nra. assert (0 < u * w) by nra. split; lra.
    - destruct (pos_rat w P) as (a & b & A & B & E). assert (Qabs (dval v - w) <= pw 2 (-53) * w); [|lra]. rewrite <- E. apply rat_error; auto; try (now rewrite E). apply (closest_ext w); auto. now symmetry. }
  intros L C. destruct (Qlt_le_dec 0 q) as [P|P]; [rewrite (Qabs_pos q) in * by lra; now apply Pos|].
  destruct (Qeq_dec q 0) as [Z|Z].
  - destruct C as [_ C]. specialize (C dzero (conj eq_refl eq_refl)). change (dval dzero) with 0 in C. rewrite Z in *. setoid_replace (0 - 0) with 0 in C by ring. change (Qabs 0) with 0 in *. pose proof (pw_pos 2 (-1074) ltac:(lia)). lra.
  - rewrite (Qabs_neg q) in * by lra. apply closest_opp in C. specialize (Pos (- q) (dopp d) ltac:(lra) L C). rewrite dval_opp in Pos. rewrite <- Qabs_opp in Pos. setoid_replace (- (- dval d - - q)) with (dval d - q) in Pos by ring. exact Pos.
Qed.
(** ** One step of a running mean *)
Definition u53 : Q := 1 # 9007199254740992.
Lemma u53_pw : pw 2 (-53) == u53.
Proof. reflexivity. Qed.
Section STEP.
Context (M : Q) (ML : pw 2 (-1020) <= M) (MH : M <= pw 2 960).
Lemma M_pos : 0 < M.
Proof. pose proof (pw_pos 2 (-1020) ltac:(lia)). lra. Qed.
Lemma error q d : Qabs q < pw 2 1022 -> closest q d -> Qabs (dval d - q) <= u53 * Qabs q + (1 # 2) * u53 * M.
Proof.
  intros L C. eapply Qle_trans; [exact (round_error q d L C)|]. rewrite u53_pw. assert (pw 2 (-1074) <= (1 # 2) * u53 * M); [|lra].
  assert (pw 2 (-1074) == (1 # 2) * u53 * pw 2 (-1020)) as ->. { rewrite <- u53_pw. change (1 # 2) with (pw 2 (-1)). rewrite <- !pw_add by lia. reflexivity. }
  assert (0 < (1 # 2) * u53) as P by reflexivity. apply Qmult_le_l; auto.
Qed.
Lemma small q k : (0 <= k <= 65536)%Z -> Qabs q <= qz k * M -> Qabs q < pw 2 1022 /\ in_range q.
Proof.
  intros K B. assert (Qabs q <= pw 2 976) as X.
  { eapply Qle_trans; [exact B|]. change 976%Z with (16 + 960)%Z. rewrite pw_add by lia. change (pw 2 16) with (qz 65536). assert (0 <= qz k) by (change 0 with (qz 0); apply (proj1 (qz_le _ _)); lia). assert (qz k <= qz 65536) by (apply (proj1 (qz_le _ _)); lia). pose proof M_pos. pose proof (pw_pos 2 960 ltac:(lia)). nra. }
  split; [eapply Qle_lt_trans; [exact X|]; apply pw_lt; lia|]. unfold in_range. eapply Qle_lt_trans; [exact X|]. apply Qlt_trans with (pw 2 1006); [apply pw_lt; lia|]. apply Qnot_le_lt. intros H. vm_compute in H. now apply H.
Qed.
Lemma abs_near a x b c : Qabs (x - a) <= b -> Qabs a <= c -> Qabs x <= b + c.
Proof. intros H1 H2. apply Qabs_Qle_condition in H1, H2. apply Qabs_Qle_condition. split; lra. Qed.
(** [r] is the mean so far of [k] heights whose sum is [S]; [d] is the next height *)
Lemma step_error r S d z k : (0 <= k < 32768)%Z -> real_double r -> Qabs (dval r * qz k - S) <= 2 * u53 * (qz k * (qz k + 1) * M) -> Qabs S <= qz k * M -> represents d z -> Qabs z <= M ->
  let q := ddiv (dadd (dmul r (dofZ k)) d) (dofZ (k + 1)) in
  real_double q /\ Qabs (dval q * qz (k + 1) - (S + z)) <= 2 * u53 * (qz (k + 1) * (qz (k + 1) + 1) * M).
Proof.
  intros Hk Rr Er Bs Rd Bz. cbv zeta. pose proof M_pos as PM. set (K := qz k) in *. assert (0 <= K <= 32767) as HK. { split; [change 0 with (qz 0)|change 32767 with (qz 32767)]; apply (proj1 (qz_le _ _)); lia. }
  set (X := K * M) in *. assert (0 <= X <= 32767 * M) as HX by (clear -PM HK; unfold X; split; nra). set (Y := K * (K + 1) * M) in *. assert (0 <= Y <= 32768 * X) as HY by (clear -PM HK; assert (0 <= K * M) by nra; unfold Y, X; split; nra).
  assert (EK : qz (k + 1) == K + 1) by (unfold K; rewrite qz_add; reflexivity).
  assert (Qabs (dval r * K) <= 2 * u53 * Y + X) as B0 by exact (abs_near _ _ _ _ Er Bs).
  assert (u53 * Y <= (1 # 100000) * X) as Y1. { assert (u53 * (32768 * X) <= (1 # 100000) * X) by (unfold u53; lra). assert (u53 * Y <= u53 * (32768 * X)) by (apply Qmult_le_l; [reflexivity|lra]). lra. }
  set (uY := u53 * Y) in *. assert (2 * u53 * Y == 2 * uY) as EY by (unfold uY; ring). rewrite EY in *.
  destruct (small (dval r * K) 40000) as [L1 R1]; [lia| |]. { eapply Qle_trans; [exact B0|]. change (qz 40000) with 40000. lra. }
  pose proof (dmul_closest r (dofZ k) _ _ (represents_dval r Rr) (dofZ_int k ltac:(lia)) R1) as C1. fold K in C1. set (p := dmul r (dofZ k)) in *. pose proof (error _ _ L1 C1) as E1.
  set (P0 := Qabs (dval r * K)) in *. assert (0 <= P0) as PP by apply Qabs_nonneg. assert (u53 * P0 <= (1 # 9007199254740992) * (2 * uY + X)) as E1'. { unfold u53. apply Qmult_le_l; [reflexivity|exact B0]. }
  assert (Qabs (dval p - dval r * K) <= u53 * ((1 + (1 # 1000)) * X + (1 # 2) * M)) as F1 by (eapply Qle_trans; [exact E1|]; unfold u53 in *; lra). clear E1 E1'.
  assert (Qabs (dval p) <= (1 + (1 # 1000)) * X + (1 # 1000) * M) as B1. { eapply Qle_trans; [exact (abs_near _ _ _ _ F1 B0)|]. unfold u53. lra. }
  assert (Qabs (dval p + z) <= (1 + (1 # 1000)) * X + (1 + (1 # 1000)) * M) as B2 by (eapply Qle_trans; [apply Qabs_triangle|]; lra).
  destruct (small (dval p + z) 40000) as [L2 R2]; [lia| |]. { eapply Qle_trans; [exact B2|]. change (qz 40000) with 40000. lra. }
  pose proof (dadd_closest p d _ _ (represents_dval p (proj1 C1)) Rd R2) as C2. set (t := dadd p d) in *. pose proof (error _ _ L2 C2) as E2.
  assert (Qabs (dval t - (dval p + z)) <= u53 * ((1 + (1 # 1000)) * X + (2 - (1 # 4)) * M)) as F2. { eapply Qle_trans; [exact E2|]. apply (Qmult_le_l _ _ u53) in B2; [|reflexivity]. unfold u53 in *. lra. } clear E2.
  assert (Qabs (dval t) <= (1 + (1 # 500)) * X + (1 + (1 # 500)) * M) as B3. { eapply Qle_trans; [exact (abs_near _ _ _ _ F2 B2)|]. unfold u53. lra. }
  assert (0 < K + 1) as P1 by lra. assert (forall v, Qabs (v * (K + 1)) == Qabs v * (K + 1)) as Ab by (intros v; rewrite Qabs_Qmult, (Qabs_pos (K + 1)); [reflexivity|lra]). assert (Qabs (dval t / (K + 1)) * (K + 1) == Qabs (dval t)) as ET. { rewrite <- Ab. apply Qabs_wd. field. lra. }
  set (T := Qabs (dval t / (K + 1))) in *. assert (T <= (1 + (1 # 500)) * M) as BT. { apply (Qmult_le_r _ _ (K + 1)); auto. rewrite ET. eapply Qle_trans; [exact B3|]. unfold X. lra. }
  destruct (small (dval t / (K + 1)) 40000) as [L3 R3]; [lia| |]. { fold T. eapply Qle_trans; [exact BT|]. change (qz 40000) with 40000. lra. }
  assert (closest (dval t / (K + 1)) (ddiv t (dofZ (k + 1)))) as C3. { apply ddiv_closest; auto; [apply represents_dval, C2| |lra]. apply (represents_ext _ _ _ EK). apply dofZ_int. lia. }
  set (q := ddiv t (dofZ (k + 1))) in *. split; [apply C3|]. pose proof (error _ _ L3 C3) as E3. fold T in E3.
  assert (Qabs (dval q * (K + 1) - dval t) <= u53 * ((1 + (1 # 500) + (1 # 2)) * (X + M))) as F3.
  { assert (Qabs (dval q * (K + 1) - dval t) == Qabs (dval q - dval t / (K + 1)) * (K + 1)) as ->. { rewrite <- Ab. apply Qabs_wd. field. lra. }
    apply Qle_trans with ((u53 * T + (1 # 2) * u53 * M) * (K + 1)); [apply Qmult_le_r; auto|]. assert (T * (K + 1) <= (1 + (1 # 500)) * (X + M)) as BT'. { rewrite ET. lra. } assert (M * (K + 1) == X + M) as EM by (unfold X; ring).
    setoid_replace ((u53 * T + (1 # 2) * u53 * M) * (K + 1)) with (u53 * (T * (K + 1)) + (1 # 2) * u53 * (M * (K + 1))) by ring. rewrite EM. apply (Qmult_le_l _ _ u53) in BT'; [|reflexivity]. unfold u53 in *. lra. }
  rewrite EK. setoid_replace (2 * u53 * ((K + 1) * (K + 1 + 1) * M)) with (2 * uY + u53 * (4 * X + 4 * M)) by (unfold uY, Y, X; ring).
  apply Qabs_Qle_condition in F1, F2, F3, Er. apply Qabs_Qle_condition. unfold u53 in F1, F2, F3 |- *. split; lra.
Qed.
(** ** The whole running mean *)
Lemma sum_bound zs : Forall (fun z : Qc => Qabs (this z) <= M) zs -> Qabs (this (qsum zs)) <= qz (Z.of_nat (length zs)) * M.
Proof.
  induction 1 as [|z zs B F IH]; cbn [qsum length]; [change (this 0%Qc) with 0; change (Qabs 0) with 0; change (qz (Z.of_nat 0)) with 0; lra|].
  rewrite Nat2Z.inj_succ. unfold Z.succ. rewrite qz_add. change (qz 1) with 1. unfold Qcplus. rewrite this_Q2Qc. eapply Qle_trans; [apply Qabs_triangle|]. lra.
Qed.
End STEP.
