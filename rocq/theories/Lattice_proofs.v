(** * Lattice_proofs: doubles that are multiples of a common power of two, their sums, products by
    integers, and the whole part of their quotients. *)
From Verif Require Import Base Dbl Dbl_facts Geom Decimal Shadow Handlers Surface Spec_surface Projection Spec_text Spec_num Spec_arith Raster Rn_proofs Float_proofs Nearest_proofs Dq_proofs Arith_proofs Spec_edges Sqrt_proofs Sum_proofs Rootsq_proofs.
From Coq Require Import QArith Qabs Qcanon Qround Lqa.
From Verif Require Import Round_proofs.
From Verif Require Props_height Props_area Props_side Props_util2.
Open Scope Q_scope.

(** the relative error of rounding is at most 2^-53 *)
Lemma rat_error a b d : (0 < a)%Z -> (0 < b)%Z -> pw 2 (-1022) <= rat a b -> rat a b < pw 2 1022 -> closest (rat a b) d -> Qabs (dval d - rat a b) <= pw 2 (-53) * rat a b.
Proof.
  intros Ha Hb L H [_ C]. pose proof (flog2_spec a b Ha Hb) as [F1 F2].
  assert (-1022 < flog2 a b + 1)%Z as L1 by (apply (pw_lt_inv 2); [lia|]; apply Qle_lt_trans with (rat a b); auto).
  assert (flog2 a b < 1022)%Z as L2 by (apply (pw_lt_inv 2); [lia|]; apply Qle_lt_trans with (rat a b); auto).
  destruct (rn64_nearest a b Ha Hb) as (M & e & E & [M1 M2] & _ & N & _). rewrite Z.max_l in E by lia.
  assert ((1 # 2) * pw 2 e <= pw 2 (-53) * rat a b) as G.
  { assert (pw 2 (-53) * pw 2 (flog2 a b) == (1 # 2) * pw 2 e) as <-. { rewrite <- pw_add by lia. replace (-53 + flog2 a b)%Z with (-1 + e)%Z by lia. rewrite pw_add by lia. reflexivity. }
    pose proof (pw_pos 2 (-53) ltac:(lia)) as P. apply Qmult_le_l; auto. }
  apply Qle_trans with (Qabs (qz M * pw 2 e - rat a b)); [|rewrite <- Qabs_opp; eapply Qle_trans; [|exact G]; eapply Qle_trans; [|exact N]; apply Qle_lteq; right; apply Qabs_wd; ring].
  destruct (Z.eq_dec M 0) as [->|M0].
  { specialize (C dzero). change (dval dzero) with 0 in C. assert (qz 0 * pw 2 e - rat a b == 0 - rat a b) as -> by (change (qz 0) with 0; ring). apply C. split; reflexivity. }
  assert (exists m f, dvalid (S754_finite false m f) = true /\ qz (Zpos m) * pw 2 f == qz M * pw 2 e) as (m & f & V & W).
  { destruct (Z.eq_dec M (2 ^ 53)) as [->|M3]; [|apply grid_double; lia]. destruct (grid_double (2 ^ 52) (e + 1)) as (m & f & V & W); [lia|lia|]. exists m, f. split; auto. rewrite W, pw_S by lia. assert (qz (2 ^ 53) == qz (2 ^ 52) * qz 2) as -> by reflexivity. ring. }
  specialize (C (S754_finite false m f)). rewrite dval_finite, W in C. assert (1 * (qz M * pw 2 e) - rat a b == qz M * pw 2 e - rat a b) as X by ring. rewrite X in C. apply C. now split.
Qed.

(** ** Quotients of integers below 2^53: their whole part is not changed by rounding *)
Lemma quotient_between n k d : (0 <= n < 2 ^ 53)%Z -> (0 < k < 2 ^ 53)%Z -> closest (rat n k) d ->
  qz (n / k) <= dval d < qz (n / k + 1) /\ qz (- (- n / k)) - 1 < dval d <= qz (- (- n / k)).
Proof.
  intros N K C. pose proof (qz_pos k ltac:(lia)) as Pk. assert (qz n == rat n k * qz k) as En by (unfold rat; field; lra).
  destruct (Z.eq_dec n 0) as [->|N0].
  { destruct C as [R C]. specialize (C dzero ltac:(split; reflexivity)). assert (rat 0 k == 0) as Z by (unfold rat; change (qz 0) with 0; field; lra).
    assert (dval d == 0) as D. { rewrite Z in C. change (dval dzero) with 0 in C. assert (Qabs (0 - 0) == 0) as X by reflexivity. rewrite X in C. pose proof (Qabs_nonneg (dval d - 0)). assert (Qabs (dval d - 0) == 0) as Y by lra. apply Qabs_Qle_condition in C. lra. }
    rewrite Z.div_0_l by lia. change (- (- 0 / k))%Z with (- (0 / k))%Z. rewrite Z.div_0_l by lia. change (qz (0 + 1)) with 1. change (qz (- 0)) with 0. change (qz 0) with 0. lra. }
  assert (rat n k * pw 2 (-53) * qz k < 1) as Small. { assert (rat n k * pw 2 (-53) * qz k == qz n * pw 2 (-53)) as -> by (rewrite En; ring). assert (1 == qz (2 ^ 53) * pw 2 (-53)) as -> by reflexivity. pose proof (pw_pos 2 (-53) ltac:(lia)). apply Qmult_lt_r; auto. rewrite <- qz_lt. lia. }
  assert (1 <= qz n) as N1 by (change 1 with (qz 1); rewrite <- qz_le; lia). assert (qz n < qz (2 ^ 53)) as N2 by (rewrite <- qz_lt; lia). assert (qz k < qz (2 ^ 53)) as K2 by (rewrite <- qz_lt; lia). assert (1 <= qz k) as K1 by (change 1 with (qz 1); rewrite <- qz_le; lia).
  assert (Qabs (dval d - rat n k) <= pw 2 (-53) * rat n k) as Er.
  { apply rat_error; auto; try lia.
    - apply Qle_trans with (pw 2 (-53)); [apply pw_le; lia|]. unfold rat. apply Qle_shift_div_l; auto. assert (pw 2 (-53) * qz (2 ^ 53) == 1) as X by reflexivity. pose proof (pw_pos 2 (-53) ltac:(lia)). nra.
    - apply Qlt_le_trans with (qz (2 ^ 53)); [|assert (qz (2 ^ 53) == pw 2 53) as -> by reflexivity; apply pw_le; lia]. unfold rat. apply Qlt_shift_div_r; auto. pose proof (qz_pos (2 ^ 53) ltac:(lia)). nra. }
  apply Qabs_Qle_condition in Er. set (q := rat n k) in *. set (u := pw 2 (-53)) in *. pose proof (Z.div_mod n k ltac:(lia)) as DM. pose proof (Z.mod_pos_bound n k ltac:(lia)) as MB. pose proof (Z.div_mod (- n) k ltac:(lia)) as DM'. pose proof (Z.mod_pos_bound (- n) k ltac:(lia)) as MB'.
  destruct C as [R C].
  (* the integer bounds are doubles, so rounding does not pass them *)
  assert (forall m : Z, (0 <= m < 2 ^ 53)%Z -> exists y, real_double y /\ dval y == qz m) as Id.
  { intros m M. destruct (Z.eq_dec m 0) as [->|]; [exists dzero; split; [split; reflexivity|reflexivity]|]. destruct (grid_double m 0 ltac:(lia) ltac:(lia)) as (p & f & V & W). exists (S754_finite false p f). split; [now split|]. rewrite dval_finite, W, pw_0. ring. }
  assert (0 <= n / k)%Z as D0 by (apply Z.div_pos; lia). assert (n / k <= n)%Z as D1 by (apply Z.div_le_upper_bound; nia).
  assert (0 <= - (- n / k) <= n)%Z as D2 by nia.
  assert (qz (n / k) * qz k <= qz n) as A1 by (rewrite <- qz_mul, <- qz_le; nia). assert (qz n + 1 <= (qz (n / k) + 1) * qz k) as A2. { change 1 with (qz 1). rewrite <- !qz_add, <- qz_mul, <- qz_le. nia. }
  assert (qz n <= qz (- (- n / k)) * qz k) as A3 by (rewrite <- qz_mul, <- qz_le; nia). assert ((qz (- (- n / k)) - 1) * qz k + 1 <= qz n) as A4. { change 1 with (qz 1). rewrite <- qz_sub, <- qz_mul, <- qz_add, <- qz_le. nia. }
  rewrite qz_add. change (qz 1) with 1. rewrite En in *.
  set (m := qz (n / k)) in *. set (c := qz (- (- n / k))) in *. set (kk := qz k) in *. set (v := dval d) in *.
  assert (m <= q) as B1 by nra. assert (q <= c) as B3 by nra.
  assert (m <= v) as G1.
  { destruct (Id (n / k)%Z ltac:(lia)) as (y & Y & Ey). specialize (C y Y). rewrite Ey in C. fold m v in C. destruct (Qlt_le_dec v m) as [X|X]; auto. rewrite (Qabs_neg (v - q)), (Qabs_neg (m - q)) in C by lra. lra. }
  assert (v <= c) as G2.
  { destruct (Id (- (- n / k))%Z ltac:(lia)) as (y & Y & Ey). specialize (C y Y). rewrite Ey in C. fold c v in C. destruct (Qlt_le_dec c v) as [X|X]; auto. rewrite (Qabs_pos (v - q)), (Qabs_pos (c - q)) in C by lra. lra. }
  assert (u * q * kk < 1) as Sm by lra. split; (split; [lra || idtac|lra || idtac]).
  - destruct (Qlt_le_dec v (m + 1)) as [X|X]; auto. exfalso. assert ((m + 1) * kk <= v * kk) by nra. assert (v * kk <= (q + u * q) * kk) by nra. lra.
  - destruct (Qlt_le_dec (c - 1) v) as [X|X]; auto. exfalso. assert (v * kk <= (c - 1) * kk) by nra. assert ((q - u * q) * kk <= v * kk) by nra. lra.
Qed.

(** ** Multiples of 2^e *)
Lemma qz_opp n : qz (- n) == - qz n.
Proof. unfold qz. now rewrite inject_Z_opp. Qed.
Definition lat (e : Z) (x : dbl) (n : Z) : Prop := represents x (qz n * pw 2 e).
Lemma lat_double e n : (-1074 <= e <= 971)%Z -> (Z.abs n < 2 ^ 53)%Z -> exists x, lat e x n.
Proof.
  intros E N. unfold lat. destruct (Z.lt_trichotomy n 0) as [L|[->|L]].
  - destruct (grid_double (- n) e) as (m & f & V & W); [lia|lia|]. exists (S754_finite true m f). apply represents_intro; auto. unfold sg. rewrite W, qz_opp. ring.
  - exists dzero. apply (represents_ext _ 0); [change (qz 0) with 0; ring|apply represents_zero].
  - destruct (grid_double n e) as (m & f & V & W); [lia|lia|]. exists (S754_finite false m f). apply represents_intro; auto. unfold sg. rewrite W. ring.
Qed.
Section LATTICE.
Context (e : Z) (He : (-1074 <= e <= 971)%Z).
Lemma lat_add x y n m : lat e x n -> lat e y m -> (Z.abs (n + m) < 2 ^ 53)%Z -> lat e (dadd x y) (n + m).
Proof.
  intros X Y L. destruct (lat_double e _ He L) as [z Z]. assert (qz n * pw 2 e + qz m * pw 2 e == qz (n + m) * pw 2 e) as E by (rewrite qz_add; ring).
  apply (represents_ext _ _ _ E). apply dadd_exact; auto. exists z. apply (represents_ext _ _ _ (Qeq_sym _ _ E)). exact Z.
Qed.
Lemma lat_sub x y n m : lat e x n -> lat e y m -> (Z.abs (n - m) < 2 ^ 53)%Z -> lat e (dsub x y) (n - m).
Proof.
  intros X Y L. destruct (lat_double e _ He L) as [z Z]. assert (qz n * pw 2 e - qz m * pw 2 e == qz (n - m) * pw 2 e) as E by (rewrite qz_sub; ring).
  apply (represents_ext _ _ _ E). apply dsub_exact; auto. exists z. apply (represents_ext _ _ _ (Qeq_sym _ _ E)). exact Z.
Qed.
Lemma lat_mul x y k n : represents x (qz k) -> lat e y n -> (Z.abs (k * n) < 2 ^ 53)%Z -> lat e (dmul x y) (k * n).
Proof.
  intros X Y L. destruct (lat_double e _ He L) as [z Z]. assert (qz k * (qz n * pw 2 e) == qz (k * n) * pw 2 e) as E by (rewrite qz_mul; ring).
  apply (represents_ext _ _ _ E). apply dmul_exact; auto. exists z. apply (represents_ext _ _ _ (Qeq_sym _ _ E)). exact Z.
Qed.
Lemma lat_dq (q : Qc) n : this q == qz n * pw 2 e -> (Z.abs n < 2 ^ 53)%Z -> lat e (dq q) n.
Proof.
  intros E L. destruct (lat_double e _ He L) as [z Z]. apply (represents_ext _ _ _ E). apply Props_area.dq_represents. exists z. apply (represents_ext _ _ _ (Qeq_sym _ _ E)). exact Z.
Qed.
End LATTICE.
Lemma dofZ_int k : (0 <= k < 2 ^ 53)%Z -> represents (dofZ k) (qz k).
Proof.
  intros K. pose proof (nearest_closest _ _ (Props_side.dofZ_nearest k ltac:(lia))) as [R C]. change (inject_Z k) with (qz k) in C.
  destruct (int_double k ltac:(lia)) as [y Y]. pose proof Y as (V & v & D & W). change (inject_Z k) with (qz k) in *.
  assert (real_double y) as Ry by (split; auto; destruct y; cbn in D; try discriminate; reflexivity).
  specialize (C y Ry). assert (dval y == qz k) as E by (apply (represents_unique y); [apply represents_dval; auto|exact Y]). rewrite E in C.
  assert (Qabs (qz k - qz k) == 0) as Z by (setoid_replace (qz k - qz k) with 0 by ring; reflexivity). rewrite Z in C. apply Qabs_Qle_condition in C.
  apply (represents_ext _ (dval (dofZ k))); [lra|]. apply represents_dval; auto.
Qed.

(** ** The whole part of a quotient *)
Lemma floor_rat n k : (0 < k)%Z -> Qfloor (rat n k) = (n / k)%Z.
Proof.
  intros K. assert (rat n k == n # Z.to_pos k) as -> by (unfold rat, qz, Qdiv, Qinv, Qeq, inject_Z; destruct k; try lia; cbn; lia).
  unfold Qfloor. rewrite Z2Pos.id by lia. reflexivity.
Qed.
Lemma ceil_rat n k : (0 < k)%Z -> Qceiling (rat n k) = (- (- n / k))%Z.
Proof.
  intros K. unfold Qceiling. assert (- rat n k == rat (- n) k) as -> by (unfold rat; rewrite qz_opp; pose proof (qz_pos k K); field; lra). now rewrite floor_rat.
Qed.
Lemma floor_between (q : Q) n : qz n <= q < qz (n + 1) -> Qfloor q = n.
Proof.
  intros [A B]. assert (Qfloor (qz n) <= Qfloor q)%Z as C by (now apply Qfloor_resp_le). unfold qz in C. rewrite Qfloor_Z in C.
  assert (qz (Qfloor q) < qz (n + 1)) as D by (apply Qle_lt_trans with q; auto; apply Qfloor_le). apply (proj2 (qz_lt _ _)) in D. lia.
Qed.
Lemma ceil_between (q : Q) n : qz n - 1 < q <= qz n -> Qceiling q = n.
Proof.
  intros [A B]. unfold Qceiling. rewrite (floor_between (- q) (- n)); [lia|]. rewrite qz_add, qz_opp. change (qz 1) with 1. lra.
Qed.
Lemma rat_cancel e n k : (0 < k)%Z -> rat n k == (qz n * pw 2 e) / (qz k * pw 2 e).
Proof. intros K. pose proof (qz_pos k K). pose proof (pw_pos 2 e ltac:(lia)). unfold rat. field. lra. Qed.
Lemma lat_quotient e x s n k : lat e x n -> lat e s k -> (0 <= n < 2 ^ 53)%Z -> (0 < k < 2 ^ 53)%Z -> closest (rat n k) (ddiv x s).
Proof.
  intros X S N K. pose proof (qz_pos k ltac:(lia)) as Pk. pose proof (pw_pos 2 e ltac:(lia)) as Pe. pose proof (rat_cancel e n k ltac:(lia)) as R.
  assert (~ qz k * pw 2 e == 0) as NZ by nra.
  destruct (Z.eq_dec n 0) as [->|N0].
  - assert (represents (ddiv x s) 0) as Z. { apply (represents_ext _ ((qz 0 * pw 2 e) / (qz k * pw 2 e))); [change (qz 0) with 0; field; lra|]. apply ddiv_exact; auto. exists dzero. apply (represents_ext _ 0); [change (qz 0) with 0; field; lra|apply represents_zero]. }
    apply represents_zero_inv in Z as [b ->]. split; [split; reflexivity|]. intros y Y. assert (rat 0 k == 0) as -> by (unfold rat; change (qz 0) with 0; field; lra).
    change (dval (S754_zero b)) with 0. setoid_replace (0 - 0) with 0 by ring. apply Qabs_nonneg.
  - set (h := Q2Qc (rat n k)). assert (this h == rat n k) as Eh by apply this_Q2Qc. pose proof (qz_pos n ltac:(lia)) as Pn.
    assert (0 < rat n k) as Pr by (unfold rat; apply Qlt_shift_div_l; lra).
    assert (h <> 0%Qc) as Hn. { intros H. assert (this h == 0) as H0 by now rewrite H. rewrite Eh in H0. lra. }
    rewrite (Props_height.ddiv_dq x s _ _ h X S NZ); auto; [|now rewrite Eh].
    apply (closest_ext (this h) (rat n k)); auto. apply nearest_closest. apply dq_correct. unfold in_range. rewrite Eh, Qabs_pos by lra.
    apply Qlt_trans with (qz (2 ^ 53)); [|apply (proj1 (qz_lt _ _)); reflexivity]. assert (1 <= qz k) as K1 by (change 1 with (qz 1); apply (proj1 (qz_le _ _)); lia). assert (qz n < qz (2 ^ 53)) as N2 by (apply (proj1 (qz_lt _ _)); lia).
    unfold rat. apply Qlt_shift_div_r; auto. pose proof (qz_pos (2 ^ 53) ltac:(lia)). nra.
Qed.
(** floor and ceil of the quotient of two doubles of the lattice are those of the exact quotient *)
Theorem lat_floor e x s n k (q : Qc) : lat e x n -> lat e s k -> (0 <= n < 2 ^ 53)%Z -> (0 < k < 2 ^ 53)%Z -> this q == rat n k ->
  n_floor doubles (ddiv x s) = n_floor exact q /\ n_ceil doubles (ddiv x s) = n_ceil exact q.
Proof.
  intros X S N K E. pose proof (lat_quotient _ _ _ _ _ X S N K) as C. pose proof (quotient_between n k _ N K C) as [F G].
  cbn [n_floor n_ceil doubles exact]. rewrite E, floor_rat, ceil_rat by lia.
  assert (this (qd (ddiv x s)) == dval (ddiv x s)) as V by apply Props_util2.qd_dval.
  destruct C as [[_ R] _]. rewrite <- V in F, G.
  rewrite (floor_between _ _ F), (ceil_between _ _ G).
  destruct (ddiv x s); try discriminate R; auto.
Qed.

(** ** Bounds *)
(** rounding does not pass a double *)
Lemma closest_bound q d y : closest q d -> real_double y -> Qabs q <= dval y -> Qabs (dval d) <= dval y.
Proof.
  intros [_ C] Y B. pose proof (Qabs_nonneg q) as P. apply Qabs_Qle_condition in B. pose proof (C y Y) as C1.
  assert (real_double (dopp y)) as Y' by (destruct Y as [A1 A2]; destruct y; try discriminate; now split).
  assert (dval (dopp y) == - dval y) as Ey by (destruct y as [b| | |b m f]; try reflexivity; unfold dopp, SFopp; rewrite !dval_finite; destruct b; cbn [negb]; ring).
  pose proof (C (dopp y) Y') as C2. rewrite Ey in C2. apply Qabs_Qle_condition. set (v := dval y) in *. set (u := dval d) in *. split.
  - destruct (Qlt_le_dec u (- v)) as [X|X]; [|lra]. exfalso. rewrite (Qabs_neg (u - q)), (Qabs_neg (- v - q)) in C2 by lra. lra.
  - destruct (Qlt_le_dec v u) as [X|X]; [|lra]. exfalso. rewrite (Qabs_pos (u - q)), (Qabs_pos (v - q)) in C1 by lra. lra.
Qed.
(** the doubles of size at most n * 2^953 *)
Definition within (n : Z) (x : dbl) : Prop := real_double x /\ Qabs (dval x) <= qz n * pw 2 953.
Lemma bound_double n : (0 <= n < 2 ^ 53)%Z -> exists y, real_double y /\ dval y == qz n * pw 2 953.
Proof.
  intros N. destruct (lat_double 953 n) as [y Y]; [lia|lia|]. pose proof Y as (Vy & v & D & W). assert (real_double y) as R by (split; auto; destruct y; cbn in D; try discriminate; reflexivity).
  exists y. split; auto. apply (represents_unique y); auto. now apply represents_dval.
Qed.
Lemma bound_range n : (0 <= n < 2 ^ 53)%Z -> qz n * pw 2 953 < inject_Z (2 ^ 1024 - 2 ^ 970).
Proof.
  intros N. apply Qlt_trans with (pw 2 1006); [|apply Qnot_le_lt; intros X; vm_compute in X; now apply X].
  assert (pw 2 1006 == qz (2 ^ 53) * pw 2 953) as -> by (change 1006%Z with (53 + 953)%Z; rewrite pw_add by lia; reflexivity).
  pose proof (pw_pos 2 953 ltac:(lia)) as P. apply Qmult_lt_r; auto. apply (proj1 (qz_lt _ _)). lia.
Qed.
Lemma within_round n q d : (0 <= n < 2 ^ 53)%Z -> Qabs q <= qz n * pw 2 953 -> closest q d -> within n d.
Proof.
  intros N B C. destruct (bound_double n N) as (y & Y & E). split; [apply C|]. rewrite <- E. apply (closest_bound q); auto. now rewrite E.
Qed.
Lemma within_dq (q : Qc) n : (0 <= n < 2 ^ 53)%Z -> Qabs (this q) <= qz n * pw 2 953 -> within n (dq q).
Proof.
  intros N B. apply (within_round n (this q)); auto. apply nearest_closest. apply dq_correct. unfold in_range. eapply Qle_lt_trans; [exact B|]. now apply bound_range.
Qed.
Lemma within_add n m x y : (0 <= n)%Z -> (0 <= m)%Z -> (n + m < 2 ^ 53)%Z -> within n x -> within m y -> within (n + m) (dadd x y).
Proof.
  intros N M L [X Bx] [Y By]. destruct (dadd_correct x y X Y) as [C _].
  assert (Qabs (dval x + dval y) <= qz (n + m) * pw 2 953) as B. { eapply Qle_trans; [apply Qabs_triangle|]. rewrite qz_add. lra. }
  apply (within_round _ (dval x + dval y)); [lia|exact B|]. apply nearest_closest. apply C. unfold in_range. eapply Qle_lt_trans; [exact B|]. apply bound_range. lia.
Qed.
Lemma within_sum n l : (0 <= n)%Z -> Forall (within n) l -> forall a t, (0 <= a)%Z -> (a + n * Z.of_nat (length l) < 2 ^ 53)%Z -> within a t -> within (a + n * Z.of_nat (length l)) (fold_left dadd l t).
Proof.
  intros N F. induction F as [|x l X F IH]; intros a t A L T; cbn [fold_left length] in *.
  - replace (a + n * Z.of_nat 0)%Z with a by lia. auto.
  - replace (a + n * Z.of_nat (S (length l)))%Z with ((a + n) + n * Z.of_nat (length l))%Z in * by lia. apply IH; try lia. apply within_add; auto. nia.
Qed.
Lemma within_div n k x : (0 <= n < 2 ^ 53)%Z -> (0 < k < 2 ^ 53)%Z -> within n x -> real_double (ddiv x (dofZ k)).
Proof.
  intros N K [X B]. pose proof (represents_dval x X) as Rx. pose proof (dofZ_int k ltac:(lia)) as Rk. pose proof (qz_pos k ltac:(lia)) as Pk. assert (~ qz k == 0) as NZ by lra.
  destruct (Qeq_dec (dval x) 0) as [Z|Z].
  - assert (represents (ddiv x (dofZ k)) 0) as R. { apply (represents_ext _ (dval x / qz k)); [rewrite Z; field; auto|]. apply ddiv_exact; auto. exists dzero. apply (represents_ext _ 0); [rewrite Z; field; auto|apply represents_zero]. }
    apply represents_zero_inv in R as [b ->]. now split.
  - set (h := Q2Qc (dval x / qz k)). assert (this h == dval x / qz k) as Eh by apply this_Q2Qc.
    assert (h <> 0%Qc) as Hn. { intros H. assert (this h == 0) as H0 by now rewrite H. rewrite Eh in H0. apply Z. assert (dval x == dval x / qz k * qz k) as -> by (field; auto). rewrite H0. ring. }
    rewrite (Props_height.ddiv_dq x _ _ _ h Rx Rk NZ Eh Hn). apply (within_dq h n); auto. rewrite Eh. assert (1 <= qz k) as K1 by (change 1 with (qz 1); apply (proj1 (qz_le _ _)); lia).
    unfold Qdiv. rewrite Qabs_Qmult. eapply Qle_trans; [|exact B]. rewrite (Qabs_pos (/ qz k)) by (apply Qlt_le_weak, Qinv_lt_0_compat; auto).
    pose proof (Qabs_nonneg (dval x)) as P. set (u := Qabs (dval x)) in *. apply (proj1 (Qmult_le_r _ _ (qz k) Pk)). assert (u * / qz k * qz k == u) as -> by (field; auto). nra.
Qed.
