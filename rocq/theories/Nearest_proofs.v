(** * Nearest_proofs: the integer roundings of Decimal give the nearest double and the nearest
    six-digit decimal, ties to even. *)
From Verif Require Import Base Dbl Decimal Round_proofs Rn_proofs Scan_proofs Spec_text Spec_num.
From Coq Require Import QArith Qpower Qabs Lqa.
Open Scope Q_scope.

Lemma Qabs_case_le x y : (- y <= x <= y) -> Qabs x <= y.
Proof. intros H. apply Qabs_Qle_condition. auto. Qed.
Lemma grid_nearest v u (m : Z) : 0 < u -> Qabs (v - qz m * u) <= (1#2) * u -> forall k : Z,
  Qabs (qz m * u - v) <= Qabs (qz k * u - v) /\ (Qabs (qz m * u - v) == Qabs (qz k * u - v) -> m <> k -> Qabs (v - qz m * u) == (1#2) * u).
Proof.
  intros U H k. rewrite (Qabs_Qminus v) in *. destruct (Z.eq_dec m k) as [->|N]; [split; [apply Qle_refl|easy]|].
  assert (u <= qz (Z.abs (k - m)) * u) as G.
  { assert (1 <= qz (Z.abs (k - m))) as G by (change 1 with (qz 1); apply (proj1 (qz_le _ _)); lia). setoid_replace u with (1 * u) at 1 by ring. apply Qmult_le_r; auto. }
  assert (Qabs (qz k * u - qz m * u) == qz (Z.abs (k - m)) * u) as E.
  { setoid_replace (qz k * u - qz m * u) with (qz (k - m) * u) by (rewrite qz_sub; ring). rewrite Qabs_Qmult, (Qabs_pos u) by lra. apply Qmult_comp; [|reflexivity]. reflexivity. }
  pose proof (Qabs_triangle (qz k * u - v) (v - qz m * u)) as T.
  setoid_replace (qz k * u - v + (v - qz m * u)) with (qz k * u - qz m * u) in T by ring.
  rewrite (Qabs_Qminus v) in T. split; [lra|]. intros E1 _. lra.
Qed.
Lemma rhe_tie a b : (0 < b)%Z -> Qabs (rat a b - qz (rhe a b)) == (1#2) -> Z.even (rhe a b) = true.
Proof.
  intros B H. unfold rhe in *. pose proof (Z.div_mod a b ltac:(lia)) as D. pose proof (Z.mod_pos_bound a b B) as M.
  set (q := (a / b)%Z) in *. set (r := (a mod b)%Z) in *.
  assert (rat a b == qz q + rat r b) as E.
  { unfold rat. rewrite D, qz_add, qz_mul. field. pose proof (qz_pos b B). lra. }
  destruct (Z.compare_spec (2 * r) b) as [C|C|C].
  - destruct (Z.even q) eqn:Ev; auto. now rewrite Z.add_1_r, Z.even_succ, <- Z.negb_even, Ev.
  - exfalso. rewrite E in H. setoid_replace (qz q + rat r b - qz q) with (rat r b) in H by ring.
    assert (0 <= rat r b) as P by (change 0 with (qz 0); apply rat_le_Z; lia). rewrite Qabs_pos in H by auto.
    pose proof (rat_mul_den r b B). rewrite H in H0. assert (qz (2 * r) == qz b) as X by (rewrite qz_mul, <- H0; change (qz 2) with 2; ring). apply qz_eq in X. lia.
  - exfalso. rewrite E in H. rewrite qz_add in H. setoid_replace (qz q + rat r b - (qz q + qz 1)) with (rat r b - 1) in H by (change (qz 1) with 1; ring).
    assert (rat r b < 1) as P by (change 1 with (qz 1); apply rat_lt_Z; lia). rewrite Qabs_neg in H by lra.
    pose proof (rat_mul_den r b B). assert (rat r b == 1#2) as X by lra. rewrite X in H0. assert (qz (2 * r) == qz b) as Y by (rewrite qz_mul, <- H0; change (qz 2) with 2; ring). apply qz_eq in Y. lia.
Qed.
(** any other value: a multiple of the unit, or below some unit multiple that is below v *)
Lemma far_below v u w (m k : Z) : 0 < u -> Qabs (v - qz m * u) <= (1#2) * u -> w < qz k * u -> qz k * u <= v ->
  Qabs (qz m * u - v) < Qabs (w - v).
Proof.
  intros U H W K. destruct (grid_nearest v u m U H k) as [G _]. eapply Qle_lt_trans; [exact G|].
  rewrite (Qabs_neg (qz k * u - v)), (Qabs_neg (w - v)) by lra. lra.
Qed.
Lemma pw_mult k e e' (n : Z) : (0 < k)%Z -> (e <= e')%Z -> qz n * pw k e' == qz (n * k ^ (e' - e)) * pw k e.
Proof. intros K L. rewrite qz_mul, <- (pw_Z k (e' - e)) by lia. rewrite <- Qmult_assoc, <- pw_add by lia. replace (e' - e + e)%Z with e' by lia. reflexivity. Qed.

(** the form of the rounding: m units of 2^ex0, the nearest multiple, ties to even *)
Lemma rn64_nearest a b : (0 < a)%Z -> (0 < b)%Z ->
  exists M ex0, Z.max (flog2 a b - 52) (-1074) = ex0 /\ (0 <= M <= 2 ^ 53)%Z /\
    (forall s, rn64 s a b = if (M =? 2 ^ 53)%Z then sf_of s (2 ^ 52) (ex0 + 1) else sf_of s M ex0) /\
    Qabs (rat a b - qz M * pw 2 ex0) <= (1#2) * pw 2 ex0 /\ (Qabs (rat a b - qz M * pw 2 ex0) == (1#2) * pw 2 ex0 -> Z.even M = true) /\
    (qz (2 ^ 53 - 1) * pw 2 ex0 + (1#2) * pw 2 ex0 <= rat a b <-> M = (2 ^ 53)%Z).
Proof.
  intros Ha Hb. set (v := rat a b). set (ex0 := Z.max (flog2 a b - 52) (-1074)).
  pose proof (flog2_spec a b Ha Hb) as [Hlo Hhi]. fold v in Hlo, Hhi.
  pose proof (scale_rat 2 a b ex0 ltac:(lia) Hb) as Hs. unfold rn64. fold ex0. destruct (scale 2 a b ex0) as [n d].
  destruct Hs as (Hd & Hv & Hn). specialize (Hn Ha). fold v in Hv.
  pose proof (pw_pos 2 ex0 ltac:(lia)) as Hp.
  pose proof (rhe_near n d Hd) as [N1 N2]. pose proof (rhe_tie n d Hd) as Tie. set (m := rhe n d) in *.
  assert (rat n d < qz (2 ^ 53)) as Hlt.
  { assert (pw 2 (flog2 a b + 1) <= pw 2 (53 + ex0)) as H by (apply pw_le; unfold ex0; lia).
    rewrite (pw_add 2 53), (pw_Z 2 53) in H by lia. nra. }
  assert (m <= 2 ^ 53)%Z as Hm by (apply rhe_le_Z; auto; lra).
  assert (0 <= m)%Z as Hm0. { apply rhe_ge_Z; auto. change (qz 0) with 0. pose proof (rat_pos n d Hn Hd). lra. }
  assert (Qabs (v - qz m * pw 2 ex0) == Qabs (rat n d - qz m) * pw 2 ex0) as Ab.
  { rewrite <- Hv. setoid_replace (rat n d * pw 2 ex0 - qz m * pw 2 ex0) with ((rat n d - qz m) * pw 2 ex0) by ring. rewrite Qabs_Qmult, (Qabs_pos (pw 2 ex0)) by lra. reflexivity. }
  exists m, ex0. split; [reflexivity|]. split; [lia|]. split; [|split; [|split]].
  - intros s. destruct (Z.eqb_spec m (2 ^ 53)); reflexivity.
  - rewrite Ab. apply Qmult_le_r; auto. apply Qabs_case_le. lra.
  - intros H. apply Tie. rewrite Ab in H. apply Qmult_inj_r in H; [auto|lra].
  - rewrite <- Hv. assert (forall q, q * pw 2 ex0 <= rat n d * pw 2 ex0 <-> q <= rat n d) as Sc by (intros; split; intros; [apply Qmult_le_r in H; auto|apply Qmult_le_r; auto]).
    setoid_replace (qz (2 ^ 53 - 1) * pw 2 ex0 + (1 # 2) * pw 2 ex0) with ((qz (2 ^ 53 - 1) + (1#2)) * pw 2 ex0) by ring. rewrite Sc. split.
    + intros H. assert (qz (2 ^ 53 - 1) <= qz m) as Q by lra. apply qz_le in Q. destruct (Z.eq_dec m (2 ^ 53 - 1)) as [E|]; [|lia]. exfalso.
      rewrite E in N2, Tie. assert (rat n d == qz (2 ^ 53 - 1) + (1#2)) as X by lra. rewrite X in Tie. assert (Z.even (2 ^ 53 - 1) = true) as Y; [|vm_compute in Y; discriminate].
      apply Tie. setoid_replace (qz (2 ^ 53 - 1) + (1 # 2) - qz (2 ^ 53 - 1)) with (1#2) by ring. reflexivity.
    + intros E. rewrite E in N1. rewrite qz_sub. change (qz 1) with 1. lra.
Qed.

Lemma dval_finite s m e : dval (S754_finite s m e) == (if s then -1 else 1) * (qz (Zpos m) * pw 2 e).
Proof. cbn [dval]. unfold qz, pw. change (inject_Z 2) with (2#1). rewrite Qmult_assoc. reflexivity. Qed.
Lemma dval_opp x : dval (dopp x) == - dval x.
Proof. destruct x as [s|s| |s m e]; try reflexivity. unfold dopp. cbn [SFopp]. rewrite !dval_finite. destruct s; cbn [negb]; ring. Qed.
Lemma dvalid_opp x : dvalid (dopp x) = dvalid x.
Proof. destruct x; reflexivity. Qed.
Lemma real_opp x : real_double x -> real_double (dopp x).
Proof. unfold real_double. intros [A B]. split; [now rewrite dvalid_opp|destruct x; auto]. Qed.
Lemma even_opp x : even_mantissa (dopp x) <-> even_mantissa x.
Proof. destruct x; reflexivity. Qed.
Lemma dopp_opp x : dopp (dopp x) = x.
Proof. destruct x; unfold dopp; cbn [SFopp]; rewrite ?negb_involutive; reflexivity. Qed.
Lemma nearest_opp q x : nearest_double q x -> nearest_double (- q) (dopp x).
Proof.
  intros [R H]. split; [now apply real_opp|]. intros y Y. destruct (H (dopp y) (real_opp y Y)) as [H1 H2].
  rewrite dval_opp in *. assert (Qabs (- dval x - - q) == Qabs (dval x - q)) as E1 by (rewrite <- Qabs_opp; apply Qabs_wd; ring).
  assert (Qabs (dval y - - q) == Qabs (- dval y - q)) as E2 by (rewrite <- Qabs_opp; apply Qabs_wd; ring).
  rewrite E1, E2. split; [auto|]. intros A B. apply even_opp. apply H2; auto. intros C. apply B. rewrite C. ring.
Qed.

(** values of doubles against a unit 2^ex0 *)
Lemma double_on_grid y ex0 (V : real_double y) :
  (exists k, dval y == qz k * pw 2 ex0) \/ (dval y < qz (2 ^ 52) * pw 2 ex0 /\ (-1074 < ex0)%Z).
Proof.
  pose proof (pw_pos 2 ex0 ltac:(lia)) as P. destruct V as [V F]. destruct y as [t|t| |t n f]; try discriminate.
  - left. exists 0%Z. cbn [dval]. change (qz 0) with 0. ring.
  - apply dvalid_bounds in V as (V1 & V2 & V3). destruct (Z.le_gt_cases ex0 f) as [L|L].
    + left. exists ((if t then -1 else 1) * (Zpos n * 2 ^ (f - ex0)))%Z. pose proof (pw_mult 2 ex0 f (Zpos n) ltac:(lia) L) as Q. rewrite dval_finite, Q. rewrite (qz_mul (if t then -1 else 1)). destruct t; [change (qz (-1)) with (-1)|change (qz 1) with 1]; ring.
    + right. split; [|lia]. rewrite dval_finite. assert (qz (Zpos n) * pw 2 f < qz (2 ^ 52) * pw 2 ex0) as H.
      { assert (pw 2 (53 + f) <= pw 2 (52 + ex0)) as Q by (apply pw_le; lia). rewrite !pw_add, (pw_Z 2 53), (pw_Z 2 52) in Q by lia.
        eapply Qlt_le_trans; [|exact Q]. pose proof (pw_pos 2 f ltac:(lia)). apply Qmult_lt_r; auto. apply (proj1 (qz_lt _ _)). exact V3. }
      pose proof (pw_pos 2 f ltac:(lia)). pose proof (qz_pos (Zpos n) ltac:(lia)). assert (0 < qz (2 ^ 52) * pw 2 ex0) by (change (qz (2 ^ 52)) with (4503599627370496#1); nra). destruct t; nra.
Qed.
Lemma threshold : inject_Z (2 ^ 1024 - 2 ^ 970) == qz (2 ^ 53 - 1) * pw 2 971 + (1#2) * pw 2 971.
Proof.
  assert (2 ^ 1024 - 2 ^ 970 = (2 * (2 ^ 53 - 1) + 1) * 2 ^ 970)%Z as -> by reflexivity. change inject_Z with qz. rewrite qz_mul, qz_add, qz_mul. change (qz 2) with 2. change (qz 1) with 1.
  replace 971%Z with (1 + 970)%Z by lia. rewrite pw_add by lia. rewrite pw_1, <- (pw_Z 2 970) by lia. change (qz 2) with 2. ring.
Qed.
Lemma sf_of_opp m e : sf_of true m e = dopp (sf_of false m e).
Proof. unfold sf_of. destruct m as [|p|p]; try reflexivity. destruct (e <=? 971)%Z; reflexivity. Qed.
Lemma rn64_correct s a b : (0 < a)%Z -> (0 < b)%Z ->
  (rat a b < inject_Z (2 ^ 1024 - 2 ^ 970) -> nearest_double (signed s (rat a b)) (rn64 s a b) /\ negative (rn64 s a b) = s) /\
  (inject_Z (2 ^ 1024 - 2 ^ 970) <= rat a b -> rn64 s a b = S754_infinity s).
Proof.
  intros Ha Hb. destruct (rn64_nearest a b Ha Hb) as (M & ex0 & Ex & HM & E & Err & Tie & Ovf). set (v := rat a b) in *.
  pose proof (pw_pos 2 ex0 ltac:(lia)) as Hp. pose proof (rat_pos a b Ha Hb) as Vp. fold v in Vp.
  pose proof (flog2_spec a b Ha Hb) as [Hlo Hhi]. fold v in Hlo, Hhi. rewrite threshold. split; intros L.
  - assert (flog2 a b <= 1023)%Z as Hf.
    { assert (pw 2 (flog2 a b) < pw 2 1024) as H.
      { eapply Qle_lt_trans; [exact Hlo|]. eapply Qlt_le_trans; [exact L|]. replace 1024%Z with (53 + 971)%Z by lia. rewrite pw_add, (pw_Z 2 53) by lia.
        rewrite qz_sub. change (qz 1) with 1. pose proof (pw_pos 2 971 ltac:(lia)). lra. }
      apply pw_lt_inv in H; lia. }
    assert (M = (2 ^ 53)%Z -> ex0 < 971)%Z as Hc.
    { intros EM. destruct (Z.eq_dec ex0 971) as [E9|]; [|lia]. exfalso. apply Ovf in EM. rewrite E9 in EM. lra. }
    assert (forall s', dval (rn64 s' a b) == (if s' then -1 else 1) * (qz M * pw 2 ex0) /\ negative (rn64 s' a b) = s' /\
      dfinite (rn64 s' a b) = true /\ (Z.even M = true -> even_mantissa (rn64 s' a b))) as Val.
    { intros s'. rewrite E. destruct (Z.eqb_spec M (2 ^ 53)) as [EM|EM].
      - specialize (Hc EM). unfold sf_of. change (2 ^ 52)%Z with (Zpos 4503599627370496). cbv iota beta. replace (ex0 + 1 <=? 971)%Z with true by lia. split; [|cbn [negative dfinite even_mantissa Z.even]; auto].
        rewrite dval_finite, EM. rewrite pw_add by lia. rewrite pw_1. change (2 ^ 53)%Z with (4503599627370496 * 2)%Z. rewrite qz_mul. ring.
      - unfold sf_of. destruct M as [|p|p]; [| |lia].
        + split; [|cbn; auto]. cbn [dval]. change (qz 0) with 0. ring.
        + replace (ex0 <=? 971)%Z with true by lia. split; [apply dval_finite|]. cbn [negative dfinite even_mantissa]. auto. }
    assert (nearest_double v (rn64 false a b)) as Near.
    { destruct (Val false) as (V1 & V2 & V3 & V4). split; [split; [now apply rn64_valid|auto]|]. intros y Y.
      rewrite V1. setoid_replace (1 * (qz M * pw 2 ex0)) with (qz M * pw 2 ex0) by ring.
      destruct (double_on_grid y ex0 Y) as [[k K]|[K Nex]].
      - rewrite K. destruct (grid_nearest v (pw 2 ex0) M Hp Err k) as [G1 G2]. split; [auto|]. intros Q Nq. apply V4, Tie, G2; auto. intros ->. apply Nq. reflexivity.
      - assert (Qabs (qz M * pw 2 ex0 - v) < Qabs (dval y - v)) as F.
        { apply far_below with (k := (2 ^ 52)%Z); auto. assert (pw 2 (flog2 a b) == qz (2 ^ 52) * pw 2 ex0) as <-; [|auto].
          rewrite <- (pw_Z 2 52), <- pw_add by lia. replace (52 + ex0)%Z with (flog2 a b) by lia. reflexivity. }
        split; [lra|]. intros Q. lra. }
    destruct (Val s) as (V1 & V2 & V3 & V4). split; [|auto]. destruct s; [|exact Near].
    assert (rn64 true a b = dopp (rn64 false a b)) as ->. { rewrite !E. destruct (M =? 2 ^ 53)%Z; apply sf_of_opp. }
    now apply nearest_opp.
  - rewrite E. destruct (Z.le_gt_cases ex0 971) as [L9|L9].
    + assert (qz (2 ^ 53 - 1) * pw 2 ex0 + (1 # 2) * pw 2 ex0 <= v) as O.
      { pose proof (pw_le 2 ex0 971 ltac:(lia) L9) as Q. change (qz (2 ^ 53 - 1)) with (9007199254740991#1) in *. nra. }
      assert (971 <= ex0)%Z as G.
      { assert (pw 2 1023 <= v) as Q.
        { eapply Qle_trans; [|exact L]. replace 1023%Z with (52 + 971)%Z by lia. rewrite pw_add, (pw_Z 2 52) by lia. pose proof (pw_pos 2 971 ltac:(lia)). change (qz (2 ^ 53 - 1)) with (9007199254740991#1). change (qz (2 ^ 52)) with (4503599627370496#1). nra. }
        assert (pw 2 1023 < pw 2 (flog2 a b + 1)) as Q' by (eapply Qle_lt_trans; eassumption). apply pw_lt_inv in Q'; lia. }
      apply Ovf in O. rewrite O. change (2 ^ 53 =? 2 ^ 53)%Z with true. cbv iota. unfold sf_of. change (2 ^ 52)%Z with (Zpos 4503599627370496). cbv iota beta. replace (ex0 + 1 <=? 971)%Z with false by lia. reflexivity.
    + assert (52 <= flog2 a b - ex0)%Z as Nf by lia.
      destruct (Z.eqb_spec M (2 ^ 53)).
      * unfold sf_of. change (2 ^ 52)%Z with (Zpos 4503599627370496). cbv iota beta. replace (ex0 + 1 <=? 971)%Z with false by lia. reflexivity.
      * assert (0 < M)%Z as Mp.
        { destruct (Z.eq_dec M 0) as [->|]; [|lia]. exfalso. change (qz 0) with 0 in Err. setoid_replace (v - 0 * pw 2 ex0) with v in Err by ring. rewrite Qabs_pos in Err by lra.
          assert (pw 2 ex0 <= pw 2 (flog2 a b)) by (apply pw_le; lia). lra. }
        unfold sf_of. destruct M as [|p|p]; try lia. replace (ex0 <=? 971)%Z with false by lia. reflexivity.
Qed.

(** ** six significant digits *)
Lemma dec6_nearest a b : (0 < a)%Z -> (0 < b)%Z -> let '(D, X) := dec6 a b in six_digits (rat a b) D X.
Proof.
  intros Ha Hb. unfold dec6. set (x := flog10 a b). set (v := rat a b).
  pose proof (flog10_spec a b Ha Hb) as [Hlo Hhi]. fold v x in Hlo, Hhi.
  pose proof (scale_rat 10 a b (x - 5) ltac:(lia) Hb) as Hs. destruct (scale 10 a b (x - 5)) as [n d].
  destruct Hs as (Hd & Hv & Hn). specialize (Hn Ha). fold v in Hv.
  pose proof (pw_pos 10 (x - 5) ltac:(lia)) as Hp. set (u := pw 10 (x - 5)) in *.
  assert (pw 10 x == qz 100000 * u) as E5. { unfold u. change 100000%Z with (10 ^ 5)%Z. rewrite <- (pw_Z 10 5), <- pw_add by lia. now replace (5 + (x - 5))%Z with x by lia. }
  assert (pw 10 (x + 1) == qz 1000000 * u) as E6. { unfold u. change 1000000%Z with (10 ^ 6)%Z. rewrite <- (pw_Z 10 6), <- pw_add by lia. now replace (6 + (x - 5))%Z with (x + 1)%Z by lia. }
  pose proof (rhe_near n d Hd) as [N1 N2]. pose proof (rhe_tie n d Hd) as Tie. set (m := rhe n d) in *.
  assert (Qabs (v - qz m * u) == Qabs (rat n d - qz m) * u) as Ab.
  { rewrite <- Hv. setoid_replace (rat n d * u - qz m * u) with ((rat n d - qz m) * u) by ring. rewrite Qabs_Qmult, (Qabs_pos u) by lra. reflexivity. }
  assert (Qabs (v - qz m * u) <= (1#2) * u) as Err. { rewrite Ab. apply Qmult_le_r; auto. apply Qabs_case_le. lra. }
  assert (Qabs (v - qz m * u) == (1#2) * u -> Z.even m = true) as Tie'. { intros H. apply Tie. rewrite Ab in H. apply Qmult_inj_r in H; [auto|lra]. }
  assert (100000 <= m)%Z as M5. { apply rhe_ge_Z; auto. rewrite E5, <- Hv in Hlo. apply Qmult_le_r in Hlo; auto. }
  assert (m <= 1000000)%Z as M6. { apply rhe_le_Z; auto. rewrite E6, <- Hv in Hhi. apply Qlt_le_weak in Hhi. apply Qmult_le_r in Hhi; auto. }
  assert (forall D' X', (100000 <= D' <= 999999)%Z -> let w := inject_Z D' * (10#1) ^ (X' - 5) in
     Qabs (qz m * u - v) <= Qabs (w - v) /\ (Qabs (qz m * u - v) == Qabs (w - v) -> ~ qz m * u == w -> Z.even m = true)) as G.
  { intros D' X' HD w. assert (w == qz D' * pw 10 (X' - 5)) as Ew by reflexivity. destruct (Z.le_gt_cases x X') as [L|L].
    - pose proof (pw_mult 10 (x - 5) (X' - 5) D' ltac:(lia) ltac:(lia)) as Q0. rewrite Q0 in Ew. fold u in Ew. rewrite Ew. destruct (grid_nearest v u m Hp Err (D' * 10 ^ (X' - 5 - (x - 5)))) as [G1 G2]. split; [auto|].
      intros Q N. apply Tie', G2; auto. intros ->. apply N. reflexivity.
    - assert (Qabs (qz m * u - v) < Qabs (w - v)) as F.
      { apply far_below with (k := 100000%Z); auto; [|rewrite <- E5; auto]. rewrite Ew, <- E5.
        assert (pw 10 (6 + (X' - 5)) <= pw 10 x) as P by (apply pw_le; lia). rewrite pw_add, (pw_Z 10 6) in P by lia. eapply Qlt_le_trans; [|exact P].
        apply Qmult_lt_r; [apply pw_pos; lia|]. apply (proj1 (qz_lt _ _)). change (10 ^ 6)%Z with 1000000%Z. lia. }
      split; [lra|]. intros Q. lra. }
  destruct (Z.eqb_spec m 1000000) as [E|E].
  - split; [lia|]. intros D' X' HD v' w. specialize (G D' X' HD). fold w in G.
    assert (v' == qz m * u) as Ev. { rewrite E. unfold v', u. change ((10#1) ^ (x + 1 - 5)) with (pw 10 (x + 1 - 5)). replace (x + 1 - 5)%Z with (1 + (x - 5))%Z by lia. rewrite pw_add by lia. rewrite pw_1. change (qz 1000000) with (qz (100000 * 10)). rewrite qz_mul. unfold qz. ring. }
    rewrite Ev. destruct G as [G1 _]. split; [auto|]. intros; reflexivity.
  - split; [lia|]. intros D' X' HD v' w. specialize (G D' X' HD). fold w in G. exact G.
Qed.
