(** * Correctness of the rounding functions of Decimal (in rationals). *)
From Verif Require Import Base Dbl Decimal.
From Coq Require Import QArith Qpower Qabs Lqa.
Open Scope Q_scope.

Definition qz := inject_Z.
Definition pw (k e : Z) : Q := (qz k) ^ e.
Definition rat (a b : Z) : Q := qz a / qz b.

Lemma qz_pos a : (0 < a)%Z -> 0 < qz a.
Proof. intros H. unfold qz. change 0 with (inject_Z 0). rewrite <- Zlt_Qlt. exact H. Qed.
Lemma qz_le a b : (a <= b)%Z <-> qz a <= qz b.
Proof. unfold qz. rewrite Zle_Qle. tauto. Qed.
Lemma qz_lt a b : (a < b)%Z <-> qz a < qz b.
Proof. unfold qz. rewrite Zlt_Qlt. tauto. Qed.
Lemma qz_eq a b : a = b <-> qz a == qz b.
Proof. unfold qz. rewrite inject_Z_injective. tauto. Qed.
Lemma qz_mul a b : qz (a * b) == qz a * qz b.
Proof. unfold qz. rewrite inject_Z_mult. reflexivity. Qed.
Lemma qz_add a b : qz (a + b) == qz a + qz b.
Proof. unfold qz. rewrite inject_Z_plus. reflexivity. Qed.
Lemma qz_sub a b : qz (a - b) == qz a - qz b.
Proof. unfold qz, Z.sub. rewrite inject_Z_plus, inject_Z_opp. reflexivity. Qed.

Lemma pw_pos k e : (0 < k)%Z -> 0 < pw k e.
Proof. intros H. unfold pw. apply Qpower_0_lt. apply qz_pos; auto. Qed.
Lemma pw_add k a b : (0 < k)%Z -> pw k (a + b) == pw k a * pw k b.
Proof. intros H. unfold pw. apply Qpower_plus. intros E. pose proof (qz_pos k H). rewrite E in H0. lra. Qed.
Lemma pw_Z k e : (0 <= e)%Z -> pw k e == qz (k ^ e).
Proof. intros H. unfold pw, qz. symmetry. apply Zpower_Qpower; auto. Qed.
Lemma pw_opp k e : pw k (- e) == / pw k e.
Proof. unfold pw. apply Qpower_opp. Qed.
Lemma pw_0 k : pw k 0 == 1.
Proof. reflexivity. Qed.
Lemma pw_1 k : pw k 1 == qz k.
Proof. unfold pw. apply Qpower_1_r. Qed.
Lemma pw_S k e : (0 < k)%Z -> pw k (e + 1) == qz k * pw k e.
Proof. intros H. rewrite pw_add by auto. rewrite pw_1. lra. Qed.
Lemma pw_le k a b : (1 <= k)%Z -> (a <= b)%Z -> pw k a <= pw k b.
Proof.
  intros Hk H. unfold pw. apply Qpower_le_compat_l; auto. unfold qz. change 1 with (inject_Z 1). rewrite <- Zle_Qle. auto.
Qed.
Lemma pw_lt k a b : (1 < k)%Z -> (a < b)%Z -> pw k a < pw k b.
Proof.
  intros Hk H. unfold pw. apply Qpower_lt_compat_l; auto. unfold qz. change 1 with (inject_Z 1). rewrite <- Zlt_Qlt. auto.
Qed.
Lemma pw_lt_inv k a b : (1 <= k)%Z -> pw k a < pw k b -> (a < b)%Z.
Proof.
  intros Hk H. destruct (Z.lt_ge_cases a b); auto. pose proof (pw_le k b a Hk H0). lra.
Qed.

Lemma rat_pos a b : (0 < a)%Z -> (0 < b)%Z -> 0 < rat a b.
Proof. intros Ha Hb. unfold rat. apply Qlt_shift_div_l; [apply qz_pos; auto|]. rewrite Qmult_0_l. apply qz_pos; auto. Qed.
Lemma rat_mul_den a b : (0 < b)%Z -> rat a b * qz b == qz a.
Proof. intros Hb. unfold rat. field. pose proof (qz_pos b Hb). lra. Qed.

(** the two sides of a fraction comparison, in integers *)
Lemma rat_le_Z a b n : (0 < b)%Z -> (qz n <= rat a b <-> (n * b <= a)%Z).
Proof.
  intros Hb. rewrite qz_le, qz_mul. pose proof (qz_pos b Hb). pose proof (rat_mul_den a b Hb). split; intros H1.
  - rewrite <- H0. apply Qmult_le_compat_r; lra.
  - apply Qle_shift_div_l; auto.
Qed.
Lemma rat_lt_Z a b n : (0 < b)%Z -> (rat a b < qz n <-> (a < n * b)%Z).
Proof.
  intros Hb. rewrite qz_lt, qz_mul. pose proof (qz_pos b Hb). pose proof (rat_mul_den a b Hb). split; intros H1.
  - rewrite <- H0. apply Qmult_lt_compat_r; auto.
  - apply Qlt_shift_div_r; auto.
Qed.

Lemma scale_spec k a b e : (0 < k)%Z -> (0 < b)%Z ->
  (0 < snd (scale k a b e))%Z /\ rat (fst (scale k a b e)) (snd (scale k a b e)) == rat a b / pw k e /\
  ((0 < a)%Z -> (0 < fst (scale k a b e))%Z).
Proof.
  intros Hk Hb. unfold scale. pose proof (qz_pos b Hb).
  destruct (Z.leb_spec 0 e) as [He|He]; cbn [fst snd].
  - assert (0 < k ^ e)%Z by (apply Z.pow_pos_nonneg; auto). split; [nia|]. split; [|auto].
    unfold rat. rewrite qz_mul, pw_Z by auto. pose proof (qz_pos _ H0). field. lra.
  - assert (0 < k ^ (-e))%Z by (apply Z.pow_pos_nonneg; lia). split; [auto|]. split; [|nia].
    unfold rat. rewrite qz_mul. rewrite <- pw_Z by lia. rewrite pw_opp. pose proof (pw_pos k e Hk). field. lra.
Qed.

(** ** rhe *)
Lemma rhe_Z a b : (0 < b)%Z -> (- b <= 2 * a - 2 * b * rhe a b <= b)%Z.
Proof.
  intros Hb. unfold rhe. pose proof (Z.div_mod a b ltac:(lia)) as Hd. pose proof (Z.mod_pos_bound a b Hb) as Hm.
  destruct (Z.compare_spec (2 * (a mod b)) b); [destruct (Z.even (a / b))| |]; nia.
Qed.
Lemma rhe_near a b : (0 < b)%Z -> - (1#2) <= rat a b - qz (rhe a b) <= 1#2.
Proof.
  intros Hb. pose proof (rhe_Z a b Hb) as [H1 H2]. set (n := rhe a b) in *. pose proof (qz_pos b Hb).
  assert (- qz b <= 2 * qz a - 2 * qz b * qz n) as Q1.
  { apply qz_le in H1. revert H1. rewrite qz_sub, !qz_mul. unfold qz at 1. rewrite inject_Z_opp. auto. }
  assert (2 * qz a - 2 * qz b * qz n <= qz b) as Q2.
  { apply qz_le in H2. revert H2. rewrite qz_sub, !qz_mul. auto. }
  pose proof (rat_mul_den a b Hb) as E. split.
  - apply Qmult_le_r with (z := qz b); auto. nra.
  - apply Qmult_le_r with (z := qz b); auto. nra.
Qed.
Lemma rhe_unique a b n : (0 < b)%Z -> - (1#2) < rat a b - qz n < 1#2 -> rhe a b = n.
Proof.
  intros Hb H. pose proof (rhe_near a b Hb) as H1.
  assert (qz (rhe a b) - qz n < 1 /\ -1 < qz (rhe a b) - qz n) as [H2 H3] by lra.
  rewrite <- qz_sub in H2, H3. change 1 with (qz 1) in H2. change (-1) with (qz (-1)) in H3.
  apply qz_lt in H2, H3. lia.
Qed.
Lemma rhe_scale a b k : (0 < b)%Z -> (0 < k)%Z -> rhe (a * k) (b * k) = rhe a b.
Proof.
  intros Hb Hk. unfold rhe. rewrite Z.div_mul_cancel_r by lia. rewrite Z.mul_mod_distr_r by lia.
  replace (2 * (a mod b * k))%Z with (2 * (a mod b) * k)%Z by ring.
  replace (2 * (a mod b) * k ?= b * k)%Z with (2 * (a mod b) ?= b)%Z; [reflexivity|].
  destruct (Z.compare_spec (2 * (a mod b)) b); symmetry; [apply Z.compare_eq_iff|apply Z.compare_lt_iff|apply Z.compare_gt_iff]; nia.
Qed.
Lemma rat_cross a b a' b' : (0 < b)%Z -> (0 < b')%Z -> rat a b == rat a' b' -> (a * b' = a' * b)%Z.
Proof.
  intros Hb Hb' E. apply qz_eq. rewrite !qz_mul. rewrite <- (rat_mul_den a b), <- (rat_mul_den a' b') by auto. rewrite E. ring.
Qed.
Lemma rhe_ext a b a' b' : (0 < b)%Z -> (0 < b')%Z -> rat a b == rat a' b' -> rhe a b = rhe a' b'.
Proof.
  intros Hb Hb' E. apply rat_cross in E; auto.
  rewrite <- (rhe_scale a b b'), <- (rhe_scale a' b' b) by auto. rewrite E, (Z.mul_comm b b'). reflexivity.
Qed.
Lemma rhe_int n b : (0 < b)%Z -> rhe (n * b) b = n.
Proof.
  intros Hb. apply rhe_unique; auto. unfold rat. rewrite qz_mul. pose proof (qz_pos b Hb).
  assert (qz n * qz b / qz b - qz n == 0) as -> by (field; lra). lra.
Qed.

(** ** flog2 and flog10 *)
Definition is_flog (k : Z) (v : Q) (e : Z) : Prop := pw k e <= v /\ v < pw k (e + 1).
Lemma is_flog_unique k v e e' : (1 < k)%Z -> is_flog k v e -> is_flog k v e' -> e = e'.
Proof.
  intros Hk [H1 H2] [H3 H4].
  assert (e < e' + 1)%Z by (apply (pw_lt_inv k); [lia|lra]).
  assert (e' < e + 1)%Z by (apply (pw_lt_inv k); [lia|lra]). lia.
Qed.
Lemma is_flog_ext k v v' e : v == v' -> is_flog k v e -> is_flog k v' e.
Proof. intros E [H1 H2]. split; rewrite <- E; auto. Qed.

Lemma flog2_spec a b : (0 < a)%Z -> (0 < b)%Z -> is_flog 2 (rat a b) (flog2 a b).
Proof.
  intros Ha Hb. unfold flog2. set (e0 := (Z.log2 a - Z.log2 b)%Z).
  destruct (scale_spec 2 a b e0 ltac:(lia) Hb) as (Hd & Hv & Hn). specialize (Hn Ha).
  destruct (scale 2 a b e0) as [n d]; cbn [fst snd] in *.
  pose proof (pw_pos 2 e0 ltac:(lia)) as Hp.
  assert (rat n d * pw 2 e0 == rat a b) as Hv'. { rewrite Hv. field. lra. }
  pose proof (Z.log2_spec a Ha) as [La1 La2]. pose proof (Z.log2_spec b Hb) as [Lb1 Lb2].
  pose proof (Z.log2_nonneg a). pose proof (Z.log2_nonneg b).
  assert (pw 2 (e0 - 1) < rat a b) as Hlo.
  { apply Qlt_shift_div_l; [apply qz_pos; auto|].
    apply qz_lt in Lb2. apply qz_le in La1. rewrite <- pw_Z in La1, Lb2 by lia.
    eapply Qlt_le_trans; [|exact La1]. unfold e0.
    replace (Z.log2 a) with ((Z.log2 a - Z.log2 b - 1) + Z.succ (Z.log2 b))%Z at 2 by lia.
    rewrite (pw_add 2 (Z.log2 a - Z.log2 b - 1)) by lia.
    pose proof (pw_pos 2 (Z.log2 a - Z.log2 b - 1) ltac:(lia)). apply Qmult_lt_l; auto. }
  assert (rat a b < pw 2 (e0 + 1)) as Hhi.
  { apply Qlt_shift_div_r; [apply qz_pos; auto|].
    apply qz_lt in La2. apply qz_le in Lb1. rewrite <- pw_Z in La2, Lb1 by lia.
    eapply Qlt_le_trans; [exact La2|]. unfold e0.
    replace (Z.succ (Z.log2 a)) with ((Z.log2 a - Z.log2 b + 1) + Z.log2 b)%Z by lia.
    rewrite (pw_add 2 (Z.log2 a - Z.log2 b + 1)) by lia.
    pose proof (pw_pos 2 (Z.log2 a - Z.log2 b + 1) ltac:(lia)). apply Qmult_le_l; auto. }
  destruct (Z.ltb_spec n d) as [H1|H1].
  - assert (rat n d < 1). { change 1 with (qz 1). apply rat_lt_Z; lia. }
    split; [lra|]. replace (e0 - 1 + 1)%Z with e0 by lia. rewrite <- Hv'. nra.
  - assert (1 <= rat n d). { change 1 with (qz 1). apply rat_le_Z; lia. }
    split; [|lra]. rewrite <- Hv'. nra.
Qed.

Lemma ndigits_fuel_spec f : forall n, (0 < n)%Z -> (n < 2 ^ Z.of_nat f)%Z ->
  let k := ndigits_fuel f n in (0 < k)%Z /\ (10 ^ (k - 1) <= n < 10 ^ k)%Z.
Proof.
  induction f as [|f IH]; intros n Hn Hf.
  - cbn in Hf. lia.
  - cbn [ndigits_fuel]. destruct (Z.leb_spec n 0); [lia|].
    assert (2 ^ Z.of_nat (S f) = 2 * 2 ^ Z.of_nat f)%Z as E2.
    { rewrite Nat2Z.inj_succ, Z.pow_succ_r by lia. reflexivity. }
    pose proof (Z.div_mod n 10 ltac:(lia)) as Hd. pose proof (Z.mod_pos_bound n 10 ltac:(lia)) as Hm.
    destruct (Z.eq_dec (n / 10) 0) as [E|E].
    + assert (ndigits_fuel f (n / 10) = 0)%Z as ->. { rewrite E. destruct f; reflexivity. } cbn. lia.
    + assert (0 < n / 10)%Z by (assert (0 <= n / 10)%Z by (apply Z.div_pos; lia); lia).
      specialize (IH (n / 10)%Z H0). cbn zeta in IH. destruct IH as (I1 & I2 & I3).
      { apply Z.div_lt_upper_bound; lia. }
      set (k := ndigits_fuel f (n / 10)) in *. cbn zeta. split; [lia|].
      replace (1 + k - 1)%Z with k by lia. replace (1 + k)%Z with (Z.succ k) by lia.
      rewrite Z.pow_succ_r by lia.
      assert (10 ^ k = 10 * 10 ^ (k - 1))%Z. { rewrite <- Z.pow_succ_r by lia. f_equal. lia. }
      lia.
Qed.
Lemma ndigits_spec n : (0 < n)%Z -> (0 < ndigits n)%Z /\ (10 ^ (ndigits n - 1) <= n < 10 ^ (ndigits n))%Z.
Proof.
  intros Hn. apply ndigits_fuel_spec; auto. pose proof (Z.log2_nonneg n). rewrite Z2Nat.id by lia.
  apply Z.log2_spec; auto.
Qed.
Lemma ndigits_0 n : (n <= 0)%Z -> ndigits n = 0%Z.
Proof. intros H. unfold ndigits. destruct (Z.to_nat _); cbn; auto. destruct (Z.leb_spec n 0); [auto|lia]. Qed.

Lemma flog10_spec a b : (0 < a)%Z -> (0 < b)%Z -> is_flog 10 (rat a b) (flog10 a b).
Proof.
  intros Ha Hb. unfold flog10. destruct (Z.leb_spec b a) as [H|H].
  - assert (0 < a / b)%Z by (apply Z.div_str_pos; lia).
    destruct (ndigits_spec (a / b) H0) as (Hk & H1 & H2). set (k := ndigits (a / b)) in *.
    pose proof (Z.div_mod a b ltac:(lia)). pose proof (Z.mod_pos_bound a b Hb).
    split.
    + rewrite pw_Z by lia. apply rat_le_Z; auto. nia.
    + replace (k - 1 + 1)%Z with k by lia. rewrite pw_Z by lia. apply rat_lt_Z; auto. nia.
  - assert (0 <= (b - 1) / a)%Z by (apply Z.div_pos; lia).
    pose proof (Z.div_mod (b - 1) a ltac:(lia)). pose proof (Z.mod_pos_bound (b - 1) a Ha).
    set (c := ((b - 1) / a)%Z) in *.
    assert (0 < c)%Z as Hc by nia.
    destruct (ndigits_spec c Hc) as (Hk & H3 & H4). set (k := ndigits c) in *.
    (* 10^(k-1) <= c < 10^k and c*a < b <= (c+1)*a *)
    pose proof (qz_pos b Hb) as Qb. pose proof (qz_pos a Ha) as Qa.
    pose proof (pw_pos 10 k ltac:(lia)) as Qk.
    assert (qz b <= pw 10 k * qz a) as HB.
    { rewrite pw_Z, <- qz_mul by lia. apply -> qz_le. pose proof (Z.mul_le_mono_nonneg_l (c + 1) (10 ^ k) a ltac:(lia) ltac:(lia)). lia. }
    assert (pw 10 (k - 1) * qz a < qz b) as HA.
    { rewrite pw_Z, <- qz_mul by lia. apply -> qz_lt. pose proof (Z.mul_le_mono_nonneg_l _ _ a ltac:(lia) H3). lia. }
    split.
    + rewrite pw_opp. apply Qle_shift_div_l; auto. apply Qmult_le_l with (z := pw 10 k); auto.
      rewrite Qmult_assoc, Qmult_inv_r by lra. lra.
    + replace (- k + 1)%Z with (- (k - 1))%Z by lia. rewrite pw_opp. apply Qlt_shift_div_r; auto.
      pose proof (pw_pos 10 (k - 1) ltac:(lia)) as Qk1.
      apply Qmult_lt_l with (z := pw 10 (k - 1)); auto.
      rewrite Qmult_assoc, Qmult_inv_r by lra. lra.
Qed.
