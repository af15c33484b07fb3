(** * Correctness of rn64 and dec6, and stability of the 6-digit decimal. *)
From Verif Require Import Base Dbl Decimal Round_proofs.
From Coq Require Import QArith Qpower Qabs Lqa.
Open Scope Q_scope.

(** the absolute value of a finite double *)
Definition qabsv (x : dbl) : Q :=
  match x with S754_finite _ m e => qz (Zpos m) * pw 2 e | _ => 0 end.

Lemma pw_split k a b c : (0 < k)%Z -> c = (a + b)%Z -> pw k c == pw k a * pw k b.
Proof. intros Hk ->. apply pw_add; auto. Qed.
Lemma pw_half e : pw 2 (e - 1) == (1#2) * pw 2 e.
Proof.
  rewrite (@pw_split 2 (e - 1) 1 e) by lia. rewrite pw_1. unfold qz. change (inject_Z 2) with 2. lra.
Qed.

Lemma scale_rat k a b e : (0 < k)%Z -> (0 < b)%Z ->
  let '(n, d) := scale k a b e in (0 < d)%Z /\ rat n d * pw k e == rat a b /\ ((0 < a)%Z -> (0 < n)%Z).
Proof.
  intros Hk Hb. destruct (scale_spec k a b e Hk Hb) as (H1 & H2 & H3). destruct (scale k a b e) as [n d]; cbn [fst snd] in *.
  split; auto. split; auto. rewrite H2. pose proof (pw_pos k e Hk). field. lra.
Qed.

Lemma rhe_le_Z a b n : (0 < b)%Z -> rat a b <= qz n -> (rhe a b <= n)%Z.
Proof.
  intros Hb H. pose proof (rhe_near a b Hb) as [H1 H2].
  assert (qz (rhe a b) < qz (n + 1)) as H3. { rewrite qz_add. change (qz 1) with 1. lra. }
  apply qz_lt in H3. lia.
Qed.
Lemma rhe_ge_Z a b n : (0 < b)%Z -> qz n <= rat a b -> (n <= rhe a b)%Z.
Proof.
  intros Hb H. pose proof (rhe_near a b Hb) as [H1 H2].
  assert (qz (n - 1) < qz (rhe a b)) as H3. { rewrite qz_sub. change (qz 1) with 1. lra. }
  apply qz_lt in H3. lia.
Qed.

Lemma rat_ext_flog k a b a' b' e : rat a b == rat a' b' -> is_flog k (rat a b) e -> is_flog k (rat a' b') e.
Proof. intros. eapply is_flog_ext; eauto. Qed.
Lemma flog2_ext a b a' b' : (0 < a)%Z -> (0 < b)%Z -> (0 < a')%Z -> (0 < b')%Z -> rat a b == rat a' b' -> flog2 a b = flog2 a' b'.
Proof.
  intros. apply (is_flog_unique 2 (rat a b)); [lia|apply flog2_spec; auto|].
  eapply is_flog_ext; [symmetry; eauto|]. apply flog2_spec; auto.
Qed.
Lemma flog10_ext a b a' b' : (0 < a)%Z -> (0 < b)%Z -> (0 < a')%Z -> (0 < b')%Z -> rat a b == rat a' b' -> flog10 a b = flog10 a' b'.
Proof.
  intros. apply (is_flog_unique 10 (rat a b)); [lia|apply flog10_spec; auto|].
  eapply is_flog_ext; [symmetry; eauto|]. apply flog10_spec; auto.
Qed.
Lemma rhe_scale_ext k a b a' b' e : (0 < k)%Z -> (0 < b)%Z -> (0 < b')%Z -> rat a b == rat a' b' ->
  (let '(n, d) := scale k a b e in rhe n d) = (let '(n, d) := scale k a' b' e in rhe n d).
Proof.
  intros Hk Hb Hb' E. pose proof (scale_spec k a b e Hk Hb) as (H1 & H2 & _).
  pose proof (scale_spec k a' b' e Hk Hb') as (H1' & H2' & _).
  destruct (scale k a b e), (scale k a' b' e); cbn [fst snd] in *. apply rhe_ext; auto. rewrite H2, H2', E. reflexivity.
Qed.

Lemma rn64_ext s a b a' b' : (0 < a)%Z -> (0 < b)%Z -> (0 < a')%Z -> (0 < b')%Z ->
  rat a b == rat a' b' -> rn64 s a b = rn64 s a' b'.
Proof.
  intros Ha Hb Ha' Hb' E. unfold rn64. rewrite (flog2_ext a b a' b') by auto.
  pose proof (rhe_scale_ext 2 a b a' b' (Z.max (flog2 a' b' - 52) (-1074)) ltac:(lia) Hb Hb' E) as H.
  destruct (scale 2 a b _), (scale 2 a' b' _). rewrite H. reflexivity.
Qed.
Lemma dec6_ext a b a' b' : (0 < a)%Z -> (0 < b)%Z -> (0 < a')%Z -> (0 < b')%Z ->
  rat a b == rat a' b' -> dec6 a b = dec6 a' b'.
Proof.
  intros Ha Hb Ha' Hb' E. unfold dec6. rewrite (flog10_ext a b a' b') by auto.
  pose proof (rhe_scale_ext 10 a b a' b' (flog10 a' b' - 5) ltac:(lia) Hb Hb' E) as H.
  destruct (scale 10 a b _), (scale 10 a' b' _). rewrite H. reflexivity.
Qed.

(** ** The value of rn64 *)
Definition sf_of (s : bool) (m ex : Z) : dbl :=
  match m with
  | Zpos p => if (ex <=? 971)%Z then S754_finite s p ex else S754_infinity s
  | _ => S754_zero s
  end.

Lemma rn64_form s a b : (0 < a)%Z -> (0 < b)%Z ->
  let v := rat a b in
  let ex0 := Z.max (flog2 a b - 52) (-1074) in
  exists m ex, rn64 s a b = sf_of s m ex /\ (0 <= m < 2 ^ 53)%Z /\ (ex0 <= ex <= ex0 + 1)%Z /\
    (ex = ex0 \/ m = 2 ^ 52)%Z /\
    Qabs (v - qz m * pw 2 ex) <= (1#2) * pw 2 ex0 /\
    (flog2 a b - 52 >= -1074 -> 2 ^ 52 <= m)%Z /\
    (forall N, v <= qz N * pw 2 ex0 -> (N < 2^53)%Z -> ex = ex0 /\ (m <= N)%Z).
Proof.
  intros Ha Hb v ex0. unfold rn64. fold ex0.
  pose proof (flog2_spec a b Ha Hb) as [Hlo Hhi]. fold v in Hlo, Hhi.
  pose proof (scale_rat 2 a b ex0 ltac:(lia) Hb) as Hs. destruct (scale 2 a b ex0) as [n d].
  destruct Hs as (Hd & Hv & Hn). specialize (Hn Ha). fold v in Hv.
  pose proof (pw_pos 2 ex0 ltac:(lia)) as Hp.
  pose proof (rhe_near n d Hd) as [N1 N2].
  set (m := rhe n d) in *.
  assert (rat n d < qz (2 ^ 53)) as Hlt.
  { assert (pw 2 (flog2 a b + 1) <= pw 2 (53 + ex0)) as H by (apply pw_le; unfold ex0; lia).
    rewrite (pw_add 2 53), (pw_Z 2 53) in H by lia. nra. }
  assert (m <= 2 ^ 53)%Z as Hm by (apply rhe_le_Z; auto; lra).
  assert (0 <= m)%Z as Hm0. { apply rhe_ge_Z; auto. change (qz 0) with 0. pose proof (rat_pos n d Hn Hd). lra. }
  assert (flog2 a b - 52 >= -1074 -> 2 ^ 52 <= m)%Z as Hnorm.
  { intros Hge. apply rhe_ge_Z; auto. assert (ex0 = flog2 a b - 52)%Z as E by (unfold ex0; lia).
    assert (pw 2 (flog2 a b) == qz (2 ^ 52) * pw 2 ex0) as Eq.
    { rewrite <- (pw_Z 2 52), <- pw_add by lia. replace (52 + ex0)%Z with (flog2 a b) by lia. reflexivity. }
    rewrite Eq in Hlo. rewrite <- Hv in Hlo. apply Qmult_le_r in Hlo; auto. }
  assert (Qabs (v - qz m * pw 2 ex0) <= (1 # 2) * pw 2 ex0) as Herr.
  { rewrite <- Hv. apply Qabs_Qle_condition. split; nra. }
  assert (forall N, v <= qz N * pw 2 ex0 -> (N < 2^53)%Z -> (m <= N)%Z) as Hmono.
  { intros N HN _. apply rhe_le_Z; auto. rewrite <- Hv in HN. apply Qmult_le_r in HN; auto. }
  destruct (Z.eqb_spec m (2 ^ 53)) as [E|E].
  - exists (2 ^ 52)%Z, (ex0 + 1)%Z. split; [reflexivity|]. split; [lia|]. split; [lia|]. split; [auto|]. split.
    + assert (qz (2 ^ 52) * pw 2 (ex0 + 1) == qz m * pw 2 ex0) as ->; auto.
      rewrite E. rewrite pw_add by lia. rewrite pw_1.
      change (2 ^ 53)%Z with (2 ^ 52 * 2)%Z. rewrite qz_mul. ring.
    + split; [lia|]. intros N HN HN'. specialize (Hmono N HN HN'). lia.
  - exists m, ex0. split; [reflexivity|]. split; [lia|]. split; [lia|]. split; [auto|]. split; [auto|]. split; [auto|].
    intros N HN HN'. auto.
Qed.

(** rounding error, as long as there is no overflow *)
Definition dmaxval : Q := qz (2 ^ 53 - 1) * pw 2 971.
Lemma rn64_err s a b : (0 < a)%Z -> (0 < b)%Z -> rat a b <= dmaxval ->
  exists x, rn64 s a b = x /\ dfinite x = true /\
    Qabs (rat a b - qabsv x) <= (1#2) * pw 2 (Z.max (flog2 a b - 52) (-1074)) /\
    match x with S754_zero s' | S754_finite s' _ _ => s' = s | _ => False end.
Proof.
  intros Ha Hb Hmax. destruct (rn64_form s a b Ha Hb) as (m & ex & E & Hm & Hex & Hcar & Herr & Hnorm & Hmono).
  pose proof (flog2_spec a b Ha Hb) as [Hlo Hhi].
  assert (flog2 a b <= 1023)%Z as Hf.
  { assert (pw 2 (flog2 a b) < pw 2 1024) as H.
    { eapply Qle_lt_trans; [exact Hlo|]. eapply Qle_lt_trans; [exact Hmax|]. unfold dmaxval.
      replace 1024%Z with (53 + 971)%Z by lia. rewrite pw_add, (pw_Z 2 53) by lia.
      pose proof (pw_pos 2 971 ltac:(lia)). apply Qmult_lt_r; auto. }
    apply pw_lt_inv in H; lia. }
  assert (ex <= 971)%Z as Hex'.
  { destruct (Z.eq_dec (Z.max (flog2 a b - 52) (-1074)) 971) as [E971|]; [|lia].
    rewrite E971 in Hmono. destruct (Hmono (2 ^ 53 - 1)%Z Hmax ltac:(lia)); lia. }
  exists (rn64 s a b). split; auto. rewrite E. unfold sf_of. destruct m as [|p|p]; [|replace (ex <=? 971)%Z with true by lia|lia].
  - split; auto. split; auto. cbn [qabsv]. cbn [qz] in Herr. revert Herr. change (qz 0) with 0. intros.
    rewrite Qmult_0_l in Herr. auto.
  - split; auto.
Qed.

Lemma Zpos_digits2 p : Zpos (digits2_pos p) = (Z.log2 (Zpos p) + 1)%Z.
Proof.
  induction p as [p IH|p IH|]; cbn [digits2_pos]; auto.
  - rewrite Pos2Z.inj_succ, IH. change (Zpos p~1) with (2 * Zpos p + 1)%Z. rewrite Z.log2_succ_double by lia. lia.
  - rewrite Pos2Z.inj_succ, IH. change (Zpos p~0) with (2 * Zpos p)%Z. rewrite Z.log2_double by lia. lia.
Qed.
Lemma dvalid_bounds s m e : dvalid (S754_finite s m e) = true ->
  (e = Z.max (Z.log2 (Zpos m) + e - 52) (-1074) /\ e <= 971 /\ Zpos m < 2 ^ 53)%Z.
Proof.
  unfold dvalid, valid_binary, bounded, canonical_mantissa, fexp, emin, dprec, demax. intros H.
  apply andb_true_iff in H as [H1 H2]. apply Zeq_bool_eq in H1. rewrite Zpos_digits2 in H1. apply Z.leb_le in H2.
  assert (Z.log2 (Zpos m) <= 52)%Z by lia. split; [lia|]. split; [lia|].
  apply Z.log2_lt_pow2; lia.
Qed.
Lemma dvalid_intro s m e : (e = Z.max (Z.log2 (Zpos m) + e - 52) (-1074))%Z -> (e <= 971)%Z -> dvalid (S754_finite s m e) = true.
Proof.
  intros H1 H2. unfold dvalid, valid_binary, bounded, canonical_mantissa, fexp, emin, dprec, demax.
  apply andb_true_iff. rewrite Zpos_digits2. split; [|lia]. rewrite <- Zeq_is_eq_bool. lia.
Qed.
Lemma rn64_valid s a b : (0 < a)%Z -> (0 < b)%Z -> dvalid (rn64 s a b) = true.
Proof.
  intros Ha Hb. destruct (rn64_form s a b Ha Hb) as (m & ex & E & Hm & Hex & Hcar & Herr & Hnorm & Hmono).
  rewrite E. unfold sf_of. destruct m as [|p|p]; try reflexivity. destruct (Z.leb_spec ex 971); [|reflexivity].
  apply dvalid_intro; auto. assert (Z.log2 (Zpos p) <= 52)%Z as L.
  { assert (Z.log2 (Zpos p) < 53)%Z; [apply Z.log2_lt_pow2; lia|lia]. }
  destruct Hcar as [E1|E1].
  - destruct (Z.le_gt_cases (-1074) (flog2 a b - 52)) as [G|G].
    + specialize (Hnorm ltac:(lia)). assert (52 <= Z.log2 (Zpos p))%Z by (apply Z.log2_le_pow2; lia). lia.
    + lia.
  - rewrite E1. change (Z.log2 (2 ^ 52)) with 52%Z. lia.
Qed.

Lemma frac_rat m e : let '(a, b) := frac m e in (0 < a)%Z /\ (0 < b)%Z /\ rat a b == qz (Zpos m) * pw 2 e.
Proof.
  unfold frac. destruct (Z.leb_spec 0 e).
  - assert (0 < 2 ^ e)%Z by (apply Z.pow_pos_nonneg; lia). split; [lia|]. split; [lia|].
    unfold rat. rewrite qz_mul, <- pw_Z by auto. change (qz 1) with 1. field.
  - assert (0 < 2 ^ (- e))%Z by (apply Z.pow_pos_nonneg; lia). split; [lia|]. split; [lia|].
    unfold rat. rewrite <- pw_Z by lia. rewrite pw_opp. pose proof (pw_pos 2 e ltac:(lia)). field. lra.
Qed.

(** rn64 is exact on doubles *)
Lemma rn64_exact s a b m e : (0 < a)%Z -> (0 < b)%Z -> dvalid (S754_finite s m e) = true ->
  rat a b == qz (Zpos m) * pw 2 e -> rn64 s a b = S754_finite s m e.
Proof.
  intros Ha Hb Hv Er. apply dvalid_bounds in Hv as (H1 & H2 & H3).
  assert (flog2 a b = Z.log2 (Zpos m) + e)%Z as Ef.
  { apply (is_flog_unique 2 (rat a b)); [lia|apply flog2_spec; auto|].
    pose proof (Z.log2_spec (Zpos m) ltac:(lia)) as [L1 L2]. pose proof (Z.log2_nonneg (Zpos m)).
    pose proof (pw_pos 2 e ltac:(lia)). apply qz_le in L1. apply qz_lt in L2. rewrite <- pw_Z in L1, L2 by lia.
    split; rewrite Er.
    - rewrite pw_add by lia. apply Qmult_le_r; auto.
    - replace (Z.log2 (Zpos m) + e + 1)%Z with (Z.succ (Z.log2 (Zpos m)) + e)%Z by lia.
      rewrite pw_add by lia. apply Qmult_lt_r; auto. }
  unfold rn64. rewrite Ef, <- H1.
  pose proof (scale_rat 2 a b e ltac:(lia) Hb) as Hs. destruct (scale 2 a b e) as [n d].
  destruct Hs as (Hd & Hvv & Hn). rewrite Er in Hvv.
  assert (rhe n d = Zpos m) as ->.
  { apply rhe_unique; auto. pose proof (pw_pos 2 e ltac:(lia)). apply Qmult_inj_r in Hvv; [|lra]. rewrite Hvv. lra. }
  destruct (Z.eqb_spec (Zpos m) (2 ^ 53)); [lia|]. replace (e <=? 971)%Z with true by lia. reflexivity.
Qed.

(** ** dec6 *)
Lemma dec6_spec a b : (0 < a)%Z -> (0 < b)%Z ->
  let '(d, x) := dec6 a b in (100000 <= d < 1000000)%Z /\
    Qabs (rat a b - qz d * pw 10 (x - 5)) <= (1#2) * pw 10 (x - 5) /\
    pw 10 x <= rat a b + (1#2) * pw 10 (x - 5) /\ rat a b < pw 10 (x + 1).
Proof.
  intros Ha Hb. unfold dec6. pose proof (flog10_spec a b Ha Hb) as [Hlo Hhi]. set (x := flog10 a b) in *.
  pose proof (scale_rat 10 a b (x - 5) ltac:(lia) Hb) as Hs. destruct (scale 10 a b (x - 5)) as [n d].
  destruct Hs as (Hd & Hv & Hn). specialize (Hn Ha).
  pose proof (pw_pos 10 (x - 5) ltac:(lia)) as Hp.
  pose proof (rhe_near n d Hd) as [N1 N2]. set (m := rhe n d) in *.
  assert (pw 10 x == qz 100000 * pw 10 (x - 5)) as Ex.
  { rewrite (@pw_split 10 5 (x - 5) x) by lia. rewrite (pw_Z 10 5) by lia. reflexivity. }
  assert (pw 10 (x + 1) == qz 1000000 * pw 10 (x - 5)) as Ex1.
  { rewrite (@pw_split 10 6 (x - 5) (x + 1)) by lia. rewrite (pw_Z 10 6) by lia. reflexivity. }
  assert (100000 <= m)%Z as Hm1. { apply rhe_ge_Z; auto. rewrite Ex, <- Hv in Hlo. apply Qmult_le_r in Hlo; auto. }
  assert (m <= 1000000)%Z as Hm2. { apply rhe_le_Z; auto. rewrite Ex1, <- Hv in Hhi. apply Qmult_lt_r in Hhi; auto. lra. }
  assert (Qabs (rat a b - qz m * pw 10 (x - 5)) <= (1 # 2) * pw 10 (x - 5)) as Herr.
  { rewrite <- Hv. apply Qabs_Qle_condition. split; nra. }
  destruct (Z.eqb_spec m 1000000) as [E|E].
  - assert (pw 10 (x + 1 - 5) == 10 * pw 10 (x - 5)) as E10.
    { rewrite (@pw_split 10 1 (x - 5) (x + 1 - 5)) by lia. rewrite pw_1. reflexivity. }
    assert (pw 10 (x + 1 + 1) == 10 * pw 10 (x + 1)) as E11.
    { rewrite (@pw_split 10 1 (x + 1) (x + 1 + 1)) by lia. rewrite pw_1. reflexivity. }
    pose proof (pw_pos 10 (x + 1) ltac:(lia)).
    rewrite E in *. clear E. split; [lia|]. 
    apply Qabs_Qle_condition in Herr. rewrite E10, E11, Ex1.
    change (qz 1000000) with 1000000 in *. change (qz 100000) with 100000 in *. 
    split; [apply Qabs_Qle_condition; split; lra|]. split; lra.
  - split; [lia|]. split; [auto|]. split; lra.
Qed.

Lemma dec6_unique a b d x : (0 < a)%Z -> (0 < b)%Z -> (100000 <= d < 1000000)%Z ->
  Qabs (rat a b - qz d * pw 10 (x - 5)) < (1#2) * pw 10 (x - 5) ->
  (pw 10 x <= rat a b \/ (d = 100000%Z /\ pw 10 x - rat a b < (1#20) * pw 10 (x - 5))) ->
  dec6 a b = (d, x).
Proof.
  intros Ha Hb Hd Herr Hlow. unfold dec6.
  pose proof (pw_pos 10 (x - 5) ltac:(lia)) as Hp.
  assert (pw 10 x == qz 100000 * pw 10 (x - 5)) as Ex.
  { rewrite (@pw_split 10 5 (x - 5) x) by lia. rewrite (pw_Z 10 5) by lia. reflexivity. }
  assert (pw 10 (x + 1) == qz 1000000 * pw 10 (x - 5)) as Ex1.
  { rewrite (@pw_split 10 6 (x - 5) (x + 1)) by lia. rewrite (pw_Z 10 6) by lia. reflexivity. }
  apply Qabs_Qlt_condition in Herr.
  assert (qz d <= 999999) as Hd2. { change 999999 with (qz 999999). apply -> qz_le. lia. }
  assert (100000 <= qz d) as Hd1. { change 100000 with (qz 100000). apply -> qz_le. lia. }
  change (qz 100000) with 100000 in *. change (qz 1000000) with 1000000 in *.
  destruct (Qlt_le_dec (rat a b) (pw 10 x)) as [Hlt|Hge].
  - destruct Hlow as [Hlow|[Ed Hlow]]; [lra|].
    assert (flog10 a b = x - 1)%Z as ->.
    { apply (is_flog_unique 10 (rat a b)); [lia|apply flog10_spec; auto|]. split.
      - rewrite Ex in Hlow. rewrite (@pw_split 10 4 (x - 5) (x - 1)) by lia. rewrite (pw_Z 10 4) by lia.
        change (qz (10 ^ 4)) with 10000. lra.
      - replace (x - 1 + 1)%Z with x by lia. auto. }
    assert (pw 10 (x - 5) == 10 * pw 10 (x - 1 - 5)) as E10.
    { rewrite (@pw_split 10 1 (x - 1 - 5) (x - 5)) by lia. rewrite pw_1. reflexivity. }
    pose proof (scale_rat 10 a b (x - 1 - 5) ltac:(lia) Hb) as Hs. destruct (scale 10 a b (x - 1 - 5)) as [n' d'].
    destruct Hs as (Hd' & Hv & Hn). pose proof (pw_pos 10 (x - 1 - 5) ltac:(lia)) as Hp'.
    assert (rhe n' d' = 1000000%Z) as ->.
    { apply rhe_unique; auto. change (qz 1000000) with 1000000.
      rewrite Ex, E10 in Hlow, Hlt. rewrite <- Hv in Hlow, Hlt.
      split; apply Qmult_lt_r with (z := pw 10 (x - 1 - 5)); auto; lra. }
    cbn. rewrite Ed. f_equal. lia.
  - assert (flog10 a b = x) as ->.
    { apply (is_flog_unique 10 (rat a b)); [lia|apply flog10_spec; auto|]. split; auto. rewrite Ex1. nra. }
    pose proof (scale_rat 10 a b (x - 5) ltac:(lia) Hb) as Hs. destruct (scale 10 a b (x - 5)) as [n' d'].
    destruct Hs as (Hd' & Hv & Hn).
    assert (rhe n' d' = d) as ->.
    { apply rhe_unique; auto. rewrite <- Hv in Herr. split; apply Qmult_lt_r with (z := pw 10 (x - 5)); auto; lra. }
    destruct (Z.eqb_spec d 1000000); [lia|reflexivity].
Qed.

(** a decimal of at most six digits is its own 6-digit decimal *)
Lemma dec6_exact a b D k : (0 < a)%Z -> (0 < b)%Z -> (0 < D < 1000000)%Z -> rat a b == qz D * pw 10 k ->
  let '(d, x) := dec6 a b in qz d * pw 10 (x - 5) == rat a b.
Proof.
  intros Ha Hb HD E. destruct (ndigits_spec D ltac:(lia)) as (Hk & H1 & H2). set (j := ndigits D) in *.
  assert (j <= 6)%Z as Hj. { destruct (Z.le_gt_cases j 6); auto. assert (10 ^ 6 <= 10 ^ (j - 1))%Z by (apply Z.pow_le_mono_r; lia). lia. }
  assert (qz (D * 10 ^ (6 - j)) * pw 10 (k + j - 1 - 5) == rat a b) as Ev.
  { rewrite E, qz_mul, <- (pw_Z 10 (6 - j)) by lia. rewrite <- Qmult_assoc, <- pw_add by lia. 
    replace (6 - j + (k + j - 1 - 5))%Z with k by lia. reflexivity. }
  pose proof (pw_pos 10 (k + j - 1 - 5) ltac:(lia)) as Hp.
  assert (10 ^ 6 = 10 ^ j * 10 ^ (6 - j) /\ 10 ^ 5 = 10 ^ (j - 1) * 10 ^ (6 - j))%Z as [P6 P5].
  { split; rewrite <- Z.pow_add_r by lia; f_equal; lia. }
  assert (0 < 10 ^ (6 - j))%Z by (apply Z.pow_pos_nonneg; lia).
  rewrite (@dec6_unique a b (D * 10 ^ (6 - j))%Z (k + j - 1)%Z); auto.
  - split; [change 100000%Z with (10 ^ 5)%Z|change 1000000%Z with (10 ^ 6)%Z]; nia.
  - rewrite Ev. setoid_replace (rat a b - rat a b) with 0 by ring. change (Qabs 0) with 0. lra.
  - left. rewrite <- Ev. rewrite (@pw_split 10 5 (k + j - 1 - 5) (k + j - 1)) by lia. apply Qmult_le_r; auto.
    rewrite pw_Z by lia. apply -> qz_le. rewrite P5. nia.
Qed.

(** ** Writing, reading and writing again *)
(** the decimal of six digits as a fraction *)
Definition dfrac (d e : Z) : Z * Z := if (0 <=? e)%Z then (d * 10 ^ e, 1)%Z else (d, 10 ^ (- e))%Z.
Lemma dfrac_rat d e : (0 < d)%Z -> let '(a, b) := dfrac d e in (0 < a)%Z /\ (0 < b)%Z /\ rat a b == qz d * pw 10 e.
Proof.
  intros Hd. unfold dfrac. destruct (Z.leb_spec 0 e).
  - assert (0 < 10 ^ e)%Z by (apply Z.pow_pos_nonneg; lia). split; [nia|]. split; [lia|].
    unfold rat. rewrite qz_mul, <- pw_Z by auto. change (qz 1) with 1. field.
  - assert (0 < 10 ^ (- e))%Z by (apply Z.pow_pos_nonneg; lia). split; [lia|]. split; [lia|].
    unfold rat. rewrite <- pw_Z by lia. rewrite pw_opp. pose proof (pw_pos 10 e ltac:(lia)). field. lra.
Qed.

Lemma frac_le_max s m e : dvalid (S754_finite s m e) = true -> qz (Zpos m) * pw 2 e <= dmaxval.
Proof.
  intros H. apply dvalid_bounds in H as (H1 & H2 & H3). unfold dmaxval.
  assert (pw 2 e <= pw 2 971) by (apply pw_le; lia). pose proof (pw_pos 2 e ltac:(lia)).
  assert (qz (Zpos m) <= qz (2 ^ 53 - 1)) by (apply -> qz_le; lia).
  pose proof (qz_pos (Zpos m) ltac:(lia)). nra.
Qed.

(** the 6-digit decimal of a double does not overflow *)
Lemma dec6_no_overflow a b d x : (0 < a)%Z -> (0 < b)%Z -> rat a b <= dmaxval -> dec6 a b = (d, x) ->
  qz d * pw 10 (x - 5) <= dmaxval.
Proof.
  intros Ha Hb Hmax E. pose proof (dec6_spec a b Ha Hb) as H. rewrite E in H. destruct H as (Hd & Herr & Hlo & Hhi).
  apply Qabs_Qle_condition in Herr.
  pose proof (pw_pos 10 (x - 5) ltac:(lia)) as Hp.
  assert (pw 10 x == 100000 * pw 10 (x - 5)) as Ex.
  { rewrite (@pw_split 10 5 (x - 5) x) by lia. rewrite (pw_Z 10 5) by lia. reflexivity. }
  assert (dmaxval == qz ((2 ^ 53 - 1) * 2 ^ 971)) as EM. { unfold dmaxval. rewrite qz_mul, (pw_Z 2 971) by lia. reflexivity. }
  assert (x <= 308)%Z as Hx.
  { assert (pw 10 x < pw 10 309) as H.
    { assert (pw 10 x <= 2 * dmaxval) as Hx by lra. eapply Qle_lt_trans; [exact Hx|].
      rewrite EM, (pw_Z 10 309) by lia. change 2 with (qz 2). rewrite <- qz_mul. apply -> qz_lt. vm_compute. reflexivity. }
    apply pw_lt_inv in H; lia. }
  destruct (Z.eq_dec x 308) as [->|Hx'].
  - change (308 - 5)%Z with 303%Z in *. rewrite (pw_Z 10 303) in * by lia.
    assert (d <= 179769)%Z as Hd'.
    { destruct (Z.le_gt_cases d 179769); auto. exfalso.
      assert (qz 179770 <= qz d) as Q by (apply -> qz_le; lia).
      assert (qz 179770 - (1#2) <= rat a b / qz (10 ^ 303)) as Q2.
      { apply Qle_shift_div_l; auto. nra. }
      assert (rat a b < (qz 179770 - (1#2)) * qz (10 ^ 303)) as Q3.
      { eapply Qle_lt_trans; [exact Hmax|]. rewrite EM. 
        setoid_replace (qz 179770 - (1#2)) with (qz 359539 * (1#2)) by reflexivity.
        setoid_replace (qz 359539 * (1#2) * qz (10 ^ 303)) with (qz (359539 * 5 * 10 ^ 302)).
        - apply -> qz_lt. vm_compute. reflexivity.
        - change (10 ^ 303)%Z with (10 * 10 ^ 302)%Z. rewrite !qz_mul. change (qz 10) with 10. change (qz 5) with 5. ring. }
      nra. }
    rewrite EM, <- qz_mul. apply -> qz_le. 
    transitivity (179769 * 10 ^ 303)%Z; [apply Z.mul_le_mono_nonneg_r; [vm_compute; discriminate|lia]|]. vm_compute. discriminate.
  - assert (qz d * pw 10 (x - 5) <= pw 10 308) as H.
    { assert (pw 10 (x + 1) <= pw 10 308) by (apply pw_le; lia).
      assert (qz d <= 1000000) by (change 1000000 with (qz 1000000); apply -> qz_le; lia).
      assert (pw 10 (x + 1) == 1000000 * pw 10 (x - 5)) as Ex1.
      { rewrite (@pw_split 10 6 (x - 5) (x + 1)) by lia. rewrite (pw_Z 10 6) by lia. reflexivity. }
      nra. }
    eapply Qle_trans; [exact H|]. rewrite EM, (pw_Z 10 308) by lia. apply -> qz_le. vm_compute. discriminate.
Qed.

Lemma inv_gap P R : (0 < P)%Z -> (0 < R)%Z -> (10 * R < P)%Z -> (1#2) * / qz P < (1#20) * / qz R.
Proof.
  intros HP HR H. pose proof (qz_pos P HP). pose proof (qz_pos R HR). apply qz_lt in H. rewrite qz_mul in H. change (qz 10) with 10 in H.
  apply Qmult_lt_r with (z := qz P); auto.
  setoid_replace ((1#2) * / qz P * qz P) with (1#2) by (field; lra).
  apply Qmult_lt_r with (z := qz R); auto.
  setoid_replace ((1#20) * / qz R * qz P * qz R) with ((1#20) * qz P) by (field; lra). lra.
Qed.
Lemma subnormal_gap : (1#2) * pw 2 (-1074) < (1#20) * pw 10 (-322).
Proof.
  pose proof (pw_opp 2 1074) as E1. pose proof (pw_opp 10 322) as E2. 
  change (- (1074))%Z with (-1074)%Z in E1. change (- (322))%Z with (-322)%Z in E2. rewrite E1, E2. clear.
  rewrite (pw_Z 2 1074), (pw_Z 10 322) by lia. apply inv_gap.
  - apply Z.pow_pos_nonneg; lia.
  - apply Z.pow_pos_nonneg; lia.
  - vm_compute. reflexivity.
Qed.

(** error of rn64, relative to a power of ten *)
Lemma rn64_err_pw10 s a b x y : (0 < a)%Z -> (0 < b)%Z -> rat a b <= dmaxval -> rat a b <= pw 10 (x + 1) -> (-317 <= x)%Z ->
  rn64 s a b = y -> Qabs (rat a b - qabsv y) < (1#20) * pw 10 (x - 5).
Proof.
  intros Ha Hb Hmax Hhi Hx E. destruct (rn64_err s a b Ha Hb Hmax) as (y' & E' & _ & Herr & _).
  rewrite E in E'. subst y'. eapply Qle_lt_trans; [exact Herr|].
  pose proof (flog2_spec a b Ha Hb) as [Hlo _].
  assert (pw 10 (x + 1) == 1000000 * pw 10 (x - 5)) as Ex1.
  { rewrite (@pw_split 10 6 (x - 5) (x + 1)) by lia. rewrite (pw_Z 10 6) by lia. reflexivity. }
  destruct (Z.le_gt_cases (-1074) (flog2 a b - 52)) as [G|G].
  - rewrite Z.max_l by lia. assert (pw 2 (flog2 a b) == qz (2 ^ 52) * pw 2 (flog2 a b - 52)) as E2.
    { rewrite (@pw_split 2 52 (flog2 a b - 52) (flog2 a b)) by lia. rewrite (pw_Z 2 52) by lia. reflexivity. }
    pose proof (pw_pos 10 (x - 5) ltac:(lia)). change (qz (2 ^ 52)) with (4503599627370496#1) in E2. lra.
  - rewrite Z.max_r by lia. assert (pw 10 (-322) <= pw 10 (x - 5)) as H by (apply pw_le; lia).
    pose proof subnormal_gap. lra.
Qed.

(** Stability: the double nearest to the 6-digit decimal of a double has the same
    6-digit decimal, from 10^-317 upwards. *)
Lemma dec6_stable s a b d x y : (0 < a)%Z -> (0 < b)%Z -> rat a b <= dmaxval -> pw 10 (-317) <= rat a b ->
  dec6 a b = (d, x) -> (let '(n, k) := dfrac d (x - 5) in rn64 s n k) = y ->
  exists m e, y = S754_finite s m e /\ dvalid y = true /\ (let '(a', b') := frac m e in dec6 a' b') = (d, x).
Proof.
  intros Ha Hb Hmax Hmin E Ey. pose proof (dec6_spec a b Ha Hb) as H. rewrite E in H. destruct H as (Hd & Herr & Hlo & Hhi).
  pose proof (pw_pos 10 (x - 5) ltac:(lia)) as Hp.
  assert (pw 10 x == 100000 * pw 10 (x - 5)) as Ex.
  { rewrite (@pw_split 10 5 (x - 5) x) by lia. rewrite (pw_Z 10 5) by lia. reflexivity. }
  assert (pw 10 (x + 1) == 1000000 * pw 10 (x - 5)) as Ex1.
  { rewrite (@pw_split 10 6 (x - 5) (x + 1)) by lia. rewrite (pw_Z 10 6) by lia. reflexivity. }
  assert (-317 <= x)%Z as Hx.
  { assert (pw 10 (-317) < pw 10 (x + 1)) as H by lra. apply pw_lt_inv in H; lia. }
  pose proof (dec6_no_overflow a b d x Ha Hb Hmax E) as Hov.
  pose proof (dfrac_rat d (x - 5) ltac:(lia)) as Hf. destruct (dfrac d (x - 5)) as [n k]. destruct Hf as (Hn & Hk & Hr).
  rewrite <- Hr in Hov.
  assert (qz d <= 999999) as Hd2. { change 999999 with (qz 999999). apply -> qz_le. lia. }
  assert (100000 <= qz d) as Hd1. { change 100000 with (qz 100000). apply -> qz_le. lia. }
  assert (rat n k <= pw 10 (x + 1)) as Hnk. { rewrite Hr, Ex1. apply Qmult_le_r; lra. }
  pose proof (@rn64_err_pw10 s n k x y Hn Hk Hov Hnk Hx Ey) as He.
  destruct (rn64_err s n k Hn Hk Hov) as (y' & E' & Hfin & _ & Hs). rewrite Ey in E'. subst y'.
  pose proof (rn64_valid s n k Hn Hk) as Hval. rewrite Ey in Hval.
  apply Qabs_Qlt_condition in He. rewrite Hr in He.
  destruct y as [s'|s'| |s' m e]; try discriminate; cbn [qabsv] in He.
  - exfalso. nra.
  - subst s'. exists m, e. split; auto. split; auto.
    pose proof (frac_rat m e) as Hfr. destruct (frac m e) as [a' b']. destruct Hfr as (Ha' & Hb' & Hr').
    apply dec6_unique; auto.
    + rewrite Hr'. apply Qabs_Qlt_condition. split; lra.
    + rewrite Hr', Ex. destruct (Z.eq_dec d 100000) as [->|Hne].
      * right. split; auto. change (qz 100000) with 100000 in *. lra.
      * left. assert (100001 <= qz d). { change 100001 with (qz 100001). apply -> qz_le. lia. }
        assert (100001 * pw 10 (x - 5) <= qz d * pw 10 (x - 5)) by (apply Qmult_le_r; auto). lra.
Qed.
