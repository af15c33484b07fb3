(** * Float_proofs: the standard library's division and multiplication of doubles are the
    exact results rounded by [rn64]. *)
From Verif Require Import Base Dbl Decimal Round_proofs Rn_proofs.
From Coq Require Import QArith Qabs Lqa.
Open Scope Q_scope.

(** where [v] lies in the unit interval of the integer [m] *)
Definition loc_ok (v : Q) (m : Z) (l : location) : Prop :=
  match l with
  | loc_Exact => v == qz m
  | loc_Inexact Lt => qz m < v /\ v < qz m + (1#2)
  | loc_Inexact Eq => v == qz m + (1#2)
  | loc_Inexact Gt => qz m + (1#2) < v /\ v < qz m + 1
  end.
Lemma loc_ok_ext v v' m l : v == v' -> loc_ok v m l -> loc_ok v' m l.
Proof. intros E. destruct l as [|[]]; cbn [loc_ok]; lra. Qed.
Lemma loc_ok_bounds v m l : loc_ok v m l -> qz m <= v /\ v < qz m + 1.
Proof. destruct l as [|[]]; cbn [loc_ok]; lra. Qed.
Lemma shr_1_ok r v : (0 <= shr_m r)%Z -> loc_ok v (shr_m r) (loc_of_shr_record r) ->
  (0 <= shr_m (shr_1 r))%Z /\ loc_ok ((1#2) * v) (shr_m (shr_1 r)) (loc_of_shr_record (shr_1 r)).
Proof.
  destruct r as [m r s]. cbn [shr_m]. intros M L.
  assert (forall p, qz (Zpos p~0) == 2 * qz (Zpos p)) as E0 by (intros p; change (Zpos p~0) with (2 * Zpos p)%Z; rewrite qz_mul; reflexivity).
  assert (forall p, qz (Zpos p~1) == 2 * qz (Zpos p) + 1) as E1 by (intros p; change (Zpos p~1) with (2 * Zpos p + 1)%Z; rewrite qz_add, qz_mul; reflexivity).
  assert (qz 0 == 0) as Z0 by reflexivity. assert (qz 1 == 1) as Z1 by reflexivity.
  destruct m as [|[p|p|]|p]; [| | | |lia]; destruct r, s; cbn [shr_1 orb shr_m loc_of_shr_record loc_ok] in *; (split; [lia|]); try rewrite E0 in L; try rewrite E1 in L; lra.
Qed.
Lemma shr_iter_ok p : forall r v, (0 <= shr_m r)%Z -> loc_ok v (shr_m r) (loc_of_shr_record r) ->
  let r' := SpecFloat.iter_pos shr_1 p r in (0 <= shr_m r')%Z /\ loc_ok (v * pw 2 (Zneg p)) (shr_m r') (loc_of_shr_record r').
Proof.
  induction p as [p IH|p IH|]; intros r v M L; cbn [iter_pos].
  - destruct (shr_1_ok r v M L) as [M1 L1]. destruct (IH _ _ M1 L1) as [M2 L2]. destruct (IH _ _ M2 L2) as [M3 L3]. split; auto.
    eapply loc_ok_ext; [|exact L3]. replace (Zneg p~1) with (-1 + (Zneg p + Zneg p))%Z by lia. rewrite !pw_add by lia. change (pw 2 (-1)) with (1#2). ring.
  - destruct (IH _ _ M L) as [M2 L2]. destruct (IH _ _ M2 L2) as [M3 L3]. split; auto.
    eapply loc_ok_ext; [|exact L3]. replace (Zneg p~0) with (Zneg p + Zneg p)%Z by lia. rewrite !pw_add by lia. ring.
  - destruct (shr_1_ok r v M L) as [M1 L1]. split; auto. eapply loc_ok_ext; [|exact L1]. change (pw 2 (-1)) with (1#2). ring.
Qed.
Lemma record_of_loc m l : shr_m (shr_record_of_loc m l) = m /\ loc_of_shr_record (shr_record_of_loc m l) = l.
Proof. destruct l as [|[]]; auto. Qed.
Lemma round_rhe n d m l : (0 < d)%Z -> loc_ok (rat n d) m l -> round_nearest_even m l = rhe n d.
Proof.
  intros D L. destruct (loc_ok_bounds _ _ _ L) as [B1 B2].
  assert (n / d = m)%Z as E.
  { apply (rat_le_Z n d m D) in B1. assert (rat n d < qz (m + 1)) as B3 by (rewrite qz_add; exact B2). apply (rat_lt_Z n d (m + 1) D) in B3. symmetry. apply Z.div_unique with (r := (n - m * d)%Z); lia. }
  assert (n mod d = n - m * d)%Z as R by (rewrite Z.mod_eq by lia; rewrite E; lia).
  unfold rhe. rewrite E, R.
  assert (forall k, (rat n d ?= qz m + (1#2)) = k -> (2 * (n - m * d) ?= d)%Z = k) as C.
  { intros k <-. pose proof (rat_mul_den n d D) as X. assert (0 < qz d) as Y by now apply qz_pos.
    assert (qz (2 * (n - m * d)) == qz d + 2 * (rat n d - (qz m + (1#2))) * qz d) as W by (rewrite qz_mul, qz_sub, qz_mul, <- X; change (qz 2) with 2; ring).
    destruct (Qcompare_spec (rat n d) (qz m + (1#2))) as [H|H|H].
    - apply Z.compare_eq_iff. apply qz_eq. rewrite W. rewrite H. ring.
    - apply Z.compare_lt_iff. apply qz_lt. rewrite W. nra.
    - apply Z.compare_gt_iff. apply qz_lt. rewrite W. nra. }
  destruct l as [|[]]; cbn [loc_ok round_nearest_even] in *.
  - rewrite (C Lt); auto. apply (proj1 (Qlt_alt _ _)). lra.
  - rewrite (C Eq); auto. apply (proj1 (Qeq_alt _ _)). lra.
  - rewrite (C Lt); auto. apply (proj1 (Qlt_alt _ _)). lra.
  - rewrite (C Gt); auto. apply (proj1 (Qgt_alt _ _)). lra.
Qed.
Lemma digits_nonneg m : (0 < m)%Z -> (Zdigits2 m = Z.log2 m + 1)%Z.
Proof. destruct m as [|p|p]; try lia. intros _. apply Zpos_digits2. Qed.
(** the rounding of a located value is the value rounded *)
Theorem round_aux_rn64 s m e l a b : (0 < a)%Z -> (0 < b)%Z -> (0 <= m)%Z -> loc_ok (rat a b * pw 2 (- e)) m l ->
  (e <= Z.max (flog2 a b - 52) (-1074))%Z -> binary_round_aux dprec demax s m e l = rn64 s a b.
Proof.
  intros Ha Hb Hm L He. set (ex := Z.max (flog2 a b - 52) (-1074)) in *.
  pose proof (flog2_spec a b Ha Hb) as [Hlo Hhi]. destruct (loc_ok_bounds _ _ _ L) as [B1 B2].
  assert (fexp dprec demax (Zdigits2 m + e) = ex) as Ef.
  { unfold fexp, emin, dprec, demax. change (3 - 1024 - 53)%Z with (-1074)%Z. pose proof (pw_pos 2 (- e) ltac:(lia)) as Pp. pose proof (pw_pos 2 e ltac:(lia)) as Pe.
    assert (pw 2 (- e) * pw 2 e == 1) as Pm by (rewrite <- pw_add by lia; replace (- e + e)%Z with 0%Z by lia; reflexivity).
    destruct (Z.eq_dec m 0) as [->|N].
    - change (Zdigits2 0) with 0%Z. change (qz 0) with 0 in *.
      assert (pw 2 (flog2 a b) < pw 2 e) as X by (nra). apply pw_lt_inv in X; [|lia]. unfold ex in *. lia.
    - rewrite digits_nonneg by lia. destruct (Z.log2_spec m ltac:(lia)) as [L1 L2].
      assert (flog2 a b = Z.log2 m + e)%Z as Efl; [|unfold ex; lia].
      apply (is_flog_unique 2 (rat a b)); [lia|split; auto|].
      assert (rat a b == (rat a b * pw 2 (- e)) * pw 2 e) as Ev by (rewrite <- Qmult_assoc, Pm; ring).
      assert (qz (m + 1) <= qz (2 ^ Z.succ (Z.log2 m))) as L2' by (apply (proj1 (qz_le _ _)); lia). rewrite qz_add in L2'. change (qz 1) with 1 in L2'. apply qz_le in L1. pose proof (Z.log2_nonneg m).
      rewrite <- pw_Z in L1, L2' by lia. split.
      + rewrite pw_add by lia. rewrite Ev. apply Qmult_le_r; auto. lra.
      + replace (Z.log2 m + e + 1)%Z with (Z.succ (Z.log2 m) + e)%Z by lia. rewrite pw_add by lia. rewrite Ev. apply Qmult_lt_r; auto. lra. }
  unfold binary_round_aux, shr_fexp. rewrite Ef. destruct (record_of_loc m l) as [R1 R2].
  assert (exists r', shr (shr_record_of_loc m l) e (ex - e) = (r', ex) /\ (0 <= shr_m r')%Z /\ loc_ok (rat a b * pw 2 (- ex)) (shr_m r') (loc_of_shr_record r')) as (r' & -> & M' & L').
  { unfold shr. destruct (ex - e)%Z as [|p|p] eqn:Ep; [| |lia].
    - replace ex with e by lia. eexists. split; [reflexivity|]. now rewrite R1, R2.
    - eexists. split; [f_equal; lia|]. destruct (shr_iter_ok p (shr_record_of_loc m l) (rat a b * pw 2 (- e))) as [M1 L1]; [now rewrite R1|now rewrite R1, R2|]. split; auto.
      eapply loc_ok_ext; [|exact L1]. replace (- ex)%Z with (- e + Zneg p)%Z by lia. rewrite pw_add by lia. ring. }
  unfold rn64. fold ex. pose proof (scale_rat 2 a b ex ltac:(lia) Hb) as Hs. destruct (scale 2 a b ex) as [n d]. destruct Hs as (Hd & Hv & Hn). specialize (Hn Ha).
  assert (loc_ok (rat n d) (shr_m r') (loc_of_shr_record r')) as L''.
  { eapply loc_ok_ext; [|exact L']. rewrite <- Hv. rewrite <- Qmult_assoc, <- pw_add by lia. replace (ex + - ex)%Z with 0%Z by lia. rewrite pw_0. ring. }
  rewrite (round_rhe n d _ _ Hd L''). set (k := rhe n d).
  pose proof (pw_pos 2 ex ltac:(lia)) as Hp.
  assert (rat n d < qz (2 ^ 53)) as Hlt.
  { assert (pw 2 (flog2 a b + 1) <= pw 2 (53 + ex)) as H by (apply pw_le; unfold ex; lia). rewrite (pw_add 2 53), (pw_Z 2 53) in H by lia. rewrite <- Hv in Hhi. assert (rat n d * pw 2 ex < qz (2 ^ 53) * pw 2 ex) as H' by lra. now apply Qmult_lt_r in H'. }
  assert (k <= 2 ^ 53)%Z as K1 by (apply rhe_le_Z; auto; lra).
  assert (0 <= k)%Z as K0. { apply rhe_ge_Z; auto. change (qz 0) with 0. pose proof (rat_pos n d Hn Hd). lra. }
  assert (-1074 <= ex)%Z as Hex by (unfold ex; lia).
  destruct (Z.eqb_spec k (2 ^ 53)) as [E|E].
  - rewrite E. replace (fexp dprec demax (Zdigits2 (2 ^ 53) + ex) - ex)%Z with 1%Z by (unfold fexp, emin, dprec, demax; change (Zdigits2 (2 ^ 53)) with 54%Z; lia).
    cbn [shr shr_record_of_loc]. change (SpecFloat.iter_pos shr_1 1 {| shr_m := 2 ^ 53; shr_r := false; shr_s := false |}) with {| shr_m := 2 ^ 52; shr_r := false; shr_s := false |}. cbn [shr_m].
    change (2 ^ 52)%Z with 4503599627370496%Z. cbv iota. reflexivity.
  - assert (fexp dprec demax (Zdigits2 k + ex) - ex <= 0)%Z as Hs.
    { unfold fexp, emin, dprec, demax. destruct (Z.eq_dec k 0) as [->|Nk]; [change (Zdigits2 0) with 0%Z; lia|]. rewrite digits_nonneg by lia. assert (Z.log2 k < 53)%Z by (apply Z.log2_lt_pow2; lia). lia. }
    assert (shr (shr_record_of_loc k loc_Exact) ex (fexp dprec demax (Zdigits2 k + ex) - ex) = (shr_record_of_loc k loc_Exact, ex)) as ->.
    { unfold shr. destruct (fexp dprec demax (Zdigits2 k + ex) - ex)%Z; auto. lia. }
    cbn [shr_record_of_loc shr_m]. destruct k as [|p|p]; [reflexivity|reflexivity|lia].
Qed.

(** ** The operations *)
Lemma new_location_ok n r q : (0 < n)%Z -> (0 <= r < n)%Z -> loc_ok (rat (q * n + r) n) q (new_location n r).
Proof.
  intros Hn Hr. pose proof (qz_pos n Hn) as Pn. pose proof (rat_mul_den (q * n + r) n Hn) as E. rewrite qz_add, qz_mul in E. set (v := rat (q * n + r) n) in *. clearbody v.
  assert ((v - qz q) * qz n == qz r) as E' by lra.
  assert (forall c, (2 * r ?= n)%Z = c -> match c with Lt => v < qz q + (1#2) | Eq => v == qz q + (1#2) | Gt => qz q + (1#2) < v end) as C.
  { intros c <-. assert (qz (2 * r) == 2 * ((v - qz q) * qz n)) as W by (rewrite qz_mul, E'; reflexivity). destruct (Z.compare_spec (2 * r) n) as [H|H|H].
    - assert (2 * ((v - qz q) * qz n) == qz n) as X by (rewrite <- W, H; reflexivity). assert ((2 * (v - qz q) - 1) * qz n == 0) as Y by (transitivity (2 * ((v - qz q) * qz n) - qz n); [ring|lra]). apply Qmult_integral in Y. destruct Y as [Y|Y]; lra.
    - apply qz_lt in H. rewrite W in H. nra.
    - apply qz_lt in H. rewrite W in H. nra. }
  assert (v < qz q + 1) as U. { assert (qz r < qz n) by (apply (proj1 (qz_lt _ _)); lia). nra. }
  assert (r <> 0%Z -> qz q < v) as Lw. { intros N. assert (0 < qz r) by (apply qz_pos; lia). nra. }
  destruct (Z.eq_dec r 0) as [->|N].
  - replace (new_location n 0) with loc_Exact by (unfold new_location, new_location_even, new_location_odd; destruct (Z.even n); reflexivity). cbn [loc_ok]. change (qz 0) with 0 in E'. apply Qmult_integral in E'. destruct E' as [E'|E']; lra.
  - unfold new_location, new_location_even, new_location_odd. specialize (Lw N). assert (Zeq_bool r 0 = false) as Hz by (unfold Zeq_bool; destruct (Z.compare_spec r 0); auto; lia).
    destruct (Z.even n) eqn:Ev; rewrite Hz.
    + pose proof (C _ eq_refl) as X. destruct (2 * r ?= n)%Z; cbn [loc_ok]; lra.
    + assert (Z.odd n = true) as Od by (rewrite <- Z.negb_even, Ev; reflexivity). apply Z.odd_spec in Od. destruct Od as [k Hk].
      destruct (Z.compare_spec (2 * r + 1) n) as [H|H|H]; cbn [loc_ok].
      * pose proof (C Lt ltac:(apply Z.compare_lt_iff; lia)) as X; cbv iota in X. lra.
      * pose proof (C Lt ltac:(apply Z.compare_lt_iff; lia)) as X; cbv iota in X. lra.
      * pose proof (C Gt ltac:(apply Z.compare_gt_iff; lia)) as X; cbv iota in X. lra.
Qed.
Lemma is_flog_log2 m e : (0 < m)%Z -> is_flog 2 (qz m * pw 2 e) (Z.log2 m + e).
Proof.
  intros Hm. destruct (Z.log2_spec m Hm) as [L1 L2]. pose proof (Z.log2_nonneg m). pose proof (pw_pos 2 e ltac:(lia)). apply qz_le in L1. apply qz_lt in L2. rewrite <- pw_Z in L1, L2 by lia. split.
  - rewrite pw_add by lia. apply Qmult_le_r; auto.
  - replace (Z.log2 m + e + 1)%Z with (Z.succ (Z.log2 m) + e)%Z by lia. rewrite pw_add by lia. apply Qmult_lt_r; auto.
Qed.
Lemma flog2_ge a b k : (0 < a)%Z -> (0 < b)%Z -> pw 2 k <= rat a b -> (k <= flog2 a b)%Z.
Proof.
  intros Ha Hb H. pose proof (flog2_spec a b Ha Hb) as [_ Hhi]. assert (pw 2 k < pw 2 (flog2 a b + 1)) as X by lra. apply pw_lt_inv in X; lia.
Qed.
Theorem ddiv_rn64 s m e t n f a b : (0 < a)%Z -> (0 < b)%Z -> rat a b == (qz (Zpos m) * pw 2 e) / (qz (Zpos n) * pw 2 f) ->
  ddiv (S754_finite s m e) (S754_finite t n f) = rn64 (xorb s t) a b.
Proof.
  intros Ha Hb E. unfold ddiv, SFdiv, SFdiv_core_binary.
  set (x := (Zdigits2 (Zpos m) + e - (Zdigits2 (Zpos n) + f))%Z). set (e' := Z.min (fexp dprec demax x) (e - f)).
  set (s' := (e - f - e')%Z). assert (0 <= s')%Z as Hs by (unfold s', e'; lia).
  assert (match s' with Z0 => Zpos m | Zpos _ => Z.shiftl (Zpos m) s' | Zneg _ => 0%Z end = Zpos m * 2 ^ s')%Z as ->.
  { destruct s' as [|p|p] eqn:Es; [now rewrite Z.mul_1_r|now rewrite Z.shiftl_mul_pow2 by lia|lia]. }
  pose proof (Z_div_mod (Zpos m * 2 ^ s') (Zpos n) ltac:(lia)) as Dm. destruct (Z.div_eucl (Zpos m * 2 ^ s') (Zpos n)) as [q r]. destruct Dm as [Dm Dr].
  assert (0 < 2 ^ s')%Z as P2 by (apply Z.pow_pos_nonneg; lia).
  pose proof (qz_pos (Zpos n) ltac:(lia)) as Qn. pose proof (qz_pos (Zpos m) ltac:(lia)) as Qm. pose proof (pw_pos 2 e ltac:(lia)) as Pe. pose proof (pw_pos 2 f ltac:(lia)) as Pf.
  apply round_aux_rn64; auto.
  - nia.
  - eapply loc_ok_ext; [|apply (new_location_ok (Zpos n) r q); lia]. replace (q * Zpos n + r)%Z with (Zpos m * 2 ^ s')%Z by lia. rewrite E. unfold rat. rewrite qz_mul, <- pw_Z by lia.
    unfold s'. replace (e - f - e')%Z with (e + - f + - e')%Z by lia. rewrite !pw_add by lia. rewrite (pw_opp 2 f). field. lra.
  - assert (x - 1 <= flog2 a b)%Z as X; [|unfold e', fexp, emin, dprec, demax; lia].
    apply flog2_ge; auto. rewrite E. unfold x. rewrite !digits_nonneg by lia. destruct (is_flog_log2 (Zpos m) e ltac:(lia)) as [M1 _]. destruct (is_flog_log2 (Zpos n) f ltac:(lia)) as [_ N2].
    apply Qle_shift_div_l; [nra|]. replace (Z.log2 (Zpos m) + 1 + e - (Z.log2 (Zpos n) + 1 + f) - 1)%Z with (Z.log2 (Zpos m) + e + - (Z.log2 (Zpos n) + f + 1))%Z by lia. rewrite pw_add by lia. rewrite pw_opp.
    pose proof (pw_pos 2 (Z.log2 (Zpos n) + f + 1) ltac:(lia)) as Pz. set (Y := pw 2 (Z.log2 (Zpos n) + f + 1)) in *. set (N := qz (Zpos n) * pw 2 f) in *.
    assert (/ Y * N <= 1) as I. { apply Qmult_le_l with (z := Y); auto. rewrite Qmult_assoc, Qmult_inv_r by lra. lra. }
    pose proof (pw_pos 2 (Z.log2 (Zpos m) + e) ltac:(lia)) as Pm. rewrite <- Qmult_assoc. nra.
Qed.
Theorem binary_round_rn64 s m e a b : (0 < a)%Z -> (0 < b)%Z -> rat a b == qz (Zpos m) * pw 2 e -> binary_round dprec demax s m e = rn64 s a b.
Proof.
  intros Ha Hb E. unfold binary_round, shl_align. rewrite Zpos_digits2.
  assert (flog2 a b = Z.log2 (Zpos m) + e)%Z as Ef by (apply (is_flog_unique 2 (rat a b)); [lia|apply flog2_spec; auto|eapply is_flog_ext; [symmetry; exact E|apply is_flog_log2; lia]]).
  destruct (fexp dprec demax (Z.log2 (Zpos m) + 1 + e) - e)%Z as [|d|d] eqn:Ed; unfold fexp, emin, dprec, demax in *.
  - apply round_aux_rn64; auto; [lia| |lia]. cbn [loc_ok]. rewrite E, <- Qmult_assoc, <- pw_add by lia. replace (e + - e)%Z with 0%Z by lia. rewrite pw_0. ring.
  - apply round_aux_rn64; auto; [lia| |lia]. cbn [loc_ok]. rewrite E, <- Qmult_assoc, <- pw_add by lia. replace (e + - e)%Z with 0%Z by lia. rewrite pw_0. ring.
  - apply round_aux_rn64; auto; [lia| |lia]. cbn [loc_ok]. set (x := Z.max _ _) in *. rewrite shift_pos_correct. change (Z.pow_pos 2 d) with (2 ^ Zpos d)%Z.
    rewrite qz_mul, <- pw_Z by lia. rewrite E, <- Qmult_assoc, <- pw_add by lia. replace (Zpos d) with (e + - x)%Z by lia. ring.
Qed.
