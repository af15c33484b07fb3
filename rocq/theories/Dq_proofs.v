(** * Dq_proofs: doubles and the rationals they stand for: order, exactness of the
    conversions, quotients. *)
From Verif Require Import Base Dbl Dbl_facts Geom Decimal Round_proofs Rn_proofs Float_proofs Raster Raster_proofs.
From Coq Require Import QArith Qabs Lqa.
From Verif Require Import Round_proofs.
Open Scope Q_scope.

Notation zq := Round_proofs.qz.
Lemma this_Q2Qc q : this (Q2Qc q) == q.
Proof. apply Qred_correct. Qed.
(** the value of a double *)
Lemma qd_val s m e : this (qd (S754_finite s m e)) == (if s then -1 else 1) * (zq (Zpos m) * pw 2 e).
Proof.
  unfold qd. pose proof (frac_rat m e) as F. destruct (frac m e) as [a b]. destruct F as (Ha & Hb & E).
  assert (a # Z.to_pos b == zq (Zpos m) * pw 2 e) as V by (rewrite <- E; unfold rat, Round_proofs.qz; rewrite Qmake_Qdiv, Z2Pos.id by auto; reflexivity).
  destruct s; [rewrite this_opp|]; rewrite this_Q2Qc, V; ring.
Qed.
Lemma val_pos m e : 0 < zq (Zpos m) * pw 2 e.
Proof. pose proof (pw_pos 2 e ltac:(lia)). pose proof (qz_pos (Zpos m) ltac:(lia)). nra. Qed.
(** the order of valid finite doubles is that of their values *)
Lemma finite_lt m e n f : dvalid (S754_finite false m e) = true -> dvalid (S754_finite false n f) = true ->
  ((e < f \/ (e = f /\ Zpos m < Zpos n))%Z <-> zq (Zpos m) * pw 2 e < zq (Zpos n) * pw 2 f).
Proof.
  intros V W. apply dvalid_bounds in V as (V1 & V2 & V3). apply dvalid_bounds in W as (W1 & W2 & W3).
  assert (forall m e n f, (e = Z.max (Z.log2 (Zpos m) + e - 52) (-1074))%Z -> (Zpos m < 2 ^ 53)%Z -> (f = Z.max (Z.log2 (Zpos n) + f - 52) (-1074))%Z -> (e < f)%Z -> zq (Zpos m) * pw 2 e < zq (Zpos n) * pw 2 f) as A.
  { clear. intros m e n f V1 V3 W1 H. assert (Z.log2 (Zpos n) = 52)%Z as L by lia. assert (2 ^ 52 <= Zpos n)%Z as L' by (rewrite <- L; apply Z.log2_spec; lia).
    pose proof (pw_pos 2 e ltac:(lia)) as Pe. pose proof (pw_pos 2 f ltac:(lia)) as Pf.
    assert (pw 2 (53 + e) <= pw 2 (52 + f)) as Q by (apply pw_le; lia). rewrite !pw_add, (pw_Z 2 53), (pw_Z 2 52) in Q by lia.
    apply qz_lt in V3. apply qz_le in L'. apply (Qmult_lt_r _ _ (pw 2 e) Pe) in V3. apply (Qmult_le_r _ _ (pw 2 f) Pf) in L'. lra. }
  split.
  - intros [H|[<- H]]; [eapply A; eauto|]. apply qz_lt in H. pose proof (pw_pos 2 e ltac:(lia)). nra.
  - intros H. destruct (Z.lt_trichotomy e f) as [L|[<-|L]]; auto.
    + right. split; auto. apply qz_lt. pose proof (pw_pos 2 e ltac:(lia)). now apply Qmult_lt_r in H.
    + exfalso. pose proof (A n f m e W1 W3 V1 L). lra.
Qed.
Lemma dltb_qd x y : dvalid x = true -> dvalid y = true -> dfinite x = true -> dfinite y = true -> (dltb x y = true <-> (qd x < qd y)%Qc).
Proof.
  intros V W Fx Fy. unfold Qclt. destruct x as [s| | |s m e], y as [t| | |t n f]; try discriminate; (rewrite dltb_key by auto); unfold lexlt.
  - cbn [dkey qd fst snd]. split; [lia|]. intros H. exfalso. change (this 0%Qc) with 0 in H. lra.
  - rewrite qd_val. cbn [qd]. change (this 0%Qc) with 0. pose proof (val_pos n f). destruct t; cbn [dkey fst snd]; (split; [intros K; try lia; try lra|intros K; try lra; try (left; lia)]).
  - rewrite qd_val. cbn [qd]. change (this 0%Qc) with 0. pose proof (val_pos m e). destruct s; cbn [dkey fst snd]; (split; [intros K; try lia; try lra|intros K; try lra; try (left; lia)]).
  - rewrite !qd_val. pose proof (val_pos m e). pose proof (val_pos n f). assert (forall s m e, dvalid (S754_finite s m e) = dvalid (S754_finite false m e)) as Vs by reflexivity.
    rewrite Vs in V, W. pose proof (finite_lt m e n f V W) as F1. pose proof (finite_lt n f m e W V) as F2.
    destruct s, t; cbn [dkey fst snd]; split; intros K; try lra; try lia.
    + assert (zq (Zpos n) * pw 2 f < zq (Zpos m) * pw 2 e) by (apply F2; lia). lra.
    + assert ((f < e \/ (f = e /\ Zpos n < Zpos m))%Z) by (apply F2; lra). lia.
    + assert (zq (Zpos m) * pw 2 e < zq (Zpos n) * pw 2 f) by (apply F1; lia). lra.
    + assert ((e < f \/ (e = f /\ Zpos m < Zpos n))%Z) by (apply F1; lra). lia.
Qed.
(** ** The nearest double *)
Lemma dq_rn64 q : q <> 0%Qc -> dq q = rn64 (Qnum (this q) <? 0)%Z (Z.abs (Qnum (this q))) (Zpos (Qden (this q))) /\ (0 < Z.abs (Qnum (this q)))%Z /\
  rat (Z.abs (Qnum (this q))) (Zpos (Qden (this q))) == Qabs (this q).
Proof.
  intros N. unfold dq. assert (Qnum (this q) <> 0)%Z as Nz.
  { intros E. apply N. apply Qc_is_canon. change (this 0%Qc) with 0. unfold Qeq. rewrite E. reflexivity. }
  destruct (Z.eqb_spec (Qnum (this q)) 0); [easy|]. split; auto. split; [lia|]. unfold rat, Round_proofs.qz, Qabs. destruct (this q) as [nu de]. cbn [Qnum Qden]. now rewrite Qmake_Qdiv.
Qed.
Lemma dq_valid q : dvalid (dq q) = true.
Proof.
  destruct (Qc_eq_dec q 0) as [->|N]; [reflexivity|]. destruct (dq_rn64 q N) as (-> & P & _). apply rn64_valid; lia.
Qed.
Lemma dq_qd x : dvalid x = true -> dfinite x = true -> qd x <> 0%Qc -> dq (qd x) = x.
Proof.
  intros V F N. destruct x as [s| | |s m e]; try discriminate; [now destruct N|]. destruct (dq_rn64 _ N) as (-> & P & R). pose proof (qd_val s m e) as E. pose proof (val_pos m e) as Vp.
  replace (Qnum (this (qd (S754_finite s m e))) <? 0)%Z with s.
  - apply rn64_exact; auto; [lia|]. rewrite R, E. destruct s; [rewrite Qabs_neg; [ring|lra]|rewrite Qabs_pos; [ring|lra]].
  - set (q := qd (S754_finite s m e)) in *. clearbody q. destruct s.
    + symmetry. apply Z.ltb_lt. assert (this q < 0) as L by lra. unfold Qlt in L. cbn in L. lia.
    + symmetry. apply Z.ltb_ge. assert (0 <= this q) as L by lra. unfold Qle in L. cbn in L. lia.
Qed.
Lemma dq_finite q : q <> 0%Qc -> qd (dq q) = q -> dfinite (dq q) = true.
Proof. intros N E. destruct (dq q); auto; cbn in E; congruence. Qed.
(** ** a / b > 1 if and only if a > b, in doubles that are not negative *)
Lemma one_double : dofZ 1 = S754_finite false 4503599627370496 (-52).
Proof. reflexivity. Qed.
Lemma ratio_finite m e n f : dvalid (S754_finite false m e) = true -> dvalid (S754_finite false n f) = true ->
  dltb (dofZ 1) (ddiv (S754_finite false m e) (S754_finite false n f)) = dltb (S754_finite false n f) (S754_finite false m e).
Proof.
  intros V W. pose proof (frac_rat m e) as F. destruct (frac m e) as [a b]. destruct F as (Ha & Hb & E). pose proof (frac_rat n f) as G. destruct (frac n f) as [c d]. destruct G as (Hc & Hd & G).
  pose proof (val_pos m e) as Pm. pose proof (val_pos n f) as Pn.
  assert (rat (a * d) (b * c) == zq (Zpos m) * pw 2 e / (zq (Zpos n) * pw 2 f)) as R.
  { rewrite <- E, <- G. unfold rat. rewrite !qz_mul. pose proof (qz_pos a Ha). pose proof (qz_pos b Hb). pose proof (qz_pos c Hc). pose proof (qz_pos d Hd). field; repeat split; lra. }
  rewrite (ddiv_rn64 _ _ _ _ _ _ (a * d) (b * c)) by (auto; nia). cbn [xorb]. set (v := rat (a * d) (b * c)) in *.
  assert (0 < a * d)%Z as Pad by nia. assert (0 < b * c)%Z as Pbc by nia. pose proof (flog2_spec _ _ Pad Pbc) as [Hlo Hhi]. fold v in Hlo, Hhi.
  apply eq_true_iff_eq. rewrite (dltb_qd _ _ W V eq_refl eq_refl). unfold Qclt. rewrite !qd_val. rewrite one_double.
  assert (v * (zq (Zpos n) * pw 2 f) == zq (Zpos m) * pw 2 e) as Vm by (rewrite R; clear -Pn; revert Pn; generalize (zq (Zpos n) * pw 2 f); intros N0 PN; field; lra).
  destruct (rn64_form false _ _ Pad Pbc) as (k & ex & Er & Hk & Hex & Hcar & Herr & Hnorm & _). fold v in Herr. rewrite Er. clear Er.
  assert (forall k ex, (0 <= k)%Z -> dltb (S754_finite false 4503599627370496 (-52)) (sf_of false k ex) = true <-> (0 < k /\ (-52 < ex \/ (ex = -52 /\ 2 ^ 52 < k)))%Z) as Key.
  { clear. intros k ex Hk. unfold sf_of. destruct k as [|p|p]; [split; [discriminate|lia]| |lia]. destruct (Z.leb_spec ex 971); rewrite dltb_key by reflexivity; unfold lexlt; cbn [dkey fst snd]; lia. }
  rewrite Key by lia. clear Key. set (fl := flog2 (a * d) (b * c)) in *.
  destruct (Qlt_le_dec 1 v) as [Gt1|Le1].
  - split; [intros _; nra|intros _]. assert (0 <= fl)%Z as Fl. { assert (pw 2 0 < pw 2 (fl + 1)) as X by (rewrite pw_0; lra). apply pw_lt_inv in X; lia. }
    specialize (Hnorm ltac:(lia)). split; [lia|]. destruct (Z.eq_dec ex (-52)) as [->|Ne]; [|lia]. right. split; auto. destruct (Z.eq_dec k (2 ^ 52)) as [->|]; [|lia]. exfalso.
    replace (Z.max (fl - 52) (-1074)) with (-52)%Z in Herr by lia. assert (zq (2 ^ 52) * pw 2 (-52) == 1) as O by reflexivity. rewrite O in Herr. apply Qabs_Qle_condition in Herr as [_ Herr].
    (* the gap between two doubles *)
    assert (zq (Zpos n) * pw 2 f < zq (Zpos m) * pw 2 e) as Lt by nra. apply (finite_lt n f m e W V) in Lt.
    assert (f <= e)%Z as Hfe by lia. apply dvalid_bounds in W as (_ & _ & Wn).
    assert (zq (Zpos m) * pw 2 e == zq (Zpos m * 2 ^ (e - f)) * pw 2 f) as Em by (rewrite qz_mul, <- pw_Z, <- Qmult_assoc, <- pw_add by lia; replace (e - f + f)%Z with e by lia; reflexivity).
    pose proof (pw_pos 2 f ltac:(lia)) as Pf. assert (v * zq (Zpos n) == zq (Zpos m * 2 ^ (e - f))) as Vn.
    { apply Qmult_inj_r with (z := pw 2 f); [lra|]. rewrite <- Em, <- Vm. ring. }
    pose proof (qz_pos (Zpos n) ltac:(lia)) as Qn. assert (zq (Zpos n) < zq (Zpos m * 2 ^ (e - f))) as L1 by (rewrite <- Vn; nra). apply qz_lt in L1.
    assert (zq (Zpos n) + 1 <= v * zq (Zpos n)) as L2 by (rewrite Vn; change 1 with (zq 1); rewrite <- qz_add; apply (proj1 (qz_le _ _)); lia).
    apply qz_lt in Wn. assert ((1 # 2) * pw 2 (-52) * zq (2 ^ 53) == 1) as H53 by reflexivity. set (h := (1 # 2) * pw 2 (-52)) in *. assert (0 < h) by reflexivity. nra.
  - split; [intros (K0 & K1); exfalso|intros X; exfalso; nra].
    assert (fl <= 0)%Z as Fl. { assert (pw 2 fl < pw 2 1) as X by (rewrite pw_1; change (zq 2) with 2; lra). apply pw_lt_inv in X; lia. }
    destruct (Z.eq_dec fl 0) as [F0|Fn].
    + (* v = 1 *)
      rewrite F0, pw_0 in Hlo. assert (v == 1) as V1 by lra. replace (Z.max (fl - 52) (-1074)) with (-52)%Z in * by lia. rewrite V1 in Herr. apply Qabs_Qle_condition in Herr as [Hl Hr].
      destruct (Z.eq_dec ex (-52)) as [->|Ne].
      * assert (2 ^ 52 + 1 <= k)%Z as Kk by lia. apply qz_le in Kk. rewrite qz_add in Kk. assert (zq (2 ^ 52) * pw 2 (-52) == 1) as O by reflexivity. set (h := pw 2 (-52)) in *. assert (0 < h) by reflexivity. change (zq 1) with 1 in Kk. nra.
      * destruct Hcar as [Hc1|Hc1]; [lia|]. subst k. replace ex with (-51)%Z in * by lia. assert (zq (2 ^ 52) * pw 2 (-51) == 2) as O by reflexivity. assert ((1#2) * pw 2 (-52) < 1) by reflexivity. lra.
    + destruct Hcar as [Hc1|Hc1]; [|lia]. lia.
Qed.
Definition nonneg (x : dbl) : bool := match x with S754_zero _ => true | S754_finite false _ _ => true | _ => false end.
Theorem ratio_gt x y : dvalid x = true -> dvalid y = true -> nonneg x = true -> nonneg y = true -> x <> S754_zero true -> y <> S754_zero true ->
  dltb (dofZ 1) (ddiv x y) = dltb y x.
Proof.
  intros V W Nx Ny Zx Zy. destruct x as [[]| | |[] m e], y as [[]| | |[] n f]; try discriminate; try easy; auto. now apply ratio_finite.
Qed.
