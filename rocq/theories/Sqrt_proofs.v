(** * Sqrt_proofs: the standard library's square root of doubles is correctly rounded. *)
From Verif Require Import Base Dbl Dbl_facts Decimal Spec_text Spec_num Spec_arith Round_proofs Rn_proofs Float_proofs Nearest_proofs Arith_proofs Surface Spec_edges.
From Coq Require Import QArith Qabs Lqa.
From Verif Require Import Round_proofs.
Open Scope Q_scope.

Lemma pos_rat w : 0 < w -> exists a b, (0 < a)%Z /\ (0 < b)%Z /\ rat a b == w.
Proof.
  intros H. exists (Qnum w), (Zpos (Qden w)). destruct w as [n d]. cbn [Qnum Qden]. unfold Qlt in H. cbn in H. split; [lia|]. split; [lia|]. unfold rat, Round_proofs.qz. now rewrite Qmake_Qdiv.
Qed.
(** the cell of [l]: [v] in units of U around q *)
Lemma sq_lt a b : 0 <= a -> 0 <= b -> a * a < b * b -> a < b.
Proof. intros A B H. destruct (Qlt_le_dec a b); auto. exfalso. nra. Qed.
Lemma sq_lt' a b : 0 <= a -> a < b -> a * a < b * b.
Proof. intros. nra. Qed.
(** the result is the rounding of every number in the cell of the root *)
Lemma dsqrt_cell n f : dvalid (S754_finite false n f) = true -> exists q e l, let U := pw 2 e in let X := qz (Zpos n) * pw 2 f in
  (1 <= q)%Z /\
  (match l with
   | loc_Exact => X == (qz q * U) * (qz q * U)
   | loc_Inexact Lt => (qz q * U) * (qz q * U) < X /\ X < ((qz q + (1#2)) * U) * ((qz q + (1#2)) * U)
   | loc_Inexact Gt => ((qz q + (1#2)) * U) * ((qz q + (1#2)) * U) < X /\ X < ((qz q + 1) * U) * ((qz q + 1) * U)
   | loc_Inexact Eq => False end) /\
  forall a b, (0 < a)%Z -> (0 < b)%Z -> loc_ok (rat a b * pw 2 (- e)) q l -> dsqrt (S754_finite false n f) = rn64 false a b.
Proof.
  intros W. unfold dsqrt, SFsqrt, SFsqrt_core_binary. rewrite digits_nonneg by lia.
  set (g := (Z.log2 (Zpos n) + 1 + f + 1)%Z). set (e := Z.min (fexp dprec demax (Z.div2 g)) (Z.div2 f)).
  assert (2 * Z.div2 f <= f)%Z as Hd by (rewrite Z.div2_div; pose proof (Z.mul_div_le f 2); lia).
  assert (0 <= f - 2 * e)%Z as Hs by (unfold e; lia). rewrite shiftl_value by auto. set (N := (Zpos n * 2 ^ (f - 2 * e))%Z).
  assert (0 < 2 ^ (f - 2 * e))%Z as P2 by (apply Z.pow_pos_nonneg; lia). assert (1 <= N)%Z as HN by (unfold N; nia).
  pose proof (Z.sqrtrem_spec N ltac:(lia)) as Sp. destruct (Z.sqrtrem N) as [q r]. destruct Sp as [Sp1 Sp2].
  assert (1 <= q)%Z as Hq by nia.
  set (l := if Zeq_bool r 0 then loc_Exact else loc_Inexact (if (r <=? q)%Z then Lt else Gt)).
  exists q, e, l. cbv zeta. pose proof (pw_pos 2 e ltac:(lia)) as Pe. set (U := pw 2 e) in *.
  assert (qz (Zpos n) * pw 2 f == qz N * (U * U)) as EX.
  { unfold N, U. rewrite qz_mul, <- pw_Z by lia. rewrite <- Qmult_assoc, <- !pw_add by lia. replace (f - 2 * e + (e + e))%Z with f by lia. reflexivity. }
  assert (qz N == qz q * qz q + qz r) as EN by (rewrite <- qz_mul, <- qz_add, <- Sp1; reflexivity).
  assert (0 < U * U) as PU by nra.
  split; auto. split.
  - unfold l. destruct (Zeq_bool r 0) eqn:E0.
    + apply Zeq_bool_eq in E0. subst r. rewrite EX, EN. change (qz 0) with 0. ring.
    + assert (r <> 0)%Z as Nr by (intros ->; discriminate). assert (0 < qz r) as Pr by (apply qz_pos; lia). destruct (Z.leb_spec r q) as [C|C].
      * assert (qz r <= qz q) as C' by (apply (proj1 (qz_le _ _)); lia). rewrite EX, EN. split; nra.
      * assert (qz q + 1 <= qz r) as C1. { change 1 with (qz 1). rewrite <- qz_add. apply (proj1 (qz_le _ _)). lia. }
        assert (qz r <= 2 * qz q) as C2. { change 2 with (qz 2). rewrite <- qz_mul. apply (proj1 (qz_le _ _)). lia. }
        rewrite EX, EN. split; nra.
  - intros a b Ha Hb L. apply round_aux_rn64; auto; [lia|].
    destruct (loc_ok_bounds _ _ _ L) as [B _]. destruct (Z_le_gt_dec e (-1074)) as [C|C]; [lia|].
    set (k := Z.div2 g) in *. assert (e <= k - 53)%Z as Ek by (unfold e, fexp, emin, dprec, demax in *; lia).
    assert (k - 1 <= flog2 a b)%Z; [|lia]. apply flog2_ge; auto.
    (* 2^(k-1) = c U with c^2 <= N *)
    assert (pw 2 (k - 1) == qz (2 ^ (k - 1 - e)) * U) as Ec by (unfold U; rewrite <- pw_Z, <- pw_add by lia; replace (k - 1 - e + e)%Z with (k - 1)%Z by lia; reflexivity).
    set (c := (2 ^ (k - 1 - e))%Z) in *. assert (0 < c)%Z as Pc by (apply Z.pow_pos_nonneg; lia).
    destruct (is_flog_log2 (Zpos n) f ltac:(lia)) as [M1 _].
    assert (2 * k <= g)%Z as Hk by (unfold k; rewrite Z.div2_div; pose proof (Z.mul_div_le g 2); lia).
    assert (pw 2 (k - 1) * pw 2 (k - 1) <= qz N * (U * U)) as A.
    { rewrite <- EX, <- pw_add by lia. eapply Qle_trans; [|exact M1]. apply pw_le; unfold g in *; lia. }
    rewrite Ec in A. assert (qz (c * c) <= qz N) as A' by (rewrite qz_mul; apply (proj1 (Qmult_le_r _ _ (U * U) PU)); lra).
    apply qz_le in A'. assert (c <= q)%Z as Cq by nia. apply (proj1 (qz_le _ _)) in Cq. rewrite Ec.
    assert (pw 2 (- e) * U == 1) as I by (unfold U; rewrite <- pw_add by lia; replace (- e + e)%Z with 0%Z by lia; apply pw_0).
    assert (qz q * U <= rat a b) as B'; [|nra]. apply (proj2 (Qmult_le_r (qz q) (rat a b * pw 2 (- e)) U Pe)) in B. rewrite <- Qmult_assoc, I in B. lra.
Qed.

(** numbers of the cell below (above) a bound that is above (below) the root *)
Lemma dsqrt_nearest_in_cell n f q e l w : dvalid (S754_finite false n f) = true -> (1 <= q)%Z ->
  (forall a b, (0 < a)%Z -> (0 < b)%Z -> loc_ok (rat a b * pw 2 (- e)) q l -> dsqrt (S754_finite false n f) = rn64 false a b) ->
  qz q * pw 2 e * (qz q * pw 2 e) <= qz (Zpos n) * pw 2 f ->
  0 < w -> loc_ok (w * pw 2 (- e)) q l -> nearest_double w (dsqrt (S754_finite false n f)) /\ negative (dsqrt (S754_finite false n f)) = false.
Proof.
  intros W Hq H Sq Pw L. destruct (pos_rat w Pw) as (a & b & Ha & Hb & E). rewrite (H a b Ha Hb); [|eapply loc_ok_ext; [|exact L]; now rewrite E].
  destruct (rn64_correct false a b Ha Hb) as [C _]. destruct C as [C1 C2].
  - rewrite E. destruct (loc_ok_bounds _ _ _ L) as [_ B]. pose proof (pw_pos 2 e ltac:(lia)) as Pe.
    assert (pw 2 (- e) * pw 2 e == 1) as I by (rewrite <- pw_add by lia; replace (- e + e)%Z with 0%Z by lia; apply pw_0).
    assert (1 <= qz q) as Q1 by (change 1 with (qz 1); now apply (proj1 (qz_le _ _))).
    assert (w < 2 * (qz q * pw 2 e)) as B'. { apply (proj2 (Qmult_lt_r _ _ (pw 2 e) Pe)) in B. rewrite <- Qmult_assoc, I in B. nra. }
    assert (w * w < 4 * (qz (Zpos n) * pw 2 f)) as B2. { set (t := qz q * pw 2 e) in *. assert (0 < t) by (unfold t; nra). nra. }
    pose proof (frac_le_max false n f W) as M. destruct (Qlt_le_dec w (inject_Z (2 ^ 1024 - 2 ^ 970))) as [|C]; auto. exfalso.
    assert (inject_Z (2 ^ 1024 - 2 ^ 970) * inject_Z (2 ^ 1024 - 2 ^ 970) <= w * w) as G.
    { assert (0 < inject_Z (2 ^ 1024 - 2 ^ 970)) by reflexivity. set (T := inject_Z _) in *. clearbody T. nra. }
    assert (4 * dmaxval <= inject_Z (2 ^ 1024 - 2 ^ 970) * inject_Z (2 ^ 1024 - 2 ^ 970)) as G2 by (vm_compute; discriminate). lra.
  - split; auto. unfold signed in C1. destruct C1 as [R C1]. split; auto. intros y Hy. destruct (C1 y Hy) as [A B]. rewrite E in A, B. auto.
Qed.
Theorem dsqrt_correct n f : dvalid (S754_finite false n f) = true -> rounded_root (qz (Zpos n) * pw 2 f) (dsqrt (S754_finite false n f)).
Proof.
  intros W. destruct (dsqrt_cell n f W) as (q & e & l & Hq & Cell & H). pose proof (pw_pos 2 e ltac:(lia)) as Pe.
  set (U := pw 2 e) in *. set (X := qz (Zpos n) * pw 2 f) in *.
  assert (0 < X) as PX by (apply fin_pos). assert (1 <= qz q) as Q1 by (change 1 with (qz 1); now apply (proj1 (qz_le _ _))).
  assert (pw 2 (- e) * U == 1) as I by (unfold U; rewrite <- pw_add by lia; replace (- e + e)%Z with 0%Z by lia; apply pw_0).
  pose proof (pw_pos 2 (- e) ltac:(lia)) as Pi.
  assert (0 < qz q * U) as PqU by nra.
  assert (qz q * U * (qz q * U) <= X) as Sq. { destruct l as [|[]]; cbn in Cell; try contradiction; [lra|lra|]. destruct Cell. nra. }
  assert (forall w, 0 < w -> loc_ok (w * pw 2 (- e)) q l -> nearest_double w (dsqrt (S754_finite false n f)) /\ negative (dsqrt (S754_finite false n f)) = false) as NN.
  { intros w. now apply (dsqrt_nearest_in_cell n f q e l w W Hq H Sq). }
  set (y := dsqrt (S754_finite false n f)) in *.
  (* bounds of the open cell, in absolute units *)
  assert (exists lo hi, 0 < lo /\ lo < hi /\ ((l = loc_Exact /\ X == lo * lo) \/ (lo * lo < X /\ X < hi * hi /\ forall w, lo < w -> w < hi -> loc_ok (w * pw 2 (- e)) q l))) as (lo & hi & Plo & Lh & Cases).
  { assert (forall w c, c * U < w -> c < w * pw 2 (- e)) as Up. { intros w c Hw. apply (proj2 (Qmult_lt_r _ _ (pw 2 (- e)) Pi)) in Hw. assert (c * U * pw 2 (- e) == c) as Q by (rewrite <- Qmult_assoc, (Qmult_comm U), I; ring). lra. }
    assert (forall w c, w < c * U -> w * pw 2 (- e) < c) as Dn. { intros w c Hw. apply (proj2 (Qmult_lt_r _ _ (pw 2 (- e)) Pi)) in Hw. assert (c * U * pw 2 (- e) == c) as Q by (rewrite <- Qmult_assoc, (Qmult_comm U), I; ring). lra. }
    destruct l as [|[]]; try contradiction.
    - exists (qz q * U), (qz q * U + 1). split; auto. split; [lra|]. left. auto.
    - exists (qz q * U), ((qz q + (1#2)) * U). split; auto. split; [nra|]. right. destruct Cell. split; auto. split; auto. intros w A B. split; auto.
    - exists ((qz q + (1#2)) * U), ((qz q + 1) * U). split; [nra|]. split; [nra|]. right. destruct Cell. split; auto. split; auto. intros w A B. split; auto. }
  assert (exists w, 0 < w /\ loc_ok (w * pw 2 (- e)) q l) as (w0 & Pw0 & Lw0).
  { destruct Cases as [[-> Ex]|(C1 & C2 & C3)].
    - exists (qz q * U). split; auto. cbn [loc_ok]. rewrite <- Qmult_assoc, (Qmult_comm U), I. ring.
    - exists ((1#2) * (lo + hi)). split; [lra|]. apply C3; lra. }
  destruct (NN w0 Pw0 Lw0) as [[Ry _] Ny].
  assert (0 <= dval y) as Py. { destruct y as [s| | |s m g]; cbn [negative] in Ny; try (cbn [dval]; lra). subst s. rewrite dval_finite. pose proof (fin_pos m g). lra. }
  split; auto. split; auto. intros z Rz Pz mid.
  assert (forall w, 0 < w -> loc_ok (w * pw 2 (- e)) q l -> Qabs (dval y - w) <= Qabs (dval z - w)) as NZ by (intros w A B; apply (NN w A B); auto).
  assert (forall w, dval y < dval z -> Qabs (dval y - w) <= Qabs (dval z - w) -> w <= mid) as Lw.
  { intros w Hyz A. unfold mid. revert A. apply Qabs_case; apply Qabs_case; intros; lra. }
  assert (forall w, dval z < dval y -> Qabs (dval y - w) <= Qabs (dval z - w) -> mid <= w) as Gw.
  { intros w Hyz A. unfold mid. revert A. apply Qabs_case; apply Qabs_case; intros; lra. }
  split; intros Hyz.
  - assert (0 < mid) as Pm by (unfold mid; lra). destruct Cases as [[El Ex]|(C1 & C2 & C3)].
    + subst l. cbn in Cell. assert (qz q * U <= mid). { apply Lw; auto. apply NZ; auto. cbn [loc_ok]. rewrite <- Qmult_assoc, (Qmult_comm U), I. ring. } nra.
    + destruct (Qlt_le_dec (mid * mid) X) as [C|]; auto. exfalso.
      assert (exists L, 0 < L /\ mid <= L /\ lo <= L /\ L * L < X) as (L & PL & L1 & L2 & L3).
      { destruct (Qlt_le_dec mid lo); [exists lo|exists mid]; repeat split; auto; lra. }
      assert (0 < L * L + X) as D by nra. set (w := 2 * X * L / (L * L + X)).
      assert (w * (L * L + X) == 2 * X * L) as Ew by (unfold w; field; lra).
      assert (L < w) as Lw1. { apply (proj1 (Qmult_lt_r L w _ D)). rewrite Ew. nra. }
      assert (w * w <= X) as Lw2. { apply (proj1 (Qmult_le_r (w * w) X ((L * L + X) * (L * L + X)) ltac:(nra))). apply (Qle_trans _ ((2 * X * L) * (2 * X * L))); [rewrite <- Ew; lra|]. assert (0 <= (L * L - X) * (L * L - X)) by nra. nra. }
      assert (w < hi). { apply sq_lt; try lra. }
      assert (w <= mid) by (apply Lw; auto; apply NZ; [lra|apply C3; lra]). lra.
  - destruct Cases as [[El Ex]|(C1 & C2 & C3)].
    + subst l. cbn in Cell. assert (mid <= qz q * U). { apply Gw; auto. apply NZ; auto. cbn [loc_ok]. rewrite <- Qmult_assoc, (Qmult_comm U), I. ring. } assert (0 <= mid) by (unfold mid; lra). nra.
    + destruct (Qlt_le_dec X (mid * mid)) as [C|]; auto. exfalso. assert (0 < mid) as Pm by (unfold mid; lra).
      assert (exists L, 0 < L /\ L <= mid /\ L <= hi /\ X < L * L) as (L & PL & L1 & L2 & L3).
      { destruct (Qlt_le_dec mid hi); [exists mid|exists hi]; repeat split; auto; lra. }
      set (w := (L * L + X) / (2 * L)). assert (w * (2 * L) == L * L + X) as Ew by (unfold w; field; lra).
      assert (w < L) as Lw1. { apply (proj1 (Qmult_lt_r w L (2 * L) ltac:(lra))). rewrite Ew. nra. }
      assert (0 < w) as Pw. { apply (proj1 (Qmult_lt_r 0 w (2 * L) ltac:(lra))). rewrite Ew. nra. }
      assert (X <= w * w) as Lw2. { apply (proj1 (Qmult_le_r X (w * w) ((2 * L) * (2 * L)) ltac:(nra))). apply (Qle_trans _ ((L * L + X) * (L * L + X))); [|rewrite <- Ew; lra]. assert (0 <= (L * L - X) * (L * L - X)) by nra. nra. }
      assert (lo < w). { apply sq_lt; lra. }
      assert (mid <= w) by (apply Gw; auto; apply NZ; [lra|apply C3; lra]). lra.
Qed.
