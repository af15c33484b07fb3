(** * Sum_proofs: sums of doubles, and the nearest double of a rational, are correctly rounded. *)
From Verif Require Import Base Dbl Decimal Shadow Spec_text Spec_num Spec_arith Geom Surface Spec_surface Spec_edges Raster Dq_proofs.
From Verif Require Import Rn_proofs Float_proofs Arith_proofs Nearest_proofs Sqrt_proofs.
From Coq Require Import QArith Qcanon Qabs Lqa.
From Verif Require Import Round_proofs.
Open Scope Q_scope.

Lemma nearest_ext p q x : p == q -> nearest_double p x -> nearest_double q x.
Proof. intros E [R H]. split; auto. intros y Hy. destruct (H y Hy) as [A B]. rewrite E in A, B. auto. Qed.
Lemma nearest_self x : real_double x -> nearest_double (dval x) x.
Proof.
  intros R. split; auto. intros y Hy. assert (Qabs (dval x - dval x) == 0) as E by (setoid_replace (dval x - dval x) with 0 by ring; reflexivity).
  rewrite E. split; [apply Qabs_nonneg|]. intros Z N. exfalso. apply N. symmetry in Z.
  destruct (Qlt_le_dec (dval y - dval x) 0) as [L|L]; [rewrite Qabs_neg in Z by lra|rewrite Qabs_pos in Z by lra]; lra.
Qed.
Lemma rn_signed s a b q : (0 < a)%Z -> (0 < b)%Z -> q == signed s (rat a b) ->
  (in_range q -> nearest_double q (rn64 s a b)) /\ (~ in_range q -> rn64 s a b = S754_infinity s).
Proof.
  intros Ha Hb E. pose proof (rat_pos a b Ha Hb) as P. destruct (rn64_correct s a b Ha Hb) as [A B].
  assert (Qabs q == rat a b) as Q. { rewrite E. destruct s; cbn [signed]; [rewrite Qabs_neg by lra; ring|now rewrite Qabs_pos by lra]. }
  unfold in_range. rewrite Q. split; intros L.
  - apply (nearest_ext (signed s (rat a b))); [now symmetry|]. now apply A.
  - apply B. now apply Qnot_lt_le.
Qed.
Lemma normalize_correct k e : let q := qz k * pw 2 e in let r := binary_normalize dprec demax k e false in
  (in_range q -> nearest_double q r) /\ (~ in_range q -> r = S754_infinity (k <? 0)%Z).
Proof.
  intros q r. destruct k as [|p|p].
  - assert (q == 0) as E by (unfold q; change (qz 0) with 0; ring). split.
    + intros _. apply (nearest_ext 0); [now symmetry|]. apply (nearest_self (S754_zero false)). now split.
    + intros N. exfalso. apply N. unfold in_range. rewrite E. reflexivity.
  - destruct (fin_rat p e) as (a & b & Ha & Hb & X). unfold r. cbn [binary_normalize]. rewrite (binary_round_rn64 false p e a b Ha Hb X).
    apply (rn_signed false); auto. unfold q, signed. now symmetry.
  - destruct (fin_rat p e) as (a & b & Ha & Hb & X). unfold r. cbn [binary_normalize]. rewrite (binary_round_rn64 true p e a b Ha Hb X).
    apply (rn_signed true); auto. unfold q. change (signed true (rat a b)) with (- rat a b). rewrite X. change (Zneg p) with (- Zpos p)%Z. replace (- Zpos p)%Z with (0 - Zpos p)%Z by lia. rewrite qz_sub. change (qz 0) with 0. ring.
Qed.
Theorem dadd_correct x y : real_double x -> real_double y ->
  (in_range (dval x + dval y) -> nearest_double (dval x + dval y) (dadd x y)) /\
  (~ in_range (dval x + dval y) -> exists s, dadd x y = S754_infinity s).
Proof.
  assert (forall z, real_double z -> in_range (dval z)) as IR.
  { intros [s| | |s m e] [V F]; try discriminate; [reflexivity|]. unfold in_range. rewrite dval_finite.
    pose proof (frac_le_max s m e V) as M. pose proof (fin_pos m e). assert (dmaxval < inject_Z (2 ^ 1024 - 2 ^ 970)) by reflexivity. destruct s; [rewrite Qabs_neg by lra|rewrite Qabs_pos by lra]; lra. }
  assert (forall z q, real_double z -> q == dval z -> (in_range q -> nearest_double q z) /\ (~ in_range q -> exists s, z = S754_infinity s)) as Z.
  { intros z q R E. split; [intros _; apply (nearest_ext (dval z)); [now symmetry|now apply nearest_self]|]. intros N. exfalso. apply N. unfold in_range. rewrite E. now apply IR. }
  intros X Y. destruct x as [s|s| |s m e]; try (destruct X; discriminate); destruct y as [t|t| |t n f]; try (destruct Y; discriminate).
  - assert (dadd (S754_zero s) (S754_zero t) = S754_zero (s && t)) as -> by (destruct s, t; reflexivity). apply Z; [now split|]. cbn [dval]. ring.
  - change (dadd (S754_zero s) (S754_finite t n f)) with (S754_finite t n f). apply Z; auto. change (dval (S754_zero s)) with 0. ring.
  - change (dadd (S754_finite s m e) (S754_zero t)) with (S754_finite s m e). apply Z; auto. change (dval (S754_zero t)) with 0. ring.
  - unfold dadd, SFadd. cbv zeta. match goal with |- context [binary_normalize _ _ ?k ?g false] => pose proof (normalize_correct k g) as [A B]; set (r := binary_normalize dprec demax k g false) in * end.
    assert (forall a b z, qz (cond_Zopp a z) * b == (if a then - (1) else 1) * (qz z * b)) as CV by (intros; rewrite cond_value; unfold sg; destruct a; ring).
    assert (forall p q, p == q -> in_range p -> in_range q) as IE by (intros p q E; unfold in_range; now rewrite E).
    match type of A with in_range ?q -> _ => assert (q == dval (S754_finite s m e) + dval (S754_finite t n f)) as E end.
    { rewrite qz_add, Qmult_plus_distr_l, !CV, !shl_align_value, !dval_finite by lia. reflexivity. }
    split.
    + intros I. eapply nearest_ext; [exact E|]. apply A. eapply IE; [symmetry; exact E|exact I].
    + intros I. eexists. apply B. intros J. apply I. eapply IE; [exact E|exact J].
Qed.
Theorem dq_correct (q : Qc) : (in_range (this q) -> nearest_double (this q) (dq q)) /\ (~ in_range (this q) -> dq q = S754_infinity (Qnum (this q) <? 0)%Z).
Proof.
  destruct (Qc_eq_dec q 0) as [->|N].
  - split; [intros _; apply (nearest_self (S754_zero false)); now split|]. intros H. exfalso. apply H. reflexivity.
  - destruct (dq_rn64 q N) as (-> & P & E). apply rn_signed; auto; [lia|]. destruct (Z.ltb_spec (Qnum (this q)) 0) as [L|L]; unfold signed; rewrite E.
    + rewrite Qabs_neg; [ring|]. unfold Qle. cbn. lia.
    + rewrite Qabs_pos; [ring|]. unfold Qle. cbn. lia.
Qed.
Theorem root_correct x : real_double x -> 0 <= dval x -> rounded_root (dval x) (dsqrt x).
Proof.
  intros R P. destruct x as [s| | |s m e]; try (destruct R; discriminate).
  - change (dsqrt (S754_zero s)) with (S754_zero s). split; [now split|]. split; [cbn; lra|]. intros z Z Pz mid. split.
    + intros _. change (dval (S754_zero s)) with 0. assert (0 <= mid) by (unfold mid; change (dval (S754_zero s)) with 0; lra). nra.
    + intros L. change (dval (S754_zero s)) with 0 in L. lra.
  - destruct s. { exfalso. rewrite dval_finite in P. pose proof (fin_pos m e). lra. }
    destruct R as [V _]. exact (dsqrt_correct m e V).
Qed.
