(** * C70 for every list of points on a line: rounding the squared distances costs at most one
    part in 10^14. *)
From Verif Require Import Base Dbl Dbl_facts Geom Decimal Shadow Spec_text Spec_num Spec_arith Surface Projection Raster Spec_raster Raster_proofs
  Rn_proofs Float_proofs Arith_proofs Nearest_proofs Dq_proofs Sum_proofs Util Spec_util Props_util.
From Coq Require Import QArith Qcanon Qabs Lqa.
From Verif Require Import Round_proofs.
Open Scope Q_scope.

(** zero, or neither too small nor too large for the full precision of doubles *)
Definition full_precision (q : Qc) : Prop := this q == 0 \/ (1 # 2 ^ 1022 <= this q /\ this q <= inject_Z (2 ^ 1023)).
Definition u53 : Q := 1 # 9007199254740992.

Lemma dq_close q : full_precision q -> dfinite (dq q) = true /\ nonneg (dq q) = true /\ dq q <> S754_zero true /\
  (1 - u53) * this q <= this (qd (dq q)) /\ this (qd (dq q)) <= (1 + u53) * this q.
Proof.
  intros [Z|[L H]].
  - assert (q = 0%Qc) as -> by (apply Qc_is_canon; exact Z). repeat split; try discriminate.
  - assert (q <> 0%Qc) as N by (intros ->; revert L; apply Qlt_not_le; reflexivity).
    destruct (dq_rn64 q N) as (E & P & R).
    assert (0 < this q) as Pq by (eapply Qlt_le_trans; [|exact L]; reflexivity).
    assert ((Qnum (this q) <? 0)%Z = false) as S.
    { apply Z.ltb_ge. unfold Qlt in Pq. cbn in Pq. lia. }
    rewrite S in E. set (a := Z.abs (Qnum (this q))) in *. set (b := Zpos (Qden (this q))) in *.
    rewrite Qabs_pos in R by lra.
    assert (rat a b <= dmaxval) as M. { rewrite R. eapply Qle_trans; [exact H|]. apply Qle_bool_iff. vm_compute. reflexivity. }
    destruct (rn64_err false a b P ltac:(unfold b; lia) M) as (x & Ex & Fx & Er & Sx). rewrite <- E in Ex.
    pose proof (flog2_spec a b P ltac:(unfold b; lia)) as [Lo Hi].
    assert ((-1022 <= flog2 a b)%Z) as G.
    { apply flog2_ge; [exact P|unfold b; lia|]. rewrite R. eapply Qle_trans; [|exact L]. apply Qle_bool_iff. vm_compute. reflexivity. }
    replace (Z.max (flog2 a b - 52) (-1074)) with (-52 + flog2 a b)%Z in Er by lia. rewrite pw_add in Er by lia.
    assert ((1 # 2) * (pw 2 (-52) * pw 2 (flog2 a b)) <= u53 * this q) as Eu.
    { rewrite R in Lo. assert ((1 # 2) * pw 2 (-52) == u53) as U by reflexivity. rewrite Qmult_assoc, U. rewrite (Qmult_comm u53), (Qmult_comm u53).
      apply Qmult_le_compat_r; [exact Lo|discriminate]. }
    assert (Qabs (this q - qabsv x) <= u53 * this q) as B by (rewrite <- R at 1; eapply Qle_trans; [exact Er|exact Eu]).
    apply Qabs_Qle_condition in B as [B1 B2].
    assert (0 < u53 /\ u53 < 1) as [U0 U1] by (split; reflexivity).
    rewrite Ex. destruct x as [s|s| |s m e]; try discriminate Fx; subst s.
    + exfalso. cbn [qabsv] in B2. assert (this q <= u53 * this q) as X by lra. clear - X Pq U1. generalize dependent u53. intros. nra.
    + split; [reflexivity|]. split; [reflexivity|]. split; [discriminate|].
      assert (this (qd (S754_finite false m e)) == qabsv (S754_finite false m e)) as V.
      { rewrite qd_val. cbn [qabsv]. unfold zq. ring. }
      rewrite V. clear - B1 B2. generalize dependent (this q). generalize (qabsv (S754_finite false m e)). intros. split; lra.
Qed.
Lemma qd_dval x : this (qd x) == dval x.
Proof. destruct x as [s| | |s m e]; try reflexivity. rewrite qd_val, dval_finite. destruct s; ring. Qed.
Lemma full_in_range q : full_precision q -> in_range (this q).
Proof.
  intros [E|[L H]]; unfold in_range.
  - rewrite E. reflexivity.
  - rewrite Qabs_pos by (eapply Qle_trans; [|exact L]; discriminate). eapply Qle_lt_trans; [exact H|]. reflexivity.
Qed.
(** a comparison of quotients tells the order of the numbers, up to rounding *)
Lemma over_one_true p q : full_precision p -> full_precision q -> over_one (dq p) (dq q) = true -> this q < this p.
Proof.
  intros Hp Hq. destruct (dq_close p Hp) as (F1 & N1 & Z1 & _). destruct (dq_close q Hq) as (F2 & N2 & Z2 & _).
  unfold over_one. rewrite ratio_gt by (auto using dq_valid). rewrite dltb_qd by (auto using dq_valid). unfold Qclt. rewrite !qd_dval. intros L.
  destruct (proj1 (dq_correct p) (full_in_range p Hp)) as [R1 A1]. destruct (proj1 (dq_correct q) (full_in_range q Hq)) as [R2 A2].
  destruct (Qlt_le_dec (this q) (this p)) as [H|H]; [exact H|exfalso].
  destruct (A1 _ R2) as [B1 _]. destruct (A2 _ R1) as [B2 _].
  assert (this q <= this p) as H'.
  { clear - B1 B2 L H. set (x := dval (dq p)) in *. set (y := dval (dq q)) in *. clearbody x y.
    apply Qabs_Qle_condition in B1 as [B1 B1']. apply Qabs_Qle_condition in B2 as [B2 B2'].
    destruct (Qlt_le_dec (y - this p) 0) as [C|C]; [rewrite (Qabs_neg (y - this p)) in * by lra|rewrite (Qabs_pos (y - this p)) in * by lra];
    (destruct (Qlt_le_dec (x - this q) 0) as [D|D]; [rewrite (Qabs_neg (x - this q)) in * by lra|rewrite (Qabs_pos (x - this q)) in * by lra]); lra. }
  assert (p = q) as -> by (apply Qc_is_canon; lra). lra.
Qed.
Definition e51 : Q := 1 # 2251799813685248.
Lemma over_one_false p q : full_precision p -> full_precision q -> over_one (dq p) (dq q) = false -> this p <= (1 + e51) * this q.
Proof.
  intros Hp Hq. destruct (dq_close p Hp) as (F1 & N1 & Z1 & L1 & _). destruct (dq_close q Hq) as (F2 & N2 & Z2 & _ & U2).
  unfold over_one. rewrite ratio_gt by (auto using dq_valid). intros E. assert (~ (qd (dq q) < qd (dq p))%Qc) as N.
  { intros L. apply dltb_qd in L; auto using dq_valid. congruence. }
  apply Qcnot_lt_le in N. unfold Qcle in N. unfold u53, e51 in *.
  assert (0 <= this q) as Q0. { destruct Hq as [E0|[E0 _]]; [lra|]. eapply Qle_trans; [|exact E0]. discriminate. }
  set (a := this (qd (dq p))) in *. set (b := this (qd (dq q))) in *. clearbody a b. generalize dependent (this p). generalize dependent (this q). intros.
  lra.
Qed.

(** ** positions on the line *)
Definition k50 : Q := 1 # 1125899906842624.
Definition near (a b t : Q) : Prop :=
  (a <= b /\ a - k50 * (b - a) <= t /\ t <= b + k50 * (b - a)) \/ (b <= a /\ b - k50 * (a - b) <= t /\ t <= a + k50 * (a - b)).
Lemma far_abs (u w : Q) : u * u <= (1 + e51) * (w * w) -> (u <= (1 + e51) * w \/ u <= - ((1 + e51) * w)) /\ (- u <= (1 + e51) * w \/ - u <= - ((1 + e51) * w)).
Proof.
  intros H. apply sq_le_abs. eapply Qle_trans; [exact H|]. setoid_replace ((1 + e51) * w * ((1 + e51) * w)) with ((1 + e51) * ((1 + e51) * (w * w))) by ring.
  assert (0 <= w * w) as W by nra. generalize dependent (w * w). intros v _ W. unfold e51. lra.
Qed.
Lemma near_kept (a b c : Q) : (a - b) * (a - b) < (a - c) * (a - c) \/ (a - b) * (a - b) < (b - c) * (b - c) ->
  (a - c) * (a - c) < (a - b) * (a - b) \/ (a - c) * (a - c) < (b - c) * (b - c) ->
  near c b c /\ forall t, near a b t -> near c b t.
Proof.
  intros H K. assert ((c <= a /\ a <= b) \/ (b <= a /\ a <= c)) as O.
  { destruct H as [H|H], K as [K|K]; apply sq_lt_abs in H; apply sq_lt_abs in K; destruct H as [[H|H] [H'|H']], K as [[K|K] [K'|K']];
      destruct (Qlt_le_dec a b), (Qlt_le_dec c a); try (left; split; lra); try (right; split; lra); exfalso; lra. }
  unfold near, k50. split.
  - destruct O as [[O1 O2]|[O1 O2]]; [left|right]; repeat split; lra.
  - intros t [(T1 & T2 & T3)|(T1 & T2 & T3)]; destruct O as [[O1 O2]|[O1 O2]]; try (left; repeat split; lra); right; repeat split; lra.
Qed.
Lemma near_other (a b c : Q) : (a - b) * (a - b) < (a - c) * (a - c) \/ (a - b) * (a - b) < (b - c) * (b - c) ->
  (b - c) * (b - c) <= (1 + e51) * ((a - c) * (a - c)) ->
  near a c c /\ forall t, near a b t -> near a c t.
Proof.
  intros H K. apply far_abs in K. unfold near, k50, e51 in *. split.
  - destruct (Qlt_le_dec a c); [left|right]; repeat split; lra.
  - intros t [(T1 & T2 & T3)|(T1 & T2 & T3)]; destruct H as [H|H]; apply sq_lt_abs in H; destruct H as [[H|H] [H'|H']], K as [[K|K] [K'|K']];
      (destruct (Qlt_le_dec a c); [left; repeat split; lra|right; repeat split; lra]).
Qed.
Lemma near_same (a b c : Q) : (a - c) * (a - c) <= (1 + e51) * ((a - b) * (a - b)) -> (b - c) * (b - c) <= (1 + e51) * ((a - b) * (a - b)) -> near a b c.
Proof.
  intros H K. apply far_abs in H. apply far_abs in K. unfold near, k50, e51 in *.
  destruct (Qlt_le_dec a b); [left|right]; destruct H as [[H|H] [H'|H']], K as [[K|K] [K'|K']]; repeat split; lra.
Qed.
Lemma near_dist a b t u : near a b t -> near a b u -> (t - u) * (t - u) <= (1 + (1 # 140737488355328)) * ((a - b) * (a - b)).
Proof.
  unfold near, k50. intros T U.
  assert (forall x w, 0 <= w -> - w <= x -> x <= w -> x * x <= w * w) as S by (intros; nra).
  assert (exists d, 0 <= d /\ d * d == (a - b) * (a - b) /\ - ((1 + 2 * (1 # 1125899906842624)) * d) <= t - u /\ t - u <= (1 + 2 * (1 # 1125899906842624)) * d) as (d & D0 & D & L & H).
  { destruct (Qlt_le_dec a b) as [C|C].
    - exists (b - a). split; [lra|]. split; [ring|]. destruct T as [(T1 & T2 & T3)|(T1 & T2 & T3)], U as [(U1 & U2 & U3)|(U1 & U2 & U3)]; split; lra.
    - exists (a - b). split; [lra|]. split; [ring|]. destruct T as [(T1 & T2 & T3)|(T1 & T2 & T3)], U as [(U1 & U2 & U3)|(U1 & U2 & U3)]; split; lra. }
  rewrite <- D. eapply Qle_trans; [apply (S (t - u) ((1 + 2 * (1 # 1125899906842624)) * d)); [lra|lra|lra]|].
  setoid_replace ((1 + 2 * (1 # 1125899906842624)) * d * ((1 + 2 * (1 # 1125899906842624)) * d)) with (((1 + 2 * (1 # 1125899906842624)) * (1 + 2 * (1 # 1125899906842624))) * (d * d)) by ring.
  assert (0 <= d * d) as W by nra. generalize dependent (d * d). intros v _ W. lra.
Qed.

Section LINE.
Context (l : list p2) (o d : p2).
Hypothesis line : forall p, In p l -> exists t, at_ o d t p.
Hypothesis full : forall p q, In p l -> In q l -> full_precision (distance2 p q).
Hypothesis pos : (0 < norm2 d)%Qc.
Definition nears (ab : p2 * p2) (seen : list p2) : Prop :=
  exists ta tb, at_ o d ta (fst ab) /\ at_ o d tb (snd ab) /\ forall p, In p seen -> exists t, at_ o d t p /\ near (this ta) (this tb) (this t).
Lemma at_dist_this ta tb a b : at_ o d ta a -> at_ o d tb b -> this (sqdist2 a b) == (this ta - this tb) * (this ta - this tb) * this (norm2 d).
Proof. intros A B. rewrite (at_dist o d ta tb a b A B). rewrite !this_mult, !this_minus. reflexivity. Qed.
Lemma scaled_lt (x y N : Q) : 0 < N -> x * N < y * N -> x < y.
Proof. intros H L. now apply (Qmult_lt_r x y N H). Qed.
Lemma scaled_le (x y N : Q) : 0 < N -> x * N <= (1 + e51) * (y * N) -> x <= (1 + e51) * y.
Proof. intros H L. rewrite Qmult_assoc in L. now apply (Qmult_le_r x _ N H). Qed.
Lemma step_nears a b c seen : In a l -> In b l -> In c l -> nears (a, b) seen -> nears (extrem_step (a, b) c) (c :: seen).
Proof.
  intros A B C (ta & tb & Ha & Hb & Hs). destruct (line c C) as [tc Hc]. cbn [fst snd] in *.
  assert (0 < this (norm2 d)) as Np by exact pos.
  pose proof (at_dist_this ta tb a b Ha Hb) as AB. pose proof (at_dist_this ta tc a c Ha Hc) as AC. pose proof (at_dist_this tb tc b c Hb Hc) as BC.
  assert (forall p q, In p l -> In q l -> full_precision (sqdist2 p q)) as F by (intros; rewrite distance2_eq; auto).
  assert (forall p q p' q', In p l -> In q l -> In p' l -> In q' l -> over_one (dq (sqdist2 p q)) (dq (sqdist2 p' q')) = true -> this (sqdist2 p' q') < this (sqdist2 p q)) as T by (intros; apply over_one_true; auto).
  assert (forall p q p' q', In p l -> In q l -> In p' l -> In q' l -> over_one (dq (sqdist2 p q)) (dq (sqdist2 p' q')) = false -> this (sqdist2 p q) <= (1 + e51) * this (sqdist2 p' q')) as G by (intros; apply over_one_false; auto).
  unfold extrem_step.
  assert (forall x y, (near x y (this tc) /\ forall t, near (this ta) (this tb) t -> near x y t) ->
    forall tx ty, this tx = x -> this ty = y -> forall px py, at_ o d tx px -> at_ o d ty py -> nears (px, py) (c :: seen)) as Done.
  { intros x y [S1 S2] tx ty <- <- px py Hx Hy. exists tx, ty. cbn [fst snd]. split; [exact Hx|]. split; [exact Hy|].
    intros p [<-|I]; [exists tc; auto|destruct (Hs p I) as (t & Ht & Bt); exists t; auto]. }
  destruct (over_one (dq (sqdist2 a c)) (dq (sqdist2 a b)) || over_one (dq (sqdist2 b c)) (dq (sqdist2 a b))) eqn:E1.
  - assert ((this ta - this tb) * (this ta - this tb) < (this ta - this tc) * (this ta - this tc) \/ (this ta - this tb) * (this ta - this tb) < (this tb - this tc) * (this tb - this tc)) as H1.
    { apply orb_true_iff in E1 as [E|E]; apply T in E; auto; [left|right]; rewrite AB, ?AC, ?BC in E; exact (scaled_lt _ _ _ Np E). }
    destruct (over_one (dq (sqdist2 a b)) (dq (sqdist2 a c)) || over_one (dq (sqdist2 b c)) (dq (sqdist2 a c))) eqn:E2.
    + assert ((this ta - this tc) * (this ta - this tc) < (this ta - this tb) * (this ta - this tb) \/ (this ta - this tc) * (this ta - this tc) < (this tb - this tc) * (this tb - this tc)) as H2.
      { apply orb_true_iff in E2 as [E|E]; apply T in E; auto; [left|right]; rewrite AC, ?AB, ?BC in E; exact (scaled_lt _ _ _ Np E). }
      exact (Done _ _ (near_kept _ _ _ H1 H2) tc tb eq_refl eq_refl c b Hc Hb).
    + apply orb_false_iff in E2 as [_ E2]. apply G in E2; auto. rewrite AC, BC in E2.
      exact (Done _ _ (near_other _ _ _ H1 (scaled_le _ _ _ Np E2)) ta tc eq_refl eq_refl a c Ha Hc).
  - apply orb_false_iff in E1 as [E1 E2]. apply G in E1; auto. apply G in E2; auto. rewrite AC, AB in E1. rewrite BC, AB in E2.
    exact (Done _ _ (conj (near_same _ _ _ (scaled_le _ _ _ Np E1) (scaled_le _ _ _ Np E2)) (fun t H => H)) ta tb eq_refl eq_refl a b Ha Hb).
Qed.
Lemma fold_nears r : forall ab seen, (forall c, In c r -> In c l) -> In (fst ab) l -> In (snd ab) l -> nears ab seen ->
  exists seen', nears (fold_left extrem_step r ab) seen' /\ (forall p, In p seen \/ In p r -> In p seen').
Proof.
  induction r as [|c r IH]; intros [a b] seen H A B S; cbn [fold_left]; [exists seen; split; auto; intros p [|[]]; auto|].
  assert (In c l) as C by (apply H; now left). destruct (step_In a b c l A B C) as [A' B']. destruct (IH (extrem_step (a, b) c) (c :: seen)) as (seen' & S' & I); auto.
  - intros; apply H; now right.
  - now apply step_nears.
  - exists seen'. split; auto. intros p [X|[<-|X]]; apply I; auto with datatypes.
Qed.
End LINE.
(** on a line, whatever the rounding: no two points are farther apart, up to one part in 2^47 of the squared distance *)
Theorem C70_rounded l a b : on_a_line l -> (forall p q, In p l -> In q l -> full_precision (distance2 p q)) -> extrem_points l = Ok (a, b) ->
  In a l /\ In b l /\ forall p q, In p l -> In q l -> this (distance2 p q) <= (1 + (1 # 140737488355328)) * this (distance2 a b).
Proof.
  intros (o & d & L) D E. destruct (C70_members l a b E) as [A B]. split; auto. split; auto. intros p q P Q.
  rewrite <- (distance2_eq p q), <- (distance2_eq a b). destruct (L p P) as [tp Hp]. destruct (L q Q) as [tq Hq]. destruct (L a A) as [ta Ha]. destruct (L b B) as [tb Hb].
  assert (0 <= norm2 d)%Qc as N0. { unfold norm2. pose proof (sq_nonneg (x2 d)). pose proof (sq_nonneg (y2 d)). set (u := (x2 d * x2 d)%Qc) in *. set (w := (y2 d * y2 d)%Qc) in *. ql. }
  destruct (Qc_eq_dec (norm2 d) 0) as [Z|NZ].
  - rewrite (at_dist o d tp tq p q Hp Hq), (at_dist o d ta tb a b Ha Hb), Z. rewrite !this_mult. change (this 0%Qc) with 0. rewrite !Qmult_0_r. apply Qle_refl.
  - assert (0 < norm2 d)%Qc as Np by (destruct (Qcle_lt_or_eq _ _ N0); auto; congruence).
    destruct l as [|p0 [|q0 r]]; try discriminate. cbn [extrem_points vat nth_error bind skipn] in E. apply Ok_inj in E.
    destruct (L p0) as [t0 H0]; auto with datatypes. destruct (L q0) as [t1 H1]; auto with datatypes.
    destruct (fold_nears (p0 :: q0 :: r) o d L D Np r (p0, q0) [p0; q0]) as (seen' & S & I); cbn [fst snd]; auto with datatypes.
    + exists t0, t1. cbn [fst snd]. split; auto. split; auto. unfold near, k50. intros x [<-|[<-|[]]]; [exists t0|exists t1]; (split; [auto|]);
        (destruct (Qlt_le_dec (this t0) (this t1)); [left|right]; repeat split; lra).
    + rewrite E in S. destruct S as (ua & ub & Ua & Ub & Us). cbn [fst snd] in *.
      destruct (Us p) as (t & Ht & Bt); [apply I; destruct P as [<-|[<-|P]]; auto with datatypes|]. destruct (Us q) as (u & Hu & Bu); [apply I; destruct Q as [<-|[<-|Q]]; auto with datatypes|].
      rewrite (at_dist_this o d ua ub a b Ua Ub), (at_dist_this o d t u p q Ht Hu). rewrite Qmult_assoc.
      apply Qmult_le_compat_r; [now apply near_dist|exact N0].
Qed.
(** the rounding can show: of 0, 1 and 1 + 2^-60 on an axis, the first two are kept *)
Definition close_call : list p2 := [P2 0 0; P2 (Geom.qz 1) 0; P2 (Q2Qc (1 + (1 # 1152921504606846976))) 0].
Theorem C70_rounding_refuted : exists l a b p q, on_a_line l /\ (forall p q, In p l -> In q l -> full_precision (distance2 p q)) /\
  extrem_points l = Ok (a, b) /\ In p l /\ In q l /\ (distance2 a b < distance2 p q)%Qc.
Proof.
  exists close_call, (P2 0 0), (P2 (Geom.qz 1) 0), (P2 0 0), (P2 (Q2Qc (1 + (1 # 1152921504606846976))) 0). split; [|split; [|split; [|split; [|split]]]].
  - exists (P2 0 0), (P2 (Geom.qz 1) 0). intros p [<-|[<-|[<-|[]]]]; [exists 0%Qc|exists 1%Qc|exists (Q2Qc (1 + (1 # 1152921504606846976)))]; (split; apply Qceqb_eq; vm_compute; reflexivity).
  - assert (forallb (fun p => forallb (fun q => let d := this (distance2 p q) in Qeq_bool d 0 || (Qle_bool (1 # 2 ^ 1022) d && Qle_bool d (inject_Z (2 ^ 1023)))) close_call) close_call = true) as F by (vm_compute; reflexivity).
    intros p q P Q. rewrite forallb_forall in F. specialize (F p P). rewrite forallb_forall in F. specialize (F q Q). cbv zeta in F.
    apply orb_true_iff in F as [F|F]; [left; now apply Qeq_bool_iff|right]. apply andb_true_iff in F as [F1 F2]. split; now apply Qle_bool_iff.
  - vm_compute. reflexivity.
  - unfold close_call; auto with datatypes.
  - unfold close_call; auto with datatypes.
  - apply Qcltb_lt. vm_compute. reflexivity.
Qed.
