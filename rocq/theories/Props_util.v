(** * Theorems on the small algorithms: C70 - C72. *)
From Verif Require Import Base Dbl Dbl_facts Geom Decimal Shadow Surface Projection Raster Spec_raster Raster_proofs Dq_proofs Util Spec_util.
From Coq Require Import Lqa.
Open Scope nat_scope.

Lemma distance2_eq p q : sqdist2 p q = distance2 p q.
Proof. unfold sqdist2, distance2. ring. Qed.
Lemma double_dq q : is_double q -> qd (dq q) = q.
Proof.
  intros (x & V & F & E). destruct (Qc_eq_dec q 0) as [->|N]; [reflexivity|]. subst q. now rewrite dq_qd.
Qed.
Lemma dq_sign q : (0 <= q)%Qc -> nonneg (dq q) = true \/ dfinite (dq q) = false.
Proof.
  intros H. destruct (Qc_eq_dec q 0) as [->|N]; [now left|]. destruct (dq_rn64 q N) as (-> & P & _).
  replace (Qnum (this q) <? 0)%Z with false.
  - unfold rn64. destruct (Decimal.scale _ _ _ _) as [n d]. destruct (_ =? _)%Z; cbv iota; [destruct (_ <=? _)%Z; auto|]. destruct (rhe n d) as [|p|p]; auto. destruct (_ <=? _)%Z; auto.
  - symmetry. apply Z.ltb_ge. unfold Qcle, Qle in H. cbn in H. lia.
Qed.
Lemma over_one_spec p q : is_double p -> is_double q -> (0 <= p)%Qc -> (0 <= q)%Qc -> over_one (dq p) (dq q) = Qcltb q p.
Proof.
  intros Dp Dq Hp Hq. assert (forall q, is_double q -> dfinite (dq q) = true) as F.
  { intros r Dr. destruct (Qc_eq_dec r 0) as [->|N]; [reflexivity|]. apply dq_finite; auto. now apply double_dq. }
  assert (forall q, dq q <> S754_zero true \/ (q <> 0%Qc /\ qd (dq q) = 0%Qc)) as Z.
  { intros r. destruct (Qc_eq_dec r 0) as [->|N]; [now left|]. destruct (dq r) as [[]| | |] eqn:E; try (left; discriminate). right. auto. }
  assert (forall q, is_double q -> dq q <> S754_zero true) as Z'.
  { intros r Dr. destruct (Z r) as [A|[N A]]; auto. rewrite (double_dq r Dr) in A. easy. }
  unfold over_one. rewrite ratio_gt; try apply dq_valid; try (apply Z'; auto).
  - apply eq_true_iff_eq. rewrite dltb_qd, Qcltb_lt by (auto using dq_valid). now rewrite !double_dq.
  - destruct (dq_sign p Hp) as [A|A]; auto. now rewrite F in A.
  - destruct (dq_sign q Hq) as [A|A]; auto. now rewrite F in A.
Qed.

(** ** C70 *)
(** two of the points, in all cases *)
Lemma step_In a b c l : In a l -> In b l -> In c l -> In (fst (extrem_step (a, b) c)) l /\ In (snd (extrem_step (a, b) c)) l.
Proof. intros A B C. unfold extrem_step. destruct (_ || _); [destruct (_ || _)|]; auto. Qed.
Lemma fold_In l r : forall ab, (forall c, In c r -> In c l) -> In (fst ab) l -> In (snd ab) l -> In (fst (fold_left extrem_step r ab)) l /\ In (snd (fold_left extrem_step r ab)) l.
Proof.
  induction r as [|c r IH]; intros [a b] H A B; cbn [fold_left]; auto. destruct (step_In a b c l A B (H c (or_introl eq_refl))). apply IH; auto. intros; apply H; now right.
Qed.
Theorem C70_members l a b : extrem_points l = Ok (a, b) -> In a l /\ In b l.
Proof.
  destruct l as [|p [|q l]]; try discriminate. cbn [extrem_points vat nth_error bind skipn]. intros E. apply Ok_inj in E.
  destruct (fold_In (p :: q :: l) l (p, q)) as [A B]; cbn [fst snd]; auto with datatypes. now rewrite E in A, B.
Qed.
Theorem C70_defined l : (length l < 2 -> extrem_points l = Throw OutOfRange) /\ (2 <= length l -> exists ab, extrem_points l = Ok ab).
Proof.
  destruct l as [|p [|q l]]; cbn [length]; split; intros H; try lia; try reflexivity. eexists. reflexivity.
Qed.
(** positions on the line *)
Definition at_ (o d : p2) (t : Qc) (p : p2) : Prop := x2 p = (x2 o + t * x2 d)%Qc /\ y2 p = (y2 o + t * y2 d)%Qc.
Definition norm2 (d : p2) : Qc := (x2 d * x2 d + y2 d * y2 d)%Qc.
Lemma at_dist o d t u p q : at_ o d t p -> at_ o d u q -> sqdist2 p q = ((t - u) * (t - u) * norm2 d)%Qc.
Proof. intros [A B] [C D]. unfold sqdist2, norm2. rewrite A, B, C, D. ring. Qed.
Lemma this_mult a b : (this (a * b)%Qc == this a * this b)%Q.
Proof. apply Qred_correct. Qed.
Lemma sq_nonneg (a : Qc) : (0 <= a * a)%Qc.
Proof. unfold Qcle. rewrite this_mult, this_0. generalize (this a). intros. nra. Qed.
Lemma sqdist2_nonneg p q : (0 <= sqdist2 p q)%Qc.
Proof. unfold sqdist2. pose proof (sq_nonneg (x2 p - x2 q)). pose proof (sq_nonneg (y2 p - y2 q)). set (u := ((x2 p - x2 q) * (x2 p - x2 q))%Qc) in *. set (w := ((y2 p - y2 q) * (y2 p - y2 q))%Qc) in *. ql. Qed.
Definition between (a b t : Qc) : Prop := ((a <= t /\ t <= b) \/ (b <= t /\ t <= a))%Qc.
Lemma sq_lt a b N : (0 < N)%Qc -> Qcltb (a * a * N) (b * b * N) = Qcltb (a * a) (b * b).
Proof. intros H. apply eq_true_iff_eq. rewrite !Qcltb_lt. symmetry. now apply Qclt_scale. Qed.
(** the comparisons made by one step, in positions: the new interval contains the old one and [c] *)
Lemma sq_lt_abs (u w : Q) : (u * u < w * w -> (u < w \/ u < - w) /\ (- u < w \/ - u < - w))%Q.
Proof.
  intros H. destruct (Qlt_le_dec u w); destruct (Qlt_le_dec u (- w)); destruct (Qlt_le_dec (- u) w); destruct (Qlt_le_dec (- u) (- w)); auto; exfalso; nra.
Qed.
Lemma sq_le_abs (u w : Q) : (u * u <= w * w -> (u <= w \/ u <= - w) /\ (- u <= w \/ - u <= - w))%Q.
Proof.
  intros H. destruct (Qlt_le_dec w u); destruct (Qlt_le_dec (- w) u); destruct (Qlt_le_dec w (- u)); destruct (Qlt_le_dec (- w) (- u)); auto; exfalso; nra.
Qed.
Lemma step_interval a b c : let AB := ((a - b) * (a - b))%Qc in let AC := ((a - c) * (a - c))%Qc in let BC := ((b - c) * (b - c))%Qc in
  let ab' := if Qcltb AB AC || Qcltb AB BC then (if Qcltb AC AB || Qcltb AC BC then (c, b) else (a, c)) else (a, b) in
  between (fst ab') (snd ab') c /\ forall t, between a b t -> between (fst ab') (snd ab') t.
Proof.
  intros AB AC BC ab'. unfold between.
  assert (forall t, ((a <= t /\ t <= b) \/ (b <= t /\ t <= a) -> (fst ab' <= t /\ t <= snd ab') \/ (snd ab' <= t /\ t <= fst ab'))%Qc) as H; [|split; [|exact H]].
  - intros t. unfold ab', AB, AC, BC.
    destruct (Qcltb ((a - b) * (a - b)) ((a - c) * (a - c))) eqn:E1; destruct (Qcltb ((a - b) * (a - b)) ((b - c) * (b - c))) eqn:E2; cbn [orb];
    try (destruct (Qcltb ((a - c) * (a - c)) ((a - b) * (a - b))) eqn:E3; destruct (Qcltb ((a - c) * (a - c)) ((b - c) * (b - c))) eqn:E4; cbn [orb]); cbn [fst snd];
    rewrite ?Qcltb_lt, ?Qcltb_ge in *; unfold Qclt, Qcle in *; repeat first [rewrite this_mult in *|rewrite this_minus in *];
    repeat match goal with E : (_ * _ < _ * _)%Q |- _ => apply sq_lt_abs in E; destruct E | E : (_ * _ <= _ * _)%Q |- _ => apply sq_le_abs in E; destruct E end;
    intros [[]|[]];
    repeat match goal with E : _ \/ _ |- _ => destruct E end; try (exfalso; lra); try (left; split; lra); (right; split; lra).
  - unfold ab', AB, AC, BC.
    destruct (Qcltb ((a - b) * (a - b)) ((a - c) * (a - c))) eqn:E1; destruct (Qcltb ((a - b) * (a - b)) ((b - c) * (b - c))) eqn:E2; cbn [orb];
    try (destruct (Qcltb ((a - c) * (a - c)) ((a - b) * (a - b))) eqn:E3; destruct (Qcltb ((a - c) * (a - c)) ((b - c) * (b - c))) eqn:E4; cbn [orb]); cbn [fst snd];
    rewrite ?Qcltb_lt, ?Qcltb_ge in *; unfold Qclt, Qcle in *; repeat first [rewrite this_mult in *|rewrite this_minus in *];
    repeat match goal with E : (_ * _ < _ * _)%Q |- _ => apply sq_lt_abs in E; destruct E | E : (_ * _ <= _ * _)%Q |- _ => apply sq_le_abs in E; destruct E end;
    repeat match goal with E : _ \/ _ |- _ => destruct E end; try (exfalso; lra); try (left; split; lra); try (right; split; lra).
    all: destruct (Qlt_le_dec (this a) (this c)); first [left; split; lra|right; split; lra].
Qed.
Lemma between_dist a b t u : between a b t -> between a b u -> ((t - u) * (t - u) <= (a - b) * (a - b))%Qc.
Proof.
  unfold between. intros T U. unfold Qcle in *. rewrite !this_mult, !this_minus. destruct T as [[]|[]], U as [[]|[]];
    set (x := this a) in *; set (y := this b) in *; set (z := this t) in *; set (w := this u) in *; clearbody x y z w; nra.
Qed.
Section LINE.
Context (l : list p2) (o d : p2).
Hypothesis line : forall p, In p l -> exists t, at_ o d t p.
Hypothesis dbl_dist : forall p q, In p l -> In q l -> is_double (distance2 p q).
Hypothesis pos : (0 < norm2 d)%Qc.
Definition spans (ab : p2 * p2) (seen : list p2) : Prop :=
  exists ta tb, at_ o d ta (fst ab) /\ at_ o d tb (snd ab) /\ forall p, In p seen -> exists t, at_ o d t p /\ between ta tb t.
Lemma step_spans a b c seen : In a l -> In b l -> In c l -> spans (a, b) seen -> spans (extrem_step (a, b) c) (c :: seen).
Proof.
  intros A B C (ta & tb & Ha & Hb & Hs). destruct (line c C) as [tc Hc]. cbn [fst snd] in *. unfold extrem_step.
  rewrite !over_one_spec; try apply sqdist2_nonneg; try (rewrite distance2_eq; auto).
  rewrite <- !distance2_eq. rewrite (at_dist o d ta tb a b Ha Hb), (at_dist o d ta tc a c Ha Hc), (at_dist o d tb tc b c Hb Hc). rewrite !sq_lt by exact pos.
  pose proof (step_interval ta tb tc) as S. cbv zeta in S.
  destruct (Qcltb ((ta - tb) * (ta - tb)) ((ta - tc) * (ta - tc)) || Qcltb ((ta - tb) * (ta - tb)) ((tb - tc) * (tb - tc)));
  [destruct (Qcltb ((ta - tc) * (ta - tc)) ((ta - tb) * (ta - tb)) || Qcltb ((ta - tc) * (ta - tc)) ((tb - tc) * (tb - tc)))|]; cbn [fst snd] in S; destruct S as [S1 S2];
    (eexists _, _; cbn [fst snd]; split; [eassumption|split; [eassumption|]]; intros p [<-|I]; [exists tc; auto|destruct (Hs p I) as (t & Ht & Bt); exists t; auto]).
Qed.
Lemma fold_spans r : forall ab seen, (forall c, In c r -> In c l) -> In (fst ab) l -> In (snd ab) l -> spans ab seen ->
  exists seen', spans (fold_left extrem_step r ab) seen' /\ (forall p, In p seen \/ In p r -> In p seen').
Proof.
  induction r as [|c r IH]; intros [a b] seen H A B S; cbn [fold_left]; [exists seen; split; auto; intros p [|[]]; auto|].
  assert (In c l) as C by (apply H; now left). destruct (step_In a b c l A B C) as [A' B']. destruct (IH (extrem_step (a, b) c) (c :: seen)) as (seen' & S' & I); auto.
  - intros; apply H; now right.
  - now apply step_spans.
  - exists seen'. split; auto. intros p [X|[<-|X]]; apply I; auto with datatypes.
Qed.
End LINE.
(** on a line, when the squared distances are doubles: the farthest two *)
Theorem C70_extreme l a b : on_a_line l -> (forall p q, In p l -> In q l -> is_double (distance2 p q)) -> extrem_points l = Ok (a, b) ->
  In a l /\ In b l /\ forall p q, In p l -> In q l -> (distance2 p q <= distance2 a b)%Qc.
Proof.
  intros (o & d & L) D E. destruct (C70_members l a b E) as [A B]. split; auto. split; auto. intros p q P Q.
  rewrite <- (distance2_eq p q), <- (distance2_eq a b). destruct (L p P) as [tp Hp]. destruct (L q Q) as [tq Hq]. destruct (L a A) as [ta Ha]. destruct (L b B) as [tb Hb].
  assert (0 <= norm2 d)%Qc as N0. { unfold norm2. pose proof (sq_nonneg (x2 d)). pose proof (sq_nonneg (y2 d)). set (u := (x2 d * x2 d)%Qc) in *. set (w := (y2 d * y2 d)%Qc) in *. ql. }
  rewrite (at_dist o d tp tq p q Hp Hq). destruct (Qc_eq_dec (norm2 d) 0) as [Z|NZ].
  - rewrite Z. replace ((tp - tq) * (tp - tq) * 0)%Qc with 0%Qc by ring. apply sqdist2_nonneg.
  - assert (0 < norm2 d)%Qc as Np by (destruct (Qcle_lt_or_eq _ _ N0); auto; congruence).
    destruct l as [|p0 [|q0 r]]; try discriminate. cbn [extrem_points vat nth_error bind skipn] in E. apply Ok_inj in E.
    destruct (L p0) as [t0 H0]; auto with datatypes. destruct (L q0) as [t1 H1]; auto with datatypes.
    destruct (fold_spans (p0 :: q0 :: r) o d L D Np r (p0, q0) [p0; q0]) as (seen' & S & I); cbn [fst snd]; auto with datatypes.
    + exists t0, t1. cbn [fst snd]. split; auto. split; auto. unfold between. intros x [<-|[<-|[]]]; [exists t0|exists t1]; (split; [auto|]).
      * destruct (Qclt_le_dec t0 t1) as [X|X]; [left|right]; split; auto using Qcle_refl, Qclt_le_weak.
      * destruct (Qclt_le_dec t0 t1) as [X|X]; [left|right]; split; auto using Qcle_refl, Qclt_le_weak.
    + rewrite E in S. destruct S as (ua & ub & Ua & Ub & Us). cbn [fst snd] in *.
      destruct (Us p) as (t & Ht & Bt); [apply I; destruct P as [<-|[<-|P]]; auto with datatypes|]. destruct (Us q) as (u & Hu & Bu); [apply I; destruct Q as [<-|[<-|Q]]; auto with datatypes|].
      rewrite (at_dist o d ua ub a b Ua Ub), <- (at_dist o d tp tq p q Hp Hq), (at_dist o d t u p q Ht Hu). apply (proj1 (Qcle_scale _ _ _ Np)). now apply between_dist.
Qed.
(** not on a line, it may miss the farthest two: (0, 0), (50, 0), (25, 45), (-1, 10) *)
Lemma is_double_Z z : dvalid (dofZ z) = true -> dfinite (dofZ z) = true -> qd (dofZ z) = qz z -> is_double (qz z).
Proof. intros A B C. exists (dofZ z). auto. Qed.
Definition kite : list p2 := [P2 0 0; P2 (qz 50) 0; P2 (qz 25) (qz 45); P2 (- qz 1) (qz 10)].
Theorem C70_plane_refuted : exists l a b p q, extrem_points l = Ok (a, b) /\ In p l /\ In q l /\ (distance2 a b < distance2 p q)%Qc.
Proof.
  exists kite. eexists. eexists. exists (P2 (qz 50) 0), (P2 (- qz 1) (qz 10)). split; [vm_compute; reflexivity|]. split; [unfold kite; auto with datatypes|]. split; [unfold kite; auto with datatypes|].
  apply Qcltb_lt. vm_compute. reflexivity.
Qed.
Definition fence : list p2 := [P2 (qz 1) (qz 1); P2 (qz 3) (qz 2); P2 (- qz 1) 0; P2 (qz 1) (qz 1); P2 (qz 7) (qz 4)].
Example C70_example : on_a_line fence /\ (forall p q, In p fence -> In q fence -> is_double (distance2 p q)) /\ extrem_points fence = Ok (P2 (- qz 1) 0, P2 (qz 7) (qz 4)).
Proof.
  split; [|split].
  - exists (P2 (qz 1) (qz 1)), (P2 (qz 2) (qz 1)). intros p I. repeat (destruct I as [<-|I];
      [first [exists 0%Qc; split; apply Qceqb_eq; vm_compute; reflexivity|exists 1%Qc; split; apply Qceqb_eq; vm_compute; reflexivity|exists (- (1))%Qc; split; apply Qceqb_eq; vm_compute; reflexivity|exists (qz 3); split; apply Qceqb_eq; vm_compute; reflexivity]|]). destruct I.
  - assert (forallb (fun p => forallb (fun q => let d := distance2 p q in dvalid (dq d) && dfinite (dq d) && Qceqb (qd (dq d)) d) fence) fence = true) as F by (vm_compute; reflexivity).
    intros p q P Q. rewrite forallb_forall in F. specialize (F p P). rewrite forallb_forall in F. specialize (F q Q). cbv zeta in F.
    apply andb_true_iff in F. destruct F as [F E]. apply andb_true_iff in F. destruct F. apply Qceqb_eq in E. exists (dq (distance2 p q)). auto.
  - vm_compute. reflexivity.
Qed.

(** ** C71 *)
Lemma collinear2_spec p q r : collinear2 p q r = true <-> aligned p q r.
Proof. apply Qceqb_eq. Qed.
(** fewer than three points throw; otherwise the answer is that of the first three *)
Theorem C71_three l : (length l < 3 <-> check_collinearity l = Throw OutOfRange) /\
  forall p q r l', l = p :: q :: r :: l' -> exists b, check_collinearity l = Ok b /\ (b = true <-> aligned p q r).
Proof.
  split.
  - unfold check_collinearity. destruct l as [|p [|q [|r l]]]; cbn [length Nat.ltb Nat.leb]; split; intros; try lia; try reflexivity; try discriminate.
  - intros p q r l' ->. exists (collinear2 p q r). split; [reflexivity|apply collinear2_spec].
Qed.
Lemma line_aligned l p q r : on_a_line l -> In p l -> In q l -> In r l -> aligned p q r.
Proof.
  intros (o & d & L) P Q R. destruct (L p P) as (t & Px & Py), (L q Q) as (u & Qx & Qy), (L r R) as (w & Rx & Ry).
  unfold aligned. rewrite Px, Py, Qx, Qy, Rx, Ry. ring.
Qed.
(** points of a line are always accepted, so a rejected list is on no line *)
Theorem C71_line l : on_a_line l -> 3 <= length l -> check_collinearity l = Ok true.
Proof.
  intros L H. destruct l as [|p [|q [|r l]]]; cbn [length] in H; try lia.
  destruct (proj2 (C71_three (p :: q :: r :: l)) p q r l eq_refl) as ([|] & E & I); auto.
  exfalso. assert (false = true) by (apply I; apply (line_aligned _ _ _ _ L); auto with datatypes). discriminate.
Qed.
(** the points from the fourth on do not matter *)
Theorem C71_tail p q r l l' : check_collinearity (p :: q :: r :: l) = check_collinearity (p :: q :: r :: l').
Proof. reflexivity. Qed.
(** so some lists that are on no line are accepted *)
Theorem C71_fourth_refuted : exists l, check_collinearity l = Ok true /\ ~ on_a_line l.
Proof.
  exists [P2 0 0; P2 1 0; P2 (qz 2) 0; P2 0 1]. split; [reflexivity|]. intros L.
  pose proof (line_aligned _ (P2 0 0) (P2 1 0) (P2 0 1) L ltac:(auto with datatypes) ltac:(auto with datatypes) ltac:(auto with datatypes)) as A.
  apply Qceqb_eq in A. vm_compute in A. discriminate.
Qed.
Example C71_example : on_a_line fence /\ 3 <= length fence /\ check_collinearity fence = Ok true /\ check_collinearity kite = Ok false.
Proof. split; [apply C70_example|]. split; [cbn; lia|]. split; vm_compute; reflexivity. Qed.

(** ** C72 *)
(** in exact arithmetic the centroid is the mean of the vertices, without consecutive repetitions *)
Theorem C72_mean l c : l <> [] -> (centroid exact l = Ok (x2 c, y2 c) <-> vertex_mean l c).
Proof.
  intros H. destruct (centroid_exact l H) as (c0 & E & M). split; intros A.
  - rewrite E in A. apply Ok_inj in A. pose proof (f_equal fst A) as A1. pose proof (f_equal snd A) as A2. cbn [fst snd] in A1, A2.
    replace c with c0; auto. destruct c0 as [u1 u2], c as [w1 w2]. cbn [x2 y2] in *. now subst.
  - now rewrite (vertex_mean_fun _ _ _ A M).
Qed.
Theorem C72_defined (A : arith) l : (l = [] -> centroid A l = UB) /\ (l <> [] -> exists c, centroid A l = Ok c).
Proof.
  split; [intros ->; reflexivity|]. intros H. unfold centroid. destruct l as [|p l]; [congruence|]. cbn [map].
  set (a := (n_ofq A (x2 p), n_ofq A (y2 p))). destruct (map _ l) as [|b m]; cbn [unique]; [eexists; reflexivity|].
  destruct (_ && _); eexists; reflexivity.
Qed.
Definition moved (v p : p2) : p2 := P2 (x2 p + x2 v)%Qc (y2 p + y2 v)%Qc.
Lemma moved_inj v p q : moved v p = moved v q -> p = q.
Proof.
  intros E. pose proof (f_equal x2 E) as X. pose proof (f_equal y2 E) as Y. destruct p as [p1 p2], q as [q1 q2]. cbn [moved x2 y2] in X, Y. f_equal.
  - replace p1 with (p1 + x2 v - x2 v)%Qc by ring. rewrite X. ring.
  - replace p2 with (p2 + y2 v - y2 v)%Qc by ring. rewrite Y. ring.
Qed.
Lemma squeezed_moved v l m : squeezed l m -> squeezed (map (moved v) l) (map (moved v) m).
Proof. induction 1; cbn [map]; constructor; auto. intros E. apply moved_inj in E. auto. Qed.
Lemma qsum_moved (f : p2 -> Qc) u (l : list p2) : qsum (map (fun p => f p + u)%Qc l) = (qsum (map f l) + qn (nsize l) * u)%Qc.
Proof.
  induction l as [|a l IH]; [cbn [map qsum]; unfold nsize, qn; cbn [length Z.of_N N.of_nat]; replace (qz 0) with 0%Qc by (apply Qceqb_eq; reflexivity); ring|].
  change (f a + u + qsum (map (fun p => f p + u)%Qc l) = f a + qsum (map f l) + qn (nsize (a :: l)) * u)%Qc. rewrite IH.
  replace (qn (nsize (a :: l))) with (qn (nsize l) + 1)%Qc; [ring|]. unfold nsize, qn. cbn [length]. rewrite !nat_N_Z, Nat2Z.inj_succ. unfold Z.succ. symmetry.
  change 1%Qc with (qz 1). apply qz_plus.
Qed.
Theorem C72_translated l v c : l <> [] -> centroid exact l = Ok (x2 c, y2 c) -> centroid exact (map (moved v) l) = Ok (x2 c + x2 v, y2 c + y2 v)%Qc.
Proof.
  intros H E. apply C72_mean in E; auto. apply (C72_mean (map (moved v) l) (moved v c)); [destruct l; [congruence|discriminate]|].
  destruct E as (m & S & N & X & Y). exists (map (moved v) m). split; [now apply squeezed_moved|]. split; [destruct m; [congruence|discriminate]|].
  rewrite !map_map. unfold moved. cbn [x2 y2]. rewrite !qsum_moved. unfold nsize in *. rewrite map_length. split; [rewrite <- X|rewrite <- Y]; ring.
Qed.
Lemma squeezed_In {X} (l m : list X) : squeezed l m -> forall p, In p m -> In p l.
Proof. induction 1 as [|a|a l m _ IH|a b l m _ _ IH]; intros p I; auto; [right; auto|]. destruct I as [<-|I]; [now left|right; auto]. Qed.
Lemma qsum_bounds (f : p2 -> Qc) lo hi (l : list p2) : (forall p, In p l -> lo <= f p /\ f p <= hi)%Qc -> (qn (nsize l) * lo <= qsum (map f l) /\ qsum (map f l) <= qn (nsize l) * hi)%Qc.
Proof.
  induction l as [|a l IH]; intros H; [cbn [map qsum]; unfold nsize, qn; cbn [length Z.of_N N.of_nat]; replace (qz 0) with 0%Qc by (apply Qceqb_eq; reflexivity); rewrite !Qcmult_0_l; split; apply Qcle_refl|].
  change (qsum (map f (a :: l))) with (f a + qsum (map f l))%Qc. destruct IH as [A B]; [intros; apply H; now right|]. destruct (H a (or_introl eq_refl)) as [C D].
  replace (qn (nsize (a :: l))) with (qn (nsize l) + 1)%Qc.
  - rewrite !Qcmult_plus_distr_l, !Qcmult_1_l. set (u := (qn (nsize l) * lo)%Qc) in *. set (w := (qn (nsize l) * hi)%Qc) in *. set (s := qsum (map f l)) in *. split; ql.
  - unfold nsize, qn. cbn [length]. rewrite !nat_N_Z, Nat2Z.inj_succ. unfold Z.succ. symmetry. change 1%Qc with (qz 1). apply qz_plus.
Qed.
Lemma mean_bounds (f : p2 -> Qc) lo hi m x : m <> [] -> (forall p, In p m -> lo <= f p /\ f p <= hi)%Qc -> (x * qn (nsize m) = qsum (map f m))%Qc -> (lo <= x /\ x <= hi)%Qc.
Proof.
  intros N B E. destruct (qsum_bounds f lo hi m B) as [L H]. rewrite <- E in L, H.
  assert (0 < qn (nsize m))%Qc as P. { change 0%Qc with (qz 0). apply qz_lt. unfold nsize. destruct m; [congruence|]. cbn [length]. lia. }
  rewrite (Qcmult_comm x) in L, H. split.
  - apply (proj2 (Qcle_scale _ lo x P)). now rewrite !(Qcmult_comm _ (qn _)).
  - apply (proj2 (Qcle_scale _ x hi P)). now rewrite !(Qcmult_comm _ (qn _)).
Qed.
(** within every box that contains the vertices *)
Theorem C72_bounded l c x0 x1 y0 y1 : l <> [] -> (forall p, In p l -> x0 <= x2 p /\ x2 p <= x1 /\ y0 <= y2 p /\ y2 p <= y1)%Qc ->
  centroid exact l = Ok (x2 c, y2 c) -> (x0 <= x2 c /\ x2 c <= x1 /\ y0 <= y2 c /\ y2 c <= y1)%Qc.
Proof.
  intros H B E. apply C72_mean in E; auto. destruct E as (m & S & N & X & Y). pose proof (squeezed_In _ _ S) as I.
  destruct (mean_bounds x2 x0 x1 m (x2 c) N) as [A1 A2]; auto; [intros p P; destruct (B p (I p P)) as (? & ? & _); auto|].
  destruct (mean_bounds y2 y0 y1 m (y2 c) N) as [A3 A4]; auto; [intros p P; destruct (B p (I p P)) as (_ & _ & ? & ?); auto].
Qed.
(** computed in doubles, it may leave the vertices' box: three points of abscissa 0.1 *)
Definition tenth : dbl := ddiv (dofZ 1) (dofZ 10).
Definition post : list p2 := [P2 (qd tenth) 0; P2 (qd tenth) 1; P2 (qd tenth) (qz 2)].
Theorem C72_rounding_refuted : exists l c x1, l <> [] /\ (forall p, In p l -> (x2 p <= x1)%Qc) /\ centroid doubles l = Ok c /\ (x1 < qd (fst c))%Qc.
Proof.
  exists post. eexists. exists (qd tenth). split; [discriminate|]. split; [|split; [vm_compute; reflexivity|apply Qcltb_lt; vm_compute; reflexivity]].
  intros p [<-|[<-|[<-|[]]]]; apply Qcle_refl.
Qed.
Lemma at_point (r : outcome (Qc * Qc)) x y : match r with Ok c => Qceqb (fst c) x && Qceqb (snd c) y | _ => false end = true -> r = Ok (x, y).
Proof. destruct r as [[u w]| |]; try discriminate. intros E. apply andb_true_iff in E. destruct E as [X Y]. apply Qceqb_eq in X, Y. cbn [fst snd] in *. now subst. Qed.
(** it is not the centre of mass: (0, 0), (2, 0), (4, 0), (0, 4) *)
Definition sail : list p2 := [P2 0 0; P2 (qz 2) 0; P2 (qz 4) 0; P2 0 (qz 4)].
Theorem C72_area_refuted : exists l c d, centroid exact l = Ok (x2 c, y2 c) /\ mass_centre l d /\ c <> d.
Proof.
  exists sail, (P2 (qz 3 / qz 2) 1)%Qc, (P2 (qz 4 / qz 3) (qz 4 / qz 3))%Qc. split; [apply at_point; vm_compute; reflexivity|]. split.
  - split; [intros E; apply Qceqb_eq in E; vm_compute in E; discriminate|]. split; apply Qceqb_eq; vm_compute; reflexivity.
  - intros E. apply (f_equal x2) in E. cbn [x2] in E. apply Qceqb_eq in E. vm_compute in E. discriminate.
Qed.
Example C72_example : sail <> [] /\ centroid exact sail = Ok (qz 3 / qz 2, 1)%Qc /\ centroid exact (P2 0 0 :: sail) = Ok (qz 3 / qz 2, 1)%Qc /\ centroid doubles sail = Ok (ddiv (dofZ 3) (dofZ 2), dofZ 1).
Proof. split; [discriminate|]. split; [apply at_point; vm_compute; reflexivity|]. split; [apply at_point; vm_compute; reflexivity|]. vm_compute. reflexivity. Qed.
