(** * C97: heights at points with double coordinates. *)
From Verif Require Import Base Dbl Geom Decimal Rn_proofs Shadow Handlers Surface Spec_surface Projection Spec_projection Raster Height Spec_text Spec_num Spec_arith Float_proofs Arith_proofs Nearest_proofs Dq_proofs Sum_proofs.
From Verif Require Props_projection.
From Verif Require Import Strip Projection_proofs Print_proofs.
From Coq Require Import QArith Qabs Qcanon Lqa Lia.
From Verif Require Import Round_proofs.
Open Scope nat_scope.

(** ** Vocabulary *)
(** the point with double coordinates [p] is the point [q] of the plane *)
Definition is_at (p : dbl * dbl) (q : p2) : Prop := represents (fst p) (this (x2 q)) /\ represents (snd p) (this (y2 q)).
Definition on_facet (K : kernel) (f : face2) (p : p2) : Prop := covered K (f_border f) p.

Lemma represents_qd z q : represents z (this q) -> qd z = q /\ dfinite z = true /\ dvalid z = true.
Proof.
  intros (V & v & D & E). destruct z as [s| | |s m e]; try discriminate.
  - split; [|auto]. injection D as <-. apply Qc_is_canon. exact E.
  - split; [|auto]. apply Qc_is_canon. rewrite qd_val. rewrite dvalue_finite in D. injection D as <-. rewrite <- E. destruct s; unfold sg, zq, qz; ring.
Qed.
Lemma at_exact p q : is_at p q -> exact_p2 p = Ok q.
Proof.
  intros [X Y]. apply represents_qd in X as (X & Fx & _). apply represents_qd in Y as (Y & Fy & _). unfold exact_p2. rewrite Fx, Fy, X, Y. cbn [andb]. now destruct q.
Qed.
(** ** contains *)
Theorem C97_contains : forall K f b p q, is_at p q ->
  (exists c, iface_contains K f p = Ok c /\ (c = true <-> on_facet K f q)) /\
  (exists c, ibrick_contains K b p = Ok c /\ (c = true <-> exists g, In g (br_facets b) /\ on_facet K g q)).
Proof.
  intros K f b p q A. unfold iface_contains, ibrick_contains. rewrite (at_exact p q A). cbn [bind]. split; (eexists; split; [reflexivity|]).
  - apply contains_covered.
  - unfold brick_contains. rewrite existsb_exists. split; intros (g & I & H); exists g; (split; [auto|]); now apply contains_covered.
Qed.
Theorem C97_not_finite : forall K f b p, dfinite (fst p) = false \/ dfinite (snd p) = false ->
  iface_contains K f p = UB /\ ibrick_contains K b p = UB /\ iface_height K f p = UB /\ ibrick_height K b p = UB.
Proof.
  intros K f b p N. assert (exact_p2 p = UB) as E by (unfold exact_p2; destruct N as [-> | ->]; [reflexivity|now rewrite andb_false_r]).
  unfold iface_height, ibrick_height, iface_contains, ibrick_contains. rewrite E. auto.
Qed.

(** ** When the plane counts as vertical *)
Definition eps : Q := pw 2 (-52).
Lemma eps_double : dq epsilon = S754_finite false 4503599627370496 (-104).
Proof. vm_compute. reflexivity. Qed.
Lemma small_double m e s : dvalid (S754_finite s m e) = true -> (qz (Zpos m) * pw 2 e < eps)%Q -> (qz (Zpos m) * pw 2 e <= eps - pw 2 (-105))%Q /\ ((qz (Zpos m) * pw 2 e == eps - pw 2 (-105))%Q -> Z.even (Zpos m) = false).
Proof.
  intros V L. destruct (dvalid_bounds _ _ _ V) as (E & _ & B). pose proof (Z.log2_nonneg (Zpos m)) as Ln.
  assert (e <= -105)%Z as Le.
  { destruct (Z.le_gt_cases e (-105)) as [|G]; auto. exfalso. assert (Z.log2 (Zpos m) = 52)%Z as Lg by lia. assert (2 ^ 52 <= Zpos m)%Z as Lm by (destruct (Z.log2_spec (Zpos m) ltac:(lia)) as [A _]; rewrite Lg in A; exact A).
    assert (qz (2 ^ 52) <= qz (Zpos m))%Q as Q1 by (exact (proj1 (qz_le _ _) Lm)). assert (pw 2 (-104) <= pw 2 e)%Q as Q2 by (apply pw_le; lia).
    assert (eps == qz (2 ^ 52) * pw 2 (-104))%Q as Ee by reflexivity. rewrite Ee in L.
    apply (Qlt_not_le _ _ L). refine (Qle_trans _ _ _ (Qmult_le_compat_r _ _ (pw 2 (-104)) Q1 (Qlt_le_weak _ _ (pw_pos 2 (-104) eq_refl))) _).
    rewrite !(Qmult_comm (qz (Zpos m))). refine (Qmult_le_compat_r _ _ _ Q2 _). change 0%Q with (qz 0). apply (proj1 (qz_le _ _)). lia. }
  assert (eps - pw 2 (-105) == qz (2 ^ 53 - 1) * pw 2 (-105))%Q as Ee by reflexivity.
  assert (pw 2 e <= pw 2 (-105))%Q as Q2 by (apply pw_le; lia). pose proof (pw_pos 2 e ltac:(lia)) as P. assert (qz (Zpos m) <= qz (2 ^ 53 - 1))%Q as Q1 by (apply (proj1 (qz_le _ _)); lia).
  assert (0 <= qz (Zpos m))%Q as Pm by (change 0%Q with (qz 0); apply (proj1 (qz_le _ _)); lia).
  assert (qz (Zpos m) * pw 2 e <= qz (Zpos m) * pw 2 (-105))%Q as Q4 by (rewrite !(Qmult_comm (qz (Zpos m))); refine (Qmult_le_compat_r _ _ _ Q2 Pm)).
  assert (qz (Zpos m) * pw 2 (-105) <= qz (2 ^ 53 - 1) * pw 2 (-105))%Q as Q5 by (exact (Qmult_le_compat_r _ _ (pw 2 (-105)) Q1 (Qlt_le_weak _ _ (pw_pos 2 (-105) eq_refl)))).
  split; [rewrite Ee; eapply Qle_trans; [exact Q4|exact Q5]|].
  rewrite Ee. intros X. assert (qz (2 ^ 53 - 1) <= qz (Zpos m))%Q as Q3.
  { apply (Qmult_le_r _ _ (pw 2 (-105))); [reflexivity|]. rewrite <- X. exact Q4. }
  apply (proj2 (qz_le _ _)) in Q3. assert (Zpos m = 2 ^ 53 - 1)%Z as -> by lia. reflexivity.
Qed.
(** against the double of value [v] on the side of [c] *)
Lemma nearest_against c d m e : nearest_double c d -> dvalid (S754_finite false m e) = true -> let v := (qz (Zpos m) * pw 2 e)%Q in
  (Qabs (dval d - c) <= Qabs (v - Qabs c))%Q /\ ((Qabs (dval d - c) == Qabs (v - Qabs c))%Q -> ~ (Qabs (dval d) == v)%Q -> even_mantissa d).
Proof.
  intros [R H] V v. pose proof (fin_pos m e) as P. fold v in P. destruct (Qlt_le_dec c 0) as [L|L].
  - destruct (H (S754_finite true m e)) as [A B]; [now split|]. rewrite dval_finite in A, B. fold v in A, B.
    assert (Qabs (-1 * v - c) == Qabs (v - Qabs c))%Q as E. { rewrite (Qabs_neg c) by lra. setoid_replace (-1 * v - c)%Q with (- (v - - c))%Q by ring. apply Qabs_opp. }
    rewrite E in A, B. split; auto. intros X N. apply B; auto. intros Y. apply N. rewrite Y. setoid_replace (-1 * v)%Q with (- v)%Q by ring. rewrite Qabs_opp. apply Qabs_pos. lra.
  - destruct (H (S754_finite false m e)) as [A B]; [now split|]. rewrite dval_finite in A, B. fold v in A, B.
    assert (Qabs (1 * v - c) == Qabs (v - Qabs c))%Q as E. { rewrite (Qabs_pos c) by lra. setoid_replace (1 * v - c)%Q with (v - c)%Q by ring. reflexivity. }
    rewrite E in A, B. split; auto. intros X N. apply B; auto. intros Y. apply N. rewrite Y. setoid_replace (1 * v)%Q with v by ring. apply Qabs_pos. lra.
Qed.
Lemma small_real d : real_double d -> (Qabs (dval d) < eps)%Q -> (Qabs (dval d) <= eps - pw 2 (-105))%Q /\ ((Qabs (dval d) == eps - pw 2 (-105))%Q -> ~ even_mantissa d).
Proof.
  intros [V F] L. destruct d as [s| | |s m e]; try discriminate.
  - split; [now vm_compute|]. intros E. exfalso. vm_compute in E. discriminate.
  - assert (Qabs (dval (S754_finite s m e)) == qz (Zpos m) * pw 2 e)%Q as E. { pose proof (fin_pos m e). rewrite dval_finite. destruct s; [rewrite Qabs_neg by lra; ring|rewrite Qabs_pos by lra; ring]. }
    rewrite E in *. destruct (small_double m e s V L) as [A B]. split; auto. intros X. apply B in X. unfold even_mantissa. congruence.
Qed.
Lemma below_eps c d : nearest_double c d -> ((Qabs (dval d) < eps)%Q <-> (Qabs c < eps - pw 2 (-106))%Q).
Proof.
  intros N. pose proof (proj1 N) as R. pose proof (Qabs_triangle_reverse (dval d) c) as T1. pose proof (Qabs_triangle_reverse c (dval d)) as T2.
  assert (Qabs (c - dval d) == Qabs (dval d - c))%Q as Sy by (setoid_replace (c - dval d)%Q with (- (dval d - c))%Q by ring; apply Qabs_opp). rewrite Sy in T2.
  assert (pw 2 (-105) == 2 * pw 2 (-106))%Q as E105 by reflexivity. assert (0 < pw 2 (-106))%Q as P106 by reflexivity. assert (2 * pw 2 (-106) < eps)%Q as Pe by reflexivity. split; intros H.
  - apply Qnot_le_lt. intros G. destruct (small_real d R H) as [A B].
    destruct (nearest_against c d 4503599627370496 (-104) N eq_refl) as [C D]. cbv zeta in C, D. assert (qz (Zpos 4503599627370496) * pw 2 (-104) == eps)%Q as Ev by reflexivity. rewrite Ev in C, D. rewrite E105 in A, B.
    generalize dependent (pw 2 (-106)). intros w. clear Ev. generalize dependent eps. intros p. intros.
    destruct (Qlt_le_dec (Qabs c) p) as [L|L].
    + rewrite (Qabs_pos (p - Qabs c)) in C, D by lra. apply B; [lra|]. apply D; lra.
    + rewrite (Qabs_neg (p - Qabs c)) in C by lra. lra.
  - apply Qnot_le_lt. intros G.
    destruct (nearest_against c d 9007199254740991 (-105) N eq_refl) as [C _]. cbv zeta in C. assert (qz (Zpos 9007199254740991) * pw 2 (-105) == eps - 2 * pw 2 (-106))%Q as Ev by reflexivity. rewrite Ev in C.
    clear E105 Ev. generalize dependent (pw 2 (-106)). intros w. generalize dependent eps. intros p. intros.
    destruct (Qlt_le_dec (Qabs c) (p - 2 * w)) as [L|L].
    + rewrite (Qabs_pos (p - 2 * w - Qabs c)) in C by lra. lra.
    + rewrite (Qabs_neg (p - 2 * w - Qabs c)) in C by lra. lra.
Qed.
Lemma dabs_real d : real_double d -> real_double (dabs d) /\ (this (qd (dabs d)) == Qabs (dval d))%Q.
Proof.
  intros [V F]. destruct d as [s| | |s m e]; try discriminate; [split; [now split|reflexivity]|]. split; [split; [exact V|reflexivity]|]. pose proof (fin_pos m e).
  change (dabs (S754_finite s m e)) with (S754_finite false m e). rewrite qd_val, dval_finite. unfold zq. change (inject_Z (Zpos m)) with (qz (Zpos m)). destruct s; [rewrite Qabs_neg by lra|rewrite Qabs_pos by lra]; ring.
Qed.
(** get_plane_height at a point with double coordinates throws exactly when |c|, rounded, is below
    2^-52: not only on vertical planes, as get_plane_height at an exact point does *)
Theorem C97_vertical : forall f p, iplane_height doubles f p = Throw OverflowError <-> (Qabs (this (pl_c (f_plane f))) < / inject_Z (2 ^ 52) - / inject_Z (2 ^ 106))%Q.
Proof.
  intros f p. unfold iplane_height. cbn [n_ltb n_abs n_ofq doubles]. set (c := pl_c (f_plane f)).
  assert (/ inject_Z (2 ^ 52) - / inject_Z (2 ^ 106) == eps - pw 2 (-106))%Q as -> by reflexivity.
  destruct (dq_correct c) as [A B]. destruct (Qlt_le_dec (Qabs (this c)) (inject_Z (2 ^ 1024 - 2 ^ 970))) as [I|I].
  - specialize (A I). pose proof (below_eps _ _ A) as E. pose proof (proj1 A) as R. destruct (dabs_real _ R) as [[V F] Q].
    assert (dltb (dabs (dq c)) (dq epsilon) = true <-> Qabs (dval (dq c)) < eps)%Q as D.
    { rewrite dltb_qd; [|exact V|apply dq_valid|exact F|reflexivity]. unfold Qclt. rewrite Q. assert (this (qd (dq epsilon)) == eps)%Q as -> by (rewrite eps_double; reflexivity). tauto. }
    rewrite <- E, <- D. destruct (dltb (dabs (dq c)) (dq epsilon)); split; intros H; auto; discriminate.
  - assert (dq c = S754_infinity (Qnum (this c) <? 0)%Z) as -> by (apply B; unfold in_range; now apply Qle_not_lt). rewrite eps_double. change (dltb (dabs (S754_infinity _)) (S754_finite false 4503599627370496 (-104))) with false.
    split; intros H; [discriminate|]. exfalso. apply (Qlt_not_le _ _ H). eapply Qle_trans; [|exact I]. apply Qle_bool_iff. vm_compute. reflexivity.
Qed.

(** ** The value *)
Lemma ddiv_dq x y p q h : represents x p -> represents y q -> ~ (q == 0)%Q -> (this h == p / q)%Q -> h <> 0%Qc -> ddiv x y = dq h.
Proof.
  intros X Y Q E N. assert (~ p == 0)%Q as P. { intros Z. apply N. apply Qc_is_canon. change (this 0%Qc) with 0%Q. rewrite E, Z. field. auto. }
  destruct (represents_finite y q Y Q) as (t & n & f & -> & W & F). destruct (represents_finite x p X P) as (s & m & e & -> & V & G).
  destruct (fin_rat m e) as (a & b & Ha & Hb & R). destruct (fin_rat n f) as (a' & b' & Ha' & Hb' & R'). pose proof (fin_pos n f) as Pn. pose proof (fin_pos m e) as Pm.
  pose proof (qz_pos a' Ha') as Pa. pose proof (qz_pos b' Hb') as Pb. pose proof (qz_pos b Hb) as Pb0.
  assert (rat (a * b') (b * a') == (qz (Zpos m) * pw 2 e) / (qz (Zpos n) * pw 2 f))%Q as RR. { rewrite <- R, <- R'. unfold rat. rewrite !qz_mul. field. lra. }
  rewrite (ddiv_rn64 s m e t n f (a * b') (b * a') ltac:(lia) ltac:(lia) RR). destruct (dq_rn64 h N) as (-> & Pz & Rz).
  set (A := (qz (Zpos m) * pw 2 e)%Q) in *. set (B := (qz (Zpos n) * pw 2 f)%Q) in *. clearbody A B.
  assert (0 < A / B)%Q as PAB by (apply Qlt_shift_div_l; lra).
  assert (this h == sg (xorb s t) * (A / B))%Q as Eh. { rewrite E, G, F. destruct s, t; unfold sg; cbn [xorb]; field; lra. }
  assert ((Qnum (this h) <? 0)%Z = xorb s t) as ->.
  { assert ((Qnum (this h) < 0)%Z <-> (this h < 0)%Q) as Sg by (unfold Qlt; cbn [Qnum Qden]; lia). destruct (xorb s t); unfold sg in Eh.
    - apply Z.ltb_lt, Sg. rewrite Eh. lra.
    - apply Z.ltb_ge. apply Z.nlt_ge. intros L. apply Sg in L. rewrite Eh in L. lra. }
  apply rn64_ext; auto; try lia. rewrite RR, Rz, Eh. destruct (xorb s t); unfold sg; [rewrite Qabs_neg by lra; ring|rewrite Qabs_pos by lra; ring].
Qed.
Lemma this_gz a : (this (Geom.qz a) == inject_Z a)%Q.
Proof. unfold Geom.qz. apply this_Q2Qc. Qed.
Lemma dq_int a : (Z.abs a < 2 ^ 53)%Z -> is_int (dq (Geom.qz a)) a.
Proof.
  intros L. destruct (int_double a L) as [x X]. unfold is_int in *. destruct (Qc_eq_dec (Geom.qz a) 0) as [E|N].
  - rewrite E. eapply represents_ext; [|apply represents_zero]. pose proof (this_gz a) as T. rewrite E in T. exact T.
  - destruct (dq_rn64 _ N) as (-> & P & R). apply (rn64_represents _ _ _ x); auto; [lia|]. rewrite R.
    assert ((Qnum (this (Geom.qz a)) < 0)%Z <-> (this (Geom.qz a) < 0)%Q) as Sg by (unfold Qlt; cbn [Qnum Qden]; lia). assert ((this (Geom.qz a) < 0)%Q <-> (a < 0)%Z) as Sa by (rewrite this_gz; change 0%Q with (inject_Z 0); now rewrite <- Zlt_Qlt).
    unfold sg. destruct (Z.ltb_spec (Qnum (this (Geom.qz a))) 0) as [H|H]; rewrite this_gz.
    + rewrite Qabs_neg; [ring|]. change 0%Q with (inject_Z 0). rewrite <- Zle_Qle. apply Sg, Sa in H. lia.
    + rewrite Qabs_pos; [ring|]. change 0%Q with (inject_Z 0). rewrite <- Zle_Qle. assert (~ a < 0)%Z by (rewrite <- Sa, <- Sg; lia). lia.
Qed.
(** planes with integer coefficients over points with integer coordinates: no rounding but that of
    the quotient *)
Definition int_plane (pl : plane) (a b c d : Z) : Prop := pl = mkPlane (Geom.qz a) (Geom.qz b) (Geom.qz c) (Geom.qz d).
Definition fits (a b c d X Y : Z) : Prop := (c <> 0 /\ Z.abs a < 2 ^ 53 /\ Z.abs b < 2 ^ 53 /\ Z.abs c < 2 ^ 53 /\ Z.abs d + Z.abs (a * X) + Z.abs (b * Y) < 2 ^ 53)%Z.
Lemma iplane_int f x y a b c d X Y h : int_plane (f_plane f) a b c d -> fits a b c d X Y -> is_int x X -> is_int y Y -> on_plane (f_plane f) (P3 (Geom.qz X) (Geom.qz Y) h) ->
  exists z, iplane_height doubles f (x, y) = Ok z /\ (h <> 0%Qc -> z = dq h) /\ (h = 0%Qc -> exists s, z = S754_zero s).
Proof.
  intros Pl (C0 & Ba & Bb & Bc & Bs) Hx Hy On.
  destruct (iplane_height doubles f (x, y)) as [z|er|] eqn:E.
  - exists z. split; auto. unfold iplane_height in E. cbn [n_ltb n_abs n_ofq n_div n_sub n_mul n_of doubles fst snd] in E. destruct (dltb _ _); [discriminate|]. apply Ok_inj in E.
    unfold int_plane in Pl. rewrite Pl in *. unfold on_plane in On. cbn [pl_a pl_b pl_c pl_d x3 y3 z3] in *.
    assert (is_int (dmul (dofZ (-1)) (dq (Geom.qz d))) (-1 * d)) as I1 by (apply int_mul; [|apply dq_int; lia|lia]; split; [reflexivity|eexists; split; [reflexivity|reflexivity]]).
    assert (is_int (dmul (dq (Geom.qz a)) x) (a * X)) as I2 by (apply int_mul; auto; [now apply dq_int|lia]).
    assert (is_int (dmul (dq (Geom.qz b)) y) (b * Y)) as I3 by (apply int_mul; auto; [now apply dq_int|lia]).
    pose proof (int_sub _ _ _ _ I1 I2 ltac:(lia)) as I4. pose proof (int_sub _ _ _ _ I4 I3 ltac:(lia)) as I5. pose proof (dq_int c Bc) as Ic.
    set (n := (-1 * d - a * X - b * Y)%Z) in *. assert (~ inject_Z c == 0)%Q as Nc by (change 0%Q with (inject_Z 0); rewrite inject_Z_injective; auto).
    assert (this h == inject_Z n / inject_Z c)%Q as Eh.
    { assert (Geom.qz c * h = Geom.qz n)%Qc as Ec.
      { assert (forall u v, Geom.qz (u - v) = Geom.qz u - Geom.qz v)%Qc as Zs. { intros u v. apply Qc_is_canon. unfold Qcminus, Qcopp, Qcplus. rewrite !this_Q2Qc, !this_gz. unfold Z.sub. rewrite inject_Z_plus, inject_Z_opp. reflexivity. }
        assert (forall u v, Geom.qz (u * v) = Geom.qz u * Geom.qz v)%Qc as Zm. { intros u v. apply Qc_is_canon. unfold Qcmult. rewrite !this_Q2Qc, !this_gz. now rewrite inject_Z_mult. }
        unfold n. rewrite !Zs, !Zm. replace (Geom.qz (-1)) with (- (1))%Qc by (apply Qc_is_canon; reflexivity). match goal with |- ?l = ?r => replace l with (l - 0)%Qc by ring end. rewrite <- On. ring. }
      assert (inject_Z c * this h == inject_Z n)%Q as Eq. { rewrite <- (this_gz n), <- Ec. unfold Qcmult. rewrite this_Q2Qc, this_gz. reflexivity. }
      rewrite <- Eq. field. auto. }
    subst z. split; intros H.
    + exact (ddiv_dq _ _ _ _ h I5 Ic Nc Eh H).
    + apply represents_zero_inv. apply (represents_ext _ (inject_Z n / inject_Z c)); [rewrite <- Eh, H; reflexivity|]. apply ddiv_exact; auto. exists dzero. apply (represents_ext _ 0%Q); [rewrite <- Eh, H; reflexivity|apply represents_zero].
  - exfalso. assert (er = OverflowError) as -> by (unfold iplane_height in E; destruct (n_ltb _ _ _); [congruence|discriminate]). apply C97_vertical in E. unfold int_plane in Pl. rewrite Pl in E. cbn [pl_c] in E. rewrite this_gz in E.
    assert (1 <= Qabs (inject_Z c))%Q as G. { change (Qabs (inject_Z c)) with (inject_Z (Z.abs c)). change 1%Q with (inject_Z 1). rewrite <- Zle_Qle. lia. }
    apply (Qlt_not_le _ _ E). eapply Qle_trans; [|exact G]. apply Qle_bool_iff. vm_compute. reflexivity.
  - exfalso. unfold iplane_height in E. destruct (n_ltb _ _ _); discriminate.
Qed.
Theorem C97_height : forall f x y a b c d X Y h, int_plane (f_plane f) a b c d -> fits a b c d X Y -> is_int x X -> is_int y Y -> on_plane (f_plane f) (P3 (Geom.qz X) (Geom.qz Y) h) ->
  exists z, iplane_height doubles f (x, y) = Ok z /\ nearest_double (this h) z.
Proof.
  intros f x y a b c d X Y h Pl Ft Hx Hy On. destruct (iplane_int f x y a b c d X Y h Pl Ft Hx Hy On) as (z & E & A & B). exists z. split; auto.
  destruct (Qc_eq_dec h 0) as [->|N].
  - destruct (B eq_refl) as [s ->]. apply (nearest_self (S754_zero s)). now split.
  - rewrite (A N). apply dq_correct. unfold in_range. unfold int_plane in Pl. rewrite Pl in On. unfold on_plane in On. cbn [pl_a pl_b pl_c pl_d x3 y3 z3] in On. destruct Ft as (C0 & Ba & Bb & Bc & Bs).
    assert (Qabs (this h) <= inject_Z (2 ^ 53))%Q as Bh; [|eapply Qle_lt_trans; [exact Bh|reflexivity]].
    assert (inject_Z c * this h == inject_Z (- d - a * X - b * Y))%Q as Eq.
    { assert (this (Geom.qz a * Geom.qz X + Geom.qz b * Geom.qz Y + Geom.qz c * h + Geom.qz d)%Qc == 0)%Q as O by (rewrite On; reflexivity).
      unfold Qcplus, Qcmult in O. rewrite !this_Q2Qc, !this_gz in O. unfold Z.sub. rewrite !inject_Z_plus, !inject_Z_opp, !inject_Z_mult. lra. }
    assert (Qabs (inject_Z c) * Qabs (this h) == Qabs (inject_Z (- d - a * X - b * Y)))%Q as Ea by (rewrite <- Qabs_Qmult, Eq; reflexivity).
    change (Qabs (inject_Z c)) with (inject_Z (Z.abs c)) in Ea. change (Qabs (inject_Z (- d - a * X - b * Y))) with (inject_Z (Z.abs (- d - a * X - b * Y))) in Ea. assert (inject_Z 1 <= inject_Z (Z.abs c))%Q as L1 by (rewrite <- Zle_Qle; lia). assert (inject_Z (Z.abs (- d - a * X - b * Y)) <= inject_Z (2 ^ 53))%Q as L2 by (rewrite <- Zle_Qle; lia).
    pose proof (Qabs_nonneg (this h)) as Ph. rewrite <- Ea in L2. eapply Qle_trans; [|exact L2]. assert (1 * Qabs (this h) <= inject_Z (Z.abs c) * Qabs (this h))%Q as L3 by (apply Qmult_le_compat_r; auto). rewrite Qmult_1_l in L3. exact L3.
Qed.

(** ** get_height of a facet print *)
Lemma dmul_one z : dvalid z = true -> dmul (dofZ 1) z = z.
Proof.
  intros V. destruct z as [s|s| |s m e]; try (destruct s; reflexivity); [reflexivity|]. destruct (fin_rat m e) as (a & b & Ha & Hb & R). rewrite one_double.
  rewrite (dmul_rn64 false 4503599627370496 (-52) s m e a b); auto.
  - rewrite (rn64_exact (xorb false s) a b m e); [now destruct s| | | |]; auto.
  - rewrite R. assert (qz (Zpos 4503599627370496) * pw 2 (-52) == 1)%Q as -> by reflexivity. ring.
Qed.
Lemma dmul_zero z : real_double z -> exists s, dmul (dofZ 0) z = S754_zero s.
Proof. intros [V F]. destruct z as [s| | |s m e]; try discriminate; eexists; reflexivity. Qed.
Lemma face_at K f p q : is_at p q -> iface_height K f p = let* z := iplane_height doubles f p in Ok (dmul (dofZ (if negb (is_degenerate K f) && face_contains K f q then 1 else 0)) z).
Proof. intros A. unfold iface_height, iface_contains. rewrite (at_exact p q A). reflexivity. Qed.
(** on the facet, the height of the plane; elsewhere, and on degenerate facets, a zero as long as the
    height of the plane is finite; the exception of get_plane_height wherever the point is *)
Theorem C97_face : forall K f p q, is_at p q ->
  (iplane_height doubles f p = Throw OverflowError -> iface_height K f p = Throw OverflowError) /\
  (forall z, iplane_height doubles f p = Ok z -> dvalid z = true -> on_facet K f q -> is_degenerate K f = false -> iface_height K f p = Ok z) /\
  (forall z, iplane_height doubles f p = Ok z -> real_double z -> ~ on_facet K f q \/ is_degenerate K f = true -> exists s, iface_height K f p = Ok (S754_zero s)) /\
  (forall z, iplane_height doubles f p = Ok z -> dfinite z = false -> ~ on_facet K f q \/ is_degenerate K f = true -> iface_height K f p = Ok S754_nan).
Proof.
  intros K f p q A. rewrite (face_at K f p q A). assert (forall z, ~ on_facet K f q \/ is_degenerate K f = true -> (if negb (is_degenerate K f) && face_contains K f q then 1 else 0)%Z = z -> z = 0%Z) as N.
  { intros z [N|N] <-; [|now rewrite N]. destruct (face_contains K f q) eqn:E; [apply contains_covered in E; contradiction|]. now rewrite andb_false_r. }
  split; [|split; [|split]].
  - intros ->. reflexivity.
  - intros z -> V C D. cbn [bind]. rewrite D. apply contains_covered in C. rewrite C. cbn [negb andb]. now rewrite dmul_one.
  - intros z -> R H. cbn [bind]. rewrite (N _ H eq_refl). destruct (dmul_zero z R) as [s ->]. now exists s.
  - intros z -> F H. cbn [bind]. rewrite (N _ H eq_refl). destruct z; try discriminate; reflexivity.
Qed.
(** both overloads give the same number where the arithmetic of the second is exact *)
Theorem C97_overloads : forall K f x y a b c d X Y, (forall r, k_tod K r = qd (dq r)) -> int_plane (f_plane f) a b c d -> fits a b c d X Y -> is_int x X -> is_int y Y ->
  exists w z, face_height K f (P2 (Geom.qz X) (Geom.qz Y)) = Ok w /\ iface_height K f (x, y) = Ok z /\ represents z (this w).
Proof.
  intros K f x y a b c d X Y T Pl Ft Hx Hy. assert (is_at (x, y) (P2 (Geom.qz X) (Geom.qz Y))) as A by (split; cbn [fst snd x2 y2]; (eapply represents_ext; [symmetry; apply this_gz|assumption])).
  assert (pl_c (f_plane f) <> 0%Qc) as Nc. { unfold int_plane in Pl. rewrite Pl. cbn [pl_c]. intros E. destruct Ft as (C0 & _). apply C0. assert (this (Geom.qz c) == inject_Z 0)%Q as Z by (rewrite E; reflexivity). rewrite this_gz in Z. exact (proj1 (inject_Z_injective _ _) Z). }
  destruct (plane_height_exists f (P2 (Geom.qz X) (Geom.qz Y)) Nc) as (h & On). cbn [x2 y2] in On.
  destruct (iplane_int f x y a b c d X Y h Pl Ft Hx Hy On) as (z & E & Z1 & Z2). destruct (C97_height f x y a b c d X Y h Pl Ft Hx Hy On) as (z' & E' & Nz). rewrite E in E'. apply Ok_inj in E'. subst z'.
  assert (k_tod K h = qd z) as Tz. { rewrite T. destruct (Qc_eq_dec h 0) as [->|N]; [|now rewrite (Z1 N)]. destruct (Z2 eq_refl) as [s ->]. reflexivity. }
  assert (represents z (this (qd z))) as Rz. { destruct Nz as [[V F] _]. destruct z as [s| | |s m e]; try discriminate; [apply represents_zero|]. apply represents_intro; auto. rewrite qd_val. unfold sg, zq, qz. reflexivity. }
  unfold face_height. rewrite (plane_height_value K f (P2 (Geom.qz X) (Geom.qz Y)) h Nc On). cbn [bind]. rewrite (face_at K f _ _ A), E. cbn [bind].
  do 2 eexists. split; [reflexivity|]. split; [reflexivity|]. destruct (negb (is_degenerate K f) && face_contains K f (P2 (Geom.qz X) (Geom.qz Y))).
  - rewrite dmul_one by (apply (proj1 Nz)). now rewrite Tz.
  - destruct (dmul_zero z (proj1 Nz)) as [s ->]. apply represents_zero.
Qed.

(** ** get_height of a print *)
(** no facet below: zero; a facet that counts as vertical, below or not, makes it throw; otherwise
    the heights of all facets are added in order *)
Theorem C97_print : forall K b p q, is_at p q ->
  ((forall f, In f (br_facets b) -> ~ on_facet K f q) -> ibrick_height K b p = Ok dzero) /\
  ((exists f, In f (br_facets b) /\ on_facet K f q) -> (exists f, In f (br_facets b) /\ iplane_height doubles f p = Throw OverflowError) -> ibrick_height K b p = Throw OverflowError) /\
  ((exists f, In f (br_facets b) /\ on_facet K f q) -> forall zs, Forall2 (fun f z => iface_height K f p = Ok z) (br_facets b) zs -> ibrick_height K b p = Ok (fold_left dadd zs dzero)).
Proof.
  intros K b p q A. destruct (C97_contains K (mkFace2 0 (mkPoly [] []) (mkPlane 0 0 0 0)%Qc) b p q A) as [_ (c & E & C)]. unfold ibrick_height. rewrite E. cbn [bind]. split; [|split].
  - intros N. destruct c; auto. exfalso. destruct (proj1 C eq_refl) as (g & I & H). now apply (N g I).
  - intros H V. rewrite (proj2 C H). clear - A V. generalize dzero. destruct V as (f & I & V). induction (br_facets b) as [|g l IH]; [destruct I|]. intros t. cbn [ofold].
    destruct (iface_height K g p) as [z|e|] eqn:E; cbn [bind].
    + destruct I as [->|I]; [|now apply IH]. exfalso. rewrite (proj1 (C97_face K f p q A) V) in E. discriminate.
    + f_equal. rewrite (face_at K g p q A) in E. unfold iplane_height in E. destruct (n_ltb _ _ _); cbn [bind] in E; congruence.
    + exfalso. rewrite (face_at K g p q A) in E. unfold iplane_height in E. destruct (n_ltb _ _ _); discriminate.
  - intros H zs F. rewrite (proj2 C H). clear - F. generalize dzero. induction F as [|f z l zs E F IH]; intros t; cbn [ofold fold_left]; auto. rewrite E. cbn [bind]. apply IH.
Qed.
(** integer heights are added exactly *)
Theorem C97_integers : forall K b p q zs ns, is_at p q -> (exists f, In f (br_facets b) /\ on_facet K f q) -> Forall2 (fun f z => iface_height K f p = Ok z) (br_facets b) zs ->
  Forall2 is_int zs ns -> (fold_right Z.add 0 (map Z.abs ns) < 2 ^ 53)%Z -> exists z, ibrick_height K b p = Ok z /\ is_int z (fold_right Z.add 0%Z ns).
Proof.
  intros K b p q zs ns A H F I L. eexists. split; [apply (C97_print K b p q A); eauto|].
  assert (forall zs ns t a, Forall2 is_int zs ns -> is_int t a -> (Z.abs a + fold_right Z.add 0 (map Z.abs ns) < 2 ^ 53)%Z -> is_int (fold_left dadd zs t) (a + fold_right Z.add 0 ns)%Z) as G.
  { clear. intros zs ns t a I. revert t a. induction I as [|z n zs ns Hz I IH]; intros t a T L; cbn [fold_left fold_right map] in *; [now rewrite Z.add_0_r|].
    rewrite Z.add_assoc. assert (0 <= fold_right Z.add 0 (map Z.abs ns))%Z by (clear; induction ns; cbn [map fold_right]; lia). apply IH; [apply int_add; auto; lia|lia]. }
  apply (G zs ns dzero 0%Z I); [apply represents_zero|]. exact L.
Qed.

(** ** Examples *)
(** facets over strips, and a kernel of strips whose to_double rounds to the nearest double *)
Definition over (a b : Z) (pl : plane) : face2 := mkFace2 0 (strip (Geom.qz a) (Geom.qz b)) pl.
Definition strips_d : kernel := mkKernel (k_side strips) (k_simple strips) (k_set strips) (k_none strips) (k_of strips) (k_join strips) (k_inter strips) (k_diff strips) (k_null strips) (k_pieces strips) (k_inter2 strips) (fun r => qd (dq r)) (fun r => qd (dq r)).
(** its sums are those of doubles: rounding leaves a double alone *)
Lemma rounded_twice r : qd (dq (qd (dq r))) = qd (dq r).
Proof.
  destruct (Qc_eq_dec (qd (dq r)) 0) as [->|N]; [reflexivity|]. f_equal. apply dq_qd; auto; [apply dq_valid|].
  destruct (dq r); try reflexivity; exfalso; apply N; reflexivity.
Qed.
Theorem strips_d_rnd : rnd_ok strips_d.
Proof. split; [reflexivity| |]; intros z; apply rounded_twice. Qed.
Definition tilted : face2 := over 0 2 (mkPlane (Geom.qz 1) 0 (Geom.qz 3) (Geom.qz (-5))).
Definition nearly_vertical : face2 := over 0 2 (mkPlane 0 0 (Q2Qc (1 # 2 ^ 60)) (Q2Qc (- 1 # 2 ^ 60))).
Definition steep : face2 := over 0 2 (mkPlane (Geom.qz (2 ^ 1000)) 0 1 0)%Qc.
Definition ground : face2 := over 0 (2 ^ 101) (mkPlane 0 0 1 (Geom.qz (-7)))%Qc.
Lemma strip_side_at a b x : (Geom.qz a <= x)%Qc -> (x <= Geom.qz b)%Qc -> covered strips (strip (Geom.qz a) (Geom.qz b)) (P2 x 0).
Proof. intros A B. apply (strip_covered (Geom.qz a, Geom.qz b)). unfold iout. cbn [fst snd x2 y2]. intros [H|[H|[H|H]]]; [now apply (Qclt_not_le _ _ H)|now apply (Qclt_not_le _ _ H)|discriminate|discriminate]. Qed.
(** x + 3z = 5 at (1, 0): the nearest double to 4/3 *)
Example C97_example : is_at (dofZ 1, dzero) (P2 (Geom.qz 1) 0) /\ int_plane (f_plane tilted) 1 0 3 (-5) /\ fits 1 0 3 (-5) 1 0 /\ is_int (dofZ 1) 1 /\ is_int dzero 0 /\
  on_facet strips_d tilted (P2 (Geom.qz 1) 0) /\ is_degenerate strips_d tilted = false /\ iface_height strips_d tilted (dofZ 1, dzero) = Ok (S754_finite false 6004799503160661 (-52)) /\
  ibrick_height strips_d (mkBrick None [tilted; tilted]) (dofZ 1, dzero) = Ok (S754_finite false 6004799503160661 (-51)).
Proof.
  split; [split; (split; [reflexivity|eexists; split; reflexivity])|]. split; [reflexivity|]. split; [vm_compute; repeat split; discriminate|].
  split; [split; [reflexivity|eexists; split; reflexivity]|]. split; [split; [reflexivity|eexists; split; reflexivity]|].
  split; [exact (strip_side_at 0 2 (Geom.qz 1) ltac:(discriminate) ltac:(discriminate))|]. repeat split.
Qed.
(** the overloads on a facet that is not vertical: the one gives its height, the other throws *)
Theorem C97_overloads_refuted : exists f p q, is_at p q /\ on_facet strips_d f q /\ face_height strips_d f q = Ok 1%Qc /\ iface_height strips_d f p = Throw OverflowError.
Proof.
  exists nearly_vertical, (dofZ 1, dzero), (P2 (Geom.qz 1) 0). split; [split; (split; [reflexivity|eexists; split; reflexivity])|]. split; [exact (strip_side_at 0 2 (Geom.qz 1) ltac:(discriminate) ltac:(discriminate))|].
  split; [|reflexivity]. assert (match face_height strips_d nearly_vertical (P2 (Geom.qz 1) 0) with Ok h => Qceqb h 1 | _ => false end = true) as E by (vm_compute; reflexivity).
  destruct (face_height _ _ _) as [h| |]; try discriminate. f_equal. now apply Qceqb_eq.
Qed.
(** a facet far from the point makes the height of a print over it not a number *)
Theorem C97_elsewhere_refuted : exists p q, is_at p q /\ on_facet strips_d ground q /\ ~ on_facet strips_d steep q /\
  ibrick_height strips_d (mkBrick None [ground]) p = Ok (dofZ 7) /\ ibrick_height strips_d (mkBrick None [ground; steep]) p = Ok S754_nan.
Proof.
  exists (dofZ (2 ^ 100), dzero), (P2 (Geom.qz (2 ^ 100)) 0). split; [split; (split; [reflexivity|eexists; split; reflexivity])|]. split; [exact (strip_side_at 0 (2 ^ 101) (Geom.qz (2 ^ 100)) ltac:(discriminate) ltac:(discriminate))|].
  split; [|split; vm_compute; reflexivity]. intros C. apply (strip_covered (Geom.qz 0, Geom.qz 2)) in C. apply C. right. left. reflexivity.
Qed.
(** ** C50 in doubles *)
(** two facets over the same ground, of heights 1 and 2^-60: the height of the print is the sum of
    both, rounded, which is 1 *)
Theorem C50_rounded_example : let b := mkBrick None [over 0 2 (mkPlane 0 0 1 (Geom.qz (-1)))%Qc; over 0 2 (mkPlane 0 0 1 (Q2Qc (- 1 # 2 ^ 60)))%Qc] in let p := P2 (Geom.qz 1) 0 in
  rnd_ok strips_d /\ (forall f, In f (br_facets b) -> ~ vertical (f_plane f)) /\
  exists zs, Forall2 (fun f z => height_is strips_d f p z) (filter (fun f => negb (is_degenerate strips_d f)) (seen strips_d b p)) zs /\
    brick_height strips_d b p = Ok (rounded_sum strips_d zs) /\ rounded_sum strips_d zs = 1%Qc /\ (1 < qsum zs)%Qc.
Proof.
  intros b p. split; [apply strips_d_rnd|]. assert (forall f, In f (br_facets b) -> ~ vertical (f_plane f)) as V by (intros f [<-|[<-|[]]]; discriminate). split; auto.
  assert (Forall2 (fun f z => height_is strips_d f p z) (filter (fun f => negb (is_degenerate strips_d f)) (seen strips_d b p)) [1%Qc; Q2Qc (1 # 2 ^ 60)]) as F.
  { assert (filter (fun f => negb (is_degenerate strips_d f)) (seen strips_d b p) = br_facets b) as -> by (vm_compute; reflexivity).
    assert (forall f z, match plane_height strips_d f p with Ok h => Qceqb h z | _ => false end = true -> height_is strips_d f p z) as X.
    { intros f z. unfold height_is. destruct (plane_height strips_d f p); try discriminate. intros E. apply Qceqb_eq in E. now subst. }
    constructor; [|constructor; [|constructor]]; apply X; vm_compute; reflexivity. }
  exists [1%Qc; Q2Qc (1 # 2 ^ 60)]. split; auto. split; [exact (proj2 (proj2 (Props_projection.C50_brick_height strips_d b p strips_d_rnd)) V _ F)|]. split; [apply Qceqb_eq; vm_compute; reflexivity|reflexivity].
Qed.
