(** * Arith_proofs: sums, differences, products and square roots of doubles are exact whenever
    the exact result is a double. *)
From Verif Require Import Base Dbl Dbl_facts Decimal Geom Raster Dq_proofs Round_proofs Rn_proofs Float_proofs Shadow Spec_arith.
From Verif Require Import Round_proofs.
From Coq Require Import QArith Qabs Lqa.
Open Scope Q_scope.

Lemma is_pw e : inject_Z 2 ^ e = pw 2 e.
Proof. reflexivity. Qed.
Definition sg (s : bool) : Q := if s then - (1) else 1.
Lemma dvalue_finite s m e : dvalue (S754_finite s m e) = Some (sg s * (qz (Zpos m) * pw 2 e)).
Proof. reflexivity. Qed.
Lemma fin_pos m e : 0 < qz (Zpos m) * pw 2 e.
Proof. pose proof (pw_pos 2 e ltac:(lia)). pose proof (qz_pos (Zpos m) ltac:(lia)). nra. Qed.
Lemma fin_rat m e : exists a b, (0 < a)%Z /\ (0 < b)%Z /\ rat a b == qz (Zpos m) * pw 2 e.
Proof. pose proof (frac_rat m e) as H. destruct (frac m e) as [a b]. exists a, b. exact H. Qed.
Lemma represents_ext x p q : p == q -> represents x p -> represents x q.
Proof. intros E (V & v & D & W). split; auto. exists v. split; auto. now rewrite W. Qed.
Lemma represents_unique x p q : represents x p -> represents x q -> p == q.
Proof. intros (_ & v & D & W) (_ & v' & D' & W'). rewrite D in D'. injection D' as <-. now rewrite <- W. Qed.
Lemma represents_zero_inv x : represents x 0 -> exists s, x = S754_zero s.
Proof.
  intros (_ & v & D & W). destruct x as [s| | |s m e]; try discriminate; eauto. rewrite dvalue_finite in D. injection D as <-. exfalso. pose proof (fin_pos m e). unfold sg in W. destruct s; lra.
Qed.
Lemma represents_zero s : represents (S754_zero s) 0.
Proof. split; auto. exists 0. split; auto. reflexivity. Qed.
Lemma represents_finite x q : represents x q -> ~ q == 0 -> exists s m e, x = S754_finite s m e /\ dvalid x = true /\ q == sg s * (qz (Zpos m) * pw 2 e).
Proof.
  intros (V & v & D & W) N. destruct x as [s| | |s m e]; try discriminate.
  - injection D as <-. now destruct N.
  - exists s, m, e. split; auto. split; auto. rewrite dvalue_finite in D. injection D as <-. now rewrite W.
Qed.
Lemma represents_intro s m e q : dvalid (S754_finite s m e) = true -> q == sg s * (qz (Zpos m) * pw 2 e) -> represents (S754_finite s m e) q.
Proof. intros V E. split; auto. eexists. split; [apply dvalue_finite|]. now rewrite E. Qed.
(** rounding a rational that is a double *)
Lemma rn64_represents s a b z q : (0 < a)%Z -> (0 < b)%Z -> represents z q -> q == sg s * rat a b -> represents (rn64 s a b) q.
Proof.
  intros Ha Hb R E. pose proof (rat_pos a b Ha Hb) as P. destruct (represents_finite z q R) as (t & m & e & -> & V & W); [unfold sg in E; destruct s; lra|].
  pose proof (fin_pos m e) as F. assert (s = t) as <- by (unfold sg in *; destruct s, t; auto; lra).
  assert (rat a b == qz (Zpos m) * pw 2 e) as X by (unfold sg in *; destruct s; lra). rewrite (rn64_exact s a b m e Ha Hb V X). now apply represents_intro.
Qed.

(** ** Products *)
Lemma dmul_rn64 s m e t n f a b : dvalid (S754_finite s m e) = true -> dvalid (S754_finite t n f) = true -> (0 < a)%Z -> (0 < b)%Z ->
  rat a b == (qz (Zpos m) * pw 2 e) * (qz (Zpos n) * pw 2 f) -> dmul (S754_finite s m e) (S754_finite t n f) = rn64 (xorb s t) a b.
Proof.
  intros V W Ha Hb E. apply dvalid_bounds in V as (V1 & V2 & V3). apply dvalid_bounds in W as (W1 & W2 & W3). unfold dmul, SFmul.
  assert (rat a b == qz (Zpos (m * n)) * pw 2 (e + f)) as E' by (rewrite E, pw_add by lia; rewrite Pos2Z.inj_mul, qz_mul; ring).
  apply round_aux_rn64; auto; [lia| |].
  - cbn [loc_ok]. rewrite E', <- Qmult_assoc, <- pw_add by lia. replace (e + f + - (e + f))%Z with 0%Z by lia. rewrite pw_0. ring.
  - assert (flog2 a b = Z.log2 (Zpos (m * n)) + (e + f))%Z as Ef by (apply (is_flog_unique 2 (rat a b)); [lia|apply flog2_spec; auto|eapply is_flog_ext; [symmetry; exact E'|apply is_flog_log2; lia]]).
    rewrite Ef. rewrite Pos2Z.inj_mul. pose proof (Z.log2_mul_below (Zpos m) (Zpos n) ltac:(lia) ltac:(lia)). pose proof (Z.log2_nonneg (Zpos m)). pose proof (Z.log2_nonneg (Zpos n)). lia.
Qed.
Theorem dmul_exact x y p q : represents x p -> represents y q -> (exists z, represents z (p * q)) -> represents (dmul x y) (p * q).
Proof.
  intros X Y [z Z]. destruct (Qeq_dec p 0) as [P|P].
  { destruct (represents_zero_inv x) as [s ->]; [now apply (represents_ext _ p)|]. apply (represents_ext _ 0); [rewrite P; ring|].
    destruct Y as (_ & v & D & _). destruct y; try discriminate; apply represents_zero. }
  destruct (Qeq_dec q 0) as [Q|Q].
  { destruct (represents_zero_inv y) as [s ->]; [now apply (represents_ext _ q)|]. apply (represents_ext _ 0); [rewrite Q; ring|].
    destruct X as (_ & v & D & _). destruct x; try discriminate; apply represents_zero. }
  destruct (represents_finite x p X P) as (s & m & e & -> & V & E). destruct (represents_finite y q Y Q) as (t & n & f & -> & W & F).
  destruct (fin_rat m e) as (a & b & Ha & Hb & R). destruct (fin_rat n f) as (a' & b' & Ha' & Hb' & R').
  assert (rat (a * a') (b * b') == (qz (Zpos m) * pw 2 e) * (qz (Zpos n) * pw 2 f)) as RR.
  { rewrite <- R, <- R'. unfold rat. rewrite !qz_mul. field. split; [pose proof (qz_pos b' Hb'); lra|pose proof (qz_pos b Hb); lra]. }
  rewrite (dmul_rn64 s m e t n f (a * a') (b * b') V W ltac:(lia) ltac:(lia) RR). apply (rn64_represents _ _ _ z); auto; try lia. rewrite RR, E, F. destruct s, t; unfold sg; cbn [xorb]; ring.
Qed.

(** ** Sums and differences *)
Lemma shl_align_value m e z : (z <= e)%Z -> qz (Zpos (fst (shl_align m e z))) * pw 2 z == qz (Zpos m) * pw 2 e.
Proof.
  intros L. unfold shl_align. destruct (z - e)%Z as [|d|d] eqn:E.
  - cbn [fst]. replace z with e by lia. reflexivity.
  - lia.
  - cbn [fst]. rewrite shift_pos_correct. change (Z.pow_pos 2 d) with (2 ^ Zpos d)%Z. rewrite qz_mul, <- pw_Z by lia. replace e with (Zpos d + z)%Z by lia. rewrite pw_add by lia. ring.
Qed.
Lemma cond_value s z : qz (cond_Zopp s z) == sg s * qz z.
Proof. destruct s; unfold sg; cbn [cond_Zopp]; [replace (- z)%Z with (0 - z)%Z by lia; rewrite qz_sub; change (qz 0) with 0; ring|ring]. Qed.
Lemma normalize_exact k e z q : represents z q -> q == qz k * pw 2 e -> represents (binary_normalize dprec demax k e false) q.
Proof.
  intros R E. destruct k as [|p|p]; cbn [binary_normalize].
  - apply (represents_ext _ 0); [rewrite E; change (qz 0) with 0; ring|apply represents_zero].
  - destruct (fin_rat p e) as (a & b & Ha & Hb & X). rewrite (binary_round_rn64 false p e a b Ha Hb X). apply (rn64_represents _ _ _ z); auto. rewrite X, E. unfold sg. ring.
  - destruct (fin_rat p e) as (a & b & Ha & Hb & X). rewrite (binary_round_rn64 true p e a b Ha Hb X). apply (rn64_represents _ _ _ z); auto. rewrite X, E. unfold sg.
    change (Zneg p) with (- Zpos p)%Z. replace (- Zpos p)%Z with (0 - Zpos p)%Z by lia. rewrite qz_sub. change (qz 0) with 0. ring.
Qed.
Theorem dadd_exact x y p q : represents x p -> represents y q -> (exists z, represents z (p + q)) -> represents (dadd x y) (p + q).
Proof.
  intros X Y [z Z]. destruct (Qeq_dec p 0) as [P|P].
  { destruct (represents_zero_inv x) as [s ->]; [now apply (represents_ext _ p)|]. apply (represents_ext _ q); [rewrite P; ring|].
    destruct y as [t| | |t n f]; auto. unfold dadd, SFadd. destruct (Bool.eqb s t); apply (represents_ext _ 0); try apply represents_zero; apply (represents_unique (S754_zero t)); auto; apply represents_zero. }
  destruct (Qeq_dec q 0) as [Q|Q].
  { destruct (represents_zero_inv y) as [s ->]; [now apply (represents_ext _ q)|]. apply (represents_ext _ p); [rewrite Q; ring|].
    destruct x as [t| | |t n f]; auto. exfalso. apply P. apply (represents_unique (S754_zero t)); auto; apply represents_zero. }
  destruct (represents_finite x p X P) as (s & m & e & -> & V & E). destruct (represents_finite y q Y Q) as (t & n & f & -> & W & F).
  unfold dadd, SFadd. cbv zeta. apply (normalize_exact _ _ z); auto. rewrite qz_add, !cond_value, Qmult_plus_distr_l, <- !Qmult_assoc, !shl_align_value by lia. now rewrite E, F.
Qed.
Lemma dopp_represents x p : represents x p -> represents (dopp x) (- p).
Proof.
  intros (V & v & D & W). split; [destruct x; exact V|]. destruct x as [s| | |s m e]; try discriminate.
  - injection D as <-. exists 0. split; [reflexivity|]. rewrite <- W. reflexivity.
  - rewrite dvalue_finite in D. injection D as <-. unfold dopp, SFopp. eexists. split; [apply dvalue_finite|]. rewrite <- W. destruct s; unfold sg; cbn [negb]; ring.
Qed.
Lemma dsub_dadd x y : dsub x y = dadd x (dopp y).
Proof.
  destruct x as [s|s| |s m e], y as [t|t| |t n f]; try reflexivity; unfold dsub, dadd, dopp, SFsub, SFadd, SFopp; auto. cbv zeta. f_equal. destruct t; cbn [negb cond_Zopp]; lia.
Qed.
Theorem dsub_exact x y p q : represents x p -> represents y q -> (exists z, represents z (p - q)) -> represents (dsub x y) (p - q).
Proof. intros X Y Z. rewrite dsub_dadd. apply dadd_exact; auto. now apply dopp_represents. Qed.

(** ** Integers below 2^53 *)
Lemma pos_double p : (Zpos p < 2 ^ 53)%Z -> exists m e, dvalid (S754_finite false m e) = true /\ qz (Zpos p) == qz (Zpos m) * pw 2 e.
Proof.
  intros L. assert (Z.log2 (Zpos p) <= 52)%Z as B by (assert (Z.log2 (Zpos p) < 53)%Z by (apply Z.log2_lt_pow2; lia); lia). pose proof (Z.log2_nonneg (Zpos p)).
  exists (Z.to_pos (Zpos p * 2 ^ (52 - Z.log2 (Zpos p)))), (Z.log2 (Zpos p) - 52)%Z.
  assert (0 < 2 ^ (52 - Z.log2 (Zpos p)))%Z as P by (apply Z.pow_pos_nonneg; lia). split.
  - apply dvalid_intro; [|lia]. rewrite Z2Pos.id by nia. rewrite Z.log2_mul_pow2 by lia. lia.
  - rewrite Z2Pos.id by nia. rewrite qz_mul, <- pw_Z, <- Qmult_assoc, <- pw_add by lia. replace (52 - Z.log2 (Zpos p) + (Z.log2 (Zpos p) - 52))%Z with 0%Z by lia. rewrite pw_0. ring.
Qed.
Lemma int_double z : (Z.abs z < 2 ^ 53)%Z -> exists x, is_int x z.
Proof.
  intros L. destruct z as [|p|p].
  - exists dzero. apply represents_zero.
  - destruct (pos_double p L) as (m & e & V & E). exists (S754_finite false m e). apply represents_intro; auto. fold (qz (Zpos p)). rewrite E. unfold sg. ring.
  - destruct (pos_double p L) as (m & e & V & E). exists (S754_finite true m e). apply represents_intro; auto. change (Zneg p) with (- Zpos p)%Z. fold (qz (- Zpos p)). replace (- Zpos p)%Z with (0 - Zpos p)%Z by lia. rewrite qz_sub, E. change (qz 0) with 0. unfold sg. ring.
Qed.
Lemma int_add x y a b : is_int x a -> is_int y b -> (Z.abs (a + b) < 2 ^ 53)%Z -> is_int (dadd x y) (a + b).
Proof.
  intros X Y L. assert (inject_Z a + inject_Z b == inject_Z (a + b)) as E by (rewrite inject_Z_plus; reflexivity). apply (represents_ext _ _ _ E). apply dadd_exact; auto. destruct (int_double _ L) as [z H]. exists z. eapply represents_ext; [symmetry; exact E|exact H].
Qed.
Lemma int_sub x y a b : is_int x a -> is_int y b -> (Z.abs (a - b) < 2 ^ 53)%Z -> is_int (dsub x y) (a - b).
Proof.
  intros X Y L. assert (inject_Z a - inject_Z b == inject_Z (a - b)) as E by (unfold Z.sub; rewrite inject_Z_plus, inject_Z_opp; reflexivity). apply (represents_ext _ _ _ E). apply dsub_exact; auto. destruct (int_double _ L) as [z H]. exists z. eapply represents_ext; [symmetry; exact E|exact H].
Qed.
Lemma int_mul x y a b : is_int x a -> is_int y b -> (Z.abs (a * b) < 2 ^ 53)%Z -> is_int (dmul x y) (a * b).
Proof.
  intros X Y L. assert (inject_Z a * inject_Z b == inject_Z (a * b)) as E by (rewrite inject_Z_mult; reflexivity). apply (represents_ext _ _ _ E). apply dmul_exact; auto. destruct (int_double _ L) as [z H]. exists z. eapply represents_ext; [symmetry; exact E|exact H].
Qed.
Lemma int_unique x a b : is_int x a -> is_int x b -> a = b.
Proof. intros X Y. apply (qz_eq a b). apply (represents_unique x); auto. Qed.

(** ** Quotients *)
Theorem ddiv_exact x y p q : represents x p -> represents y q -> ~ q == 0 -> (exists z, represents z (p / q)) -> represents (ddiv x y) (p / q).
Proof.
  intros X Y Q [z Z]. destruct (represents_finite y q Y Q) as (t & n & f & -> & W & F). destruct (Qeq_dec p 0) as [P|P].
  { destruct (represents_zero_inv x) as [s ->]; [now apply (represents_ext _ p)|]. apply (represents_ext _ 0); [rewrite P; field; auto|]. apply represents_zero. }
  destruct (represents_finite x p X P) as (s & m & e & -> & V & E).
  destruct (fin_rat m e) as (a & b & Ha & Hb & R). destruct (fin_rat n f) as (a' & b' & Ha' & Hb' & R'). pose proof (fin_pos n f) as Pn.
  pose proof (qz_pos a' Ha') as Pa. pose proof (qz_pos b' Hb') as Pb. pose proof (qz_pos b Hb) as Pb0.
  assert (rat (a * b') (b * a') == (qz (Zpos m) * pw 2 e) / (qz (Zpos n) * pw 2 f)) as RR.
  { rewrite <- R, <- R'. unfold rat. rewrite !qz_mul. field. lra. }
  rewrite (ddiv_rn64 s m e t n f (a * b') (b * a') ltac:(lia) ltac:(lia) RR). apply (rn64_represents _ _ _ z); auto; try lia. rewrite RR, E, F. set (A := qz (Zpos m) * pw 2 e). set (B := qz (Zpos n) * pw 2 f) in *. assert (~ B == 0) by lra. clearbody A B. destruct s, t; unfold sg; cbn [xorb]; field; auto.
Qed.

(** ** Square roots *)
Lemma shiftl_value m s : (0 <= s)%Z -> (match s with Zpos _ => Z.shiftl m s | Z0 => m | Zneg _ => 0 end = m * 2 ^ s)%Z.
Proof. intros H. destruct s as [|p|p]; [now rewrite Z.mul_1_r|now rewrite Z.shiftl_mul_pow2 by lia|lia]. Qed.
Theorem dsqrt_exact x z p : represents x (p * p) -> 0 <= p -> represents z p -> represents (dsqrt x) p.
Proof.
  intros X P Z. destruct (Qeq_dec p 0) as [P0|P0].
  { destruct (represents_zero_inv x) as [s ->]; [apply (represents_ext _ (p * p)); auto; rewrite P0; ring|]. apply (represents_ext _ 0); [now symmetry|]. apply represents_zero. }
  destruct (represents_finite z p Z P0) as (t & m & e & Ez & V & E). subst z. pose proof (fin_pos m e) as Pm. assert (t = false) as -> by (destruct t; auto; exfalso; unfold sg in E; lra).
  assert (p == qz (Zpos m) * pw 2 e) as E' by (unfold sg in E; lra). clear E.
  assert (0 < p) as Pp by lra. assert (0 < p * p) as Ppp by nra.
  destruct (represents_finite x (p * p) X) as (t & n & f & -> & W & F); [lra|]. pose proof (fin_pos n f) as Pn. assert (t = false) as -> by (destruct t; auto; exfalso; unfold sg in F; lra).
  assert (p * p == qz (Zpos n) * pw 2 f) as F' by (unfold sg in F; lra). clear F.
  apply dvalid_bounds in V as (V1 & V2 & V3). pose proof V1 as V1'.
  assert (dvalid (S754_finite false m e) = true) as V by now apply dvalid_intro.
  (* exponents *)
  pose proof (is_flog_log2 (Zpos m) e ltac:(lia)) as [M1 M2]. set (L := (Z.log2 (Zpos m) + e)%Z) in *.
  assert (exists k, (k = 2 * L \/ k = 2 * L + 1)%Z /\ (Z.log2 (Zpos n) + f = k)%Z) as (k & Hk & Ek).
  { pose proof (pw_pos 2 L ltac:(lia)) as PL. rewrite pw_S in M2 by lia. change (qz 2) with 2 in M2.
    assert (pw 2 (2 * L) == pw 2 L * pw 2 L) as Sq by (replace (2 * L)%Z with (L + L)%Z by lia; apply pw_add; lia).
    assert (pw 2 (2 * L) <= qz (Zpos n) * pw 2 f) as A1 by (rewrite <- F', Sq, E'; nra).
    assert (qz (Zpos n) * pw 2 f < pw 2 (2 * L + 1 + 1)) as A2 by (rewrite !pw_S by lia; change (qz 2) with 2; rewrite <- F', Sq, E'; nra).
    destruct (Qlt_le_dec (qz (Zpos n) * pw 2 f) (pw 2 (2 * L + 1))) as [C|C].
    - exists (2 * L)%Z. split; auto. symmetry. apply (is_flog_unique 2 (qz (Zpos n) * pw 2 f)); [lia|split; auto|apply is_flog_log2; lia].
    - exists (2 * L + 1)%Z. split; auto. symmetry. apply (is_flog_unique 2 (qz (Zpos n) * pw 2 f)); [lia|split; auto|apply is_flog_log2; lia]. }
  unfold dsqrt, SFsqrt, SFsqrt_core_binary. rewrite digits_nonneg by lia.
  assert (fexp dprec demax (Z.div2 (Z.log2 (Zpos n) + 1 + f + 1)) = e) as Fe.
  { replace (Z.log2 (Zpos n) + 1 + f + 1)%Z with (k + 2)%Z by lia. assert (Z.div2 (k + 2) = L + 1)%Z as ->; [|unfold fexp, emin, dprec, demax, L in *; lia].
    rewrite Z.div2_div. symmetry. destruct Hk as [-> | ->]; [apply (Z.div_unique _ _ _ 0); lia|apply (Z.div_unique _ _ _ 1); lia]. }
  rewrite Fe. set (e' := Z.min e (Z.div2 f)). assert (2 * Z.div2 f <= f)%Z as Hd by (rewrite Z.div2_div; pose proof (Z.mul_div_le f 2); lia).
  assert (0 <= f - 2 * e')%Z as Hs by (unfold e'; lia). rewrite shiftl_value by auto.
  assert (Zpos n * 2 ^ (f - 2 * e') = (Zpos m * 2 ^ (e - e')) * (Zpos m * 2 ^ (e - e')))%Z as K.
  { apply qz_eq. rewrite !qz_mul, <- !pw_Z by (unfold e' in *; lia). pose proof (pw_pos 2 e' ltac:(lia)) as Pe.
    assert (pw 2 (f - 2 * e') * (pw 2 e' * pw 2 e') == pw 2 f) as G1 by (rewrite <- !pw_add by lia; replace (f - 2 * e' + (e' + e'))%Z with f by lia; reflexivity).
    assert (pw 2 (e - e') * pw 2 e' == pw 2 e) as G2 by (rewrite <- pw_add by lia; replace (e - e' + e')%Z with e by lia; reflexivity).
    assert (0 < pw 2 e' * pw 2 e') as G3 by nra. apply (Qmult_inj_r _ _ (pw 2 e' * pw 2 e')); [lra|].
    transitivity (qz (Zpos n) * pw 2 f); [rewrite <- G1; ring|]. rewrite <- F', E', <- G2. ring. }
  rewrite K. set (r := (Zpos m * 2 ^ (e - e'))%Z) in *. assert (0 < r)%Z as Pr by (unfold r; assert (0 < 2 ^ (e - e'))%Z by (apply Z.pow_pos_nonneg; unfold e'; lia); nia).
  pose proof (Z.sqrtrem_spec (r * r) ltac:(nia)) as Sp. destruct (Z.sqrtrem (r * r)) as [q y]. destruct Sp as [Sp1 Sp2]. assert (q = r) as -> by nia. assert (y = 0)%Z as -> by nia. cbn [Zeq_bool Z.compare].
  destruct (fin_rat m e) as (a & b & Ha & Hb & R).
  change (Zeq_bool 0 0) with true. cbv iota.
  rewrite (round_aux_rn64 false r e' loc_Exact a b Ha Hb); [apply (rn64_represents _ _ _ (S754_finite false m e)); auto; rewrite R, E'; unfold sg; ring|lia| |].
  - cbn [loc_ok]. rewrite R. unfold r. rewrite qz_mul, <- pw_Z by (unfold e'; lia). rewrite <- Qmult_assoc, <- pw_add by lia. replace (e + - e')%Z with (e - e')%Z by lia. reflexivity.
  - assert (flog2 a b = L) as -> by (apply (is_flog_unique 2 (rat a b)); [lia|apply flog2_spec; auto|eapply is_flog_ext; [symmetry; exact R|split; auto]]). unfold e', L. lia.
Qed.

(** ** Comparisons *)
Lemma dlt_represents x y p q : represents x p -> represents y q -> (dltb x y = true <-> p < q).
Proof.
  intros (V & v & D & E) (W & w & D' & E'). assert (forall x v, dvalue x = Some v -> dfinite x = true /\ this (Raster.qd x) == v) as A.
  { intros z u H. destruct z as [s| | |s m e]; try discriminate.
    - injection H as <-. split; auto. reflexivity.
    - rewrite dvalue_finite in H. injection H as <-. split; auto. rewrite Dq_proofs.qd_val. destruct s; unfold sg; reflexivity. }
  destruct (A x v D) as [F G], (A y w D') as [F' G']. rewrite (Dq_proofs.dltb_qd x y V W F F'). unfold Qclt. rewrite G, G', E, E'. reflexivity.
Qed.
Lemma int_lt x y a b : is_int x a -> is_int y b -> (dltb x y = true <-> (a < b)%Z).
Proof. intros X Y. rewrite (dlt_represents x y _ _ X Y). rewrite <- Zlt_Qlt. reflexivity. Qed.

(** ** Single precision: integers below 2^24 survive *)
Lemma loc_ok_int k m l : loc_ok (qz k) m l -> m = k /\ l = loc_Exact.
Proof.
  intros L. destruct (loc_ok_bounds _ _ _ L) as [B1 B2]. apply qz_le in B1. assert (qz k < qz (m + 1)) as B3 by (rewrite qz_add; exact B2). apply qz_lt in B3. assert (m = k) as -> by lia. split; auto.
  destruct l as [|[]]; cbn [loc_ok] in L; auto; lra.
Qed.
Lemma f32_int s m e z : dvalid (S754_finite s m e) = true -> qz (Zpos m) * pw 2 e == qz z -> (z < 2 ^ 24)%Z -> exists n f, f32_of_dbl (S754_finite s m e) = S754_finite s n f /\ qz (Zpos n) * pw 2 f == qz z.
Proof.
  intros V E L. apply dvalid_bounds in V as (V1 & V2 & V3). pose proof (fin_pos m e) as P. pose proof (pw_pos 2 e ltac:(lia)) as Pe.
  assert (0 < z)%Z as Pz. { apply qz_lt. change (qz 0) with 0. lra. }
  assert (Z.log2 (Zpos m) + e = Z.log2 z + 0)%Z as Lz.
  { apply (is_flog_unique 2 (qz z)); [lia|eapply is_flog_ext; [exact E|apply is_flog_log2; lia]|eapply is_flog_ext; [|apply (is_flog_log2 z 0); lia]]. rewrite pw_0. ring. }
  pose proof (Z.log2_nonneg z) as L0. assert (Z.log2 z < 24)%Z as L1 by (apply Z.log2_lt_pow2; lia). assert (Z.log2 (Zpos m) = 52)%Z as Lm by lia.
  assert (fexp 24 128 (53 + e) - e = 29)%Z as Fe by (unfold fexp, emin; lia).
  unfold f32_of_dbl, binary_round, shl_align. rewrite Zpos_digits2, Lm. change (52 + 1 + e)%Z with (53 + e)%Z. rewrite Fe. unfold binary_round_aux, shr_fexp. rewrite (digits_nonneg (Zpos m)) by lia. rewrite Lm. change (52 + 1 + e)%Z with (53 + e)%Z. rewrite Fe.
  cbn [shr shr_record_of_loc]. destruct (shr_iter_ok 29 {| shr_m := Zpos m; shr_r := false; shr_s := false |} (qz (Zpos m)) ltac:(cbn [shr_m]; lia) ltac:(cbn [shr_m loc_of_shr_record loc_ok]; reflexivity)) as [M1 M2].
  set (r := SpecFloat.iter_pos shr_1 29 _) in *. clearbody r.
  assert (qz (Zpos m) * pw 2 (-29) == qz (z * 2 ^ (23 - Z.log2 z))) as K.
  { rewrite qz_mul, <- pw_Z, <- E by lia. rewrite <- Qmult_assoc, <- pw_add by lia. replace (e + (23 - Z.log2 z))%Z with (-29)%Z by lia. reflexivity. }
  apply (loc_ok_ext _ _ _ _ K) in M2. apply loc_ok_int in M2. destruct M2 as [-> ->]. cbn [round_nearest_even].
  set (k := (z * 2 ^ (23 - Z.log2 z))%Z) in *. assert (0 < 2 ^ (23 - Z.log2 z))%Z as P2 by (apply Z.pow_pos_nonneg; lia). assert (0 < k)%Z as Pk by (unfold k; nia).
  assert (Z.log2 k = 23)%Z as Lk by (unfold k; rewrite Z.log2_mul_pow2 by lia; lia).
  rewrite digits_nonneg by lia. rewrite Lk. assert (fexp 24 128 (23 + 1 + (e + 29)) - (e + 29) = 0)%Z as -> by (unfold fexp, emin; lia). cbn [shr shr_m].
  destruct k as [|n|n] eqn:Ek; try lia. assert (Zle_bool (e + 29) (128 - 24) = true) as -> by (apply Zle_is_le_bool; lia). exists n, (e + 29)%Z. split; auto. rewrite <- K, <- Qmult_assoc, <- pw_add by lia. replace (-29 + (e + 29))%Z with e by lia. exact E.
Qed.
Lemma round32_int x z : is_int x z -> (Z.abs z < 2 ^ 24)%Z -> is_int (dbl_of_f32 (f32_of_dbl x)) z.
Proof.
  intros X L. destruct (Z.eq_dec z 0) as [->|N].
  { destruct (represents_zero_inv x X) as [s ->]. exact X. }
  destruct (represents_finite x _ X) as (s & m & e & -> & V & E). { change 0 with (inject_Z 0). rewrite inject_Z_injective. auto. }
  assert (qz (Zpos m) * pw 2 e == qz (Z.abs z)) as E'.
  { pose proof (fin_pos m e) as P. fold (qz z) in E. destruct s; unfold sg in E.
    - assert (z < 0)%Z by (apply qz_lt; change (qz 0) with 0; lra). replace (Z.abs z) with (0 - z)%Z by lia. rewrite qz_sub. change (qz 0) with 0. lra.
    - assert (0 < z)%Z by (apply qz_lt; change (qz 0) with 0; lra). replace (Z.abs z) with z by lia. lra. }
  destruct (f32_int s m e _ V E' L) as (n & f & -> & F). cbn [dbl_of_f32]. destruct (fin_rat n f) as (a & b & Ha & Hb & R). rewrite (binary_round_rn64 s n f a b Ha Hb R).
  apply (rn64_represents _ _ _ (S754_finite s m e)); auto. rewrite R, F, <- E', E. reflexivity.
Qed.
