(** * Rootsq_proofs: the double root of the rounded square of a double is that double, when the
    square neither overflows nor underflows. *)
From Verif Require Import Base Dbl Dbl_facts Decimal Spec_text Spec_num Spec_arith Round_proofs Rn_proofs Float_proofs Nearest_proofs Arith_proofs Surface Spec_edges Sqrt_proofs.
From Coq Require Import QArith Qabs Lqa.
From Verif Require Import Round_proofs.
Open Scope Q_scope.

(** numbers of at most 53 bits in the range of exponents are doubles *)
Lemma grid_double n e : (0 < n < 2 ^ 53)%Z -> (-1074 <= e <= 971)%Z -> exists m f, dvalid (S754_finite false m f) = true /\ qz (Zpos m) * pw 2 f == qz n * pw 2 e.
Proof.
  intros N E. set (k := Z.min (52 - Z.log2 n) (e + 1074)).
  assert (0 <= Z.log2 n <= 52)%Z as L by (split; [apply Z.log2_nonneg|]; assert (Z.log2 n < 53)%Z by (apply Z.log2_lt_pow2; lia); lia).
  assert (0 <= k)%Z as K by (unfold k; lia). assert (0 < n * 2 ^ k)%Z as P by (apply Z.mul_pos_pos; [lia|apply Z.pow_pos_nonneg; lia]).
  exists (Z.to_pos (n * 2 ^ k)), (e - k)%Z. rewrite Z2Pos.id by auto. split.
  - apply dvalid_intro; [|lia]. rewrite Z2Pos.id by auto. rewrite Z.log2_mul_pow2 by lia. unfold k. lia.
  - symmetry. rewrite (pw_mult 2 (e - k) e n) by lia. replace (e - (e - k))%Z with k by lia. reflexivity.
Qed.
Lemma represents_dval y : real_double y -> represents y (dval y).
Proof.
  intros [V F]. destruct y as [s| | |s m e]; try discriminate; [apply represents_zero|]. apply represents_intro; auto. rewrite dval_finite. destruct s; unfold sg; ring.
Qed.
(** the doubles around m * 2^e *)
Lemma spaced_above m e y : dvalid (S754_finite false m e) = true -> (2 ^ 52 <= Zpos m)%Z -> real_double y -> qz (Zpos m) * pw 2 e < dval y -> qz (Zpos m + 1) * pw 2 e <= dval y.
Proof.
  intros V M [W F] L. pose proof (fin_pos m e) as P0. destruct y as [s| | |s n f]; try discriminate; [change (dval (S754_zero s)) with 0 in L; lra|].
  rewrite dval_finite in *. pose proof (fin_pos n f) as Pn. destruct s; [lra|]. rewrite Qmult_1_l in *. apply dvalid_bounds in W as (W1 & W2 & W3).
  pose proof (pw_pos 2 e ltac:(lia)) as Pe. destruct (Z_lt_le_dec f e) as [C|C].
  - exfalso. apply (Qlt_irrefl (qz (Zpos m) * pw 2 e)). eapply Qlt_le_trans; [exact L|]. rewrite (pw_mult 2 f e (Zpos m)) by lia. apply Qmult_le_compat_r; [|apply Qlt_le_weak, pw_pos; lia].
    apply (proj1 (qz_le _ _)). assert (2 ^ 1 <= 2 ^ (e - f))%Z by (apply Z.pow_le_mono_r; lia). nia.
  - rewrite (pw_mult 2 e f (Zpos n)) in L |- * by lia. apply Qmult_le_compat_r; [|lra]. apply Qmult_lt_r in L; auto. apply (proj1 (qz_le _ _)). apply (proj2 (qz_lt _ _)) in L. lia.
Qed.
Lemma spaced_below m e y : dvalid (S754_finite false m e) = true -> (2 ^ 52 < Zpos m)%Z -> real_double y -> dval y < qz (Zpos m) * pw 2 e -> dval y <= qz (Zpos m - 1) * pw 2 e.
Proof.
  intros V M [W F] L. pose proof (pw_pos 2 e ltac:(lia)) as Pe. assert (0 <= qz (Zpos m - 1) * pw 2 e) as Z0. { apply Qmult_le_0_compat; [|lra]. change 0 with (qz 0). apply (proj1 (qz_le _ _)). lia. }
  destruct y as [s| | |s n f]; try discriminate; [exact Z0|].
  rewrite dval_finite in *. pose proof (fin_pos n f) as Pn. destruct s; [lra|]. rewrite Qmult_1_l in *. apply dvalid_bounds in W as (W1 & W2 & W3).
  destruct (Z_lt_le_dec f e) as [C|C].
  - rewrite (pw_mult 2 f e (Zpos m - 1)) by lia. apply Qmult_le_compat_r; [|apply Qlt_le_weak, pw_pos; lia].
    apply (proj1 (qz_le _ _)). assert (2 ^ 1 <= 2 ^ (e - f))%Z by (apply Z.pow_le_mono_r; lia). nia.
  - rewrite (pw_mult 2 e f (Zpos n)) in L |- * by lia. apply Qmult_le_compat_r; [|lra]. apply Qmult_lt_r in L; auto. apply (proj1 (qz_le _ _)). apply (proj2 (qz_lt _ _)) in L. lia.
Qed.
(** a double no further from [q] than any other *)
Definition closest (q : Q) (d : dbl) : Prop := real_double d /\ forall y, real_double y -> Qabs (dval d - q) <= Qabs (dval y - q).
Lemma nearest_closest q d : nearest_double q d -> closest q d.
Proof. intros [R H]. split; auto. intros y Y. apply (H y Y). Qed.
Lemma sq_units m e : (qz m * pw 2 e) * (qz m * pw 2 e) == qz (m * m) * pw 2 (2 * e).
Proof. replace (2 * e)%Z with (e + e)%Z by lia. rewrite pw_add by lia. rewrite qz_mul. ring. Qed.
(** the rounded square: the error is at most 2^52 units *)
Lemma square_error m e d : (2 ^ 52 <= m < 2 ^ 53)%Z -> pw 2 (-1022) <= qz (m * m) * pw 2 (2 * e) -> in_range (qz (m * m) * pw 2 (2 * e)) -> closest (qz (m * m) * pw 2 (2 * e)) d ->
  Qabs (dval d - qz (m * m) * pw 2 (2 * e)) <= qz (2 ^ 52) * pw 2 (2 * e).
Proof.
  intros M Lo Hi [_ N]. pose proof (pw_pos 2 (2 * e) ltac:(lia)) as Pe.
  (* exponents *)
  assert (2 ^ 104 <= m * m < 2 ^ 106)%Z as MM by nia.
  assert (-1127 <= 2 * e)%Z as E1.
  { assert (pw 2 (-1022) < pw 2 (106 + 2 * e)) as X; [|apply pw_lt_inv in X; lia]. eapply Qle_lt_trans; [exact Lo|]. rewrite pw_add by lia. apply Qmult_lt_r; auto. rewrite pw_Z by lia. apply (proj1 (qz_lt _ _)). lia. }
  assert (2 * e <= 918)%Z as E2.
  { assert (pw 2 (104 + 2 * e) < pw 2 1024) as X.
    { apply Qle_lt_trans with (qz (m * m) * pw 2 (2 * e)); [rewrite pw_add by lia; apply Qmult_le_compat_r; [|lra]; rewrite pw_Z by lia; apply (proj1 (qz_le _ _)); lia|].
      apply Qlt_trans with (qz (2 ^ 1024 - 2 ^ 970)); [|rewrite pw_Z by lia; apply (proj1 (qz_lt _ _)); lia]. unfold in_range in Hi. eapply Qle_lt_trans; [apply Qle_Qabs|exact Hi]. }
    apply pw_lt_inv in X; lia. }
  set (M' := ((m * m + 2 ^ 52) / 2 ^ 53)%Z). assert (2 ^ 53 * M' <= m * m + 2 ^ 52 < 2 ^ 53 * M' + 2 ^ 53)%Z as HM.
  { unfold M'. pose proof (Z.div_mod (m * m + 2 ^ 52) (2 ^ 53) ltac:(lia)) as D. pose proof (Z.mod_pos_bound (m * m + 2 ^ 52) (2 ^ 53) ltac:(lia)). lia. }
  destruct (grid_double M' (2 * e + 53)) as (n & f & V & E); [nia|lia|].
  pose proof (N (S754_finite false n f) ltac:(now split)) as A. eapply Qle_trans; [exact A|]. rewrite dval_finite, Qmult_1_l, E.
  rewrite (pw_mult 2 (2 * e) (2 * e + 53) M') by lia. replace (2 * e + 53 - 2 * e)%Z with 53%Z by lia.
  setoid_replace (qz (M' * 2 ^ 53) * pw 2 (2 * e) - qz (m * m) * pw 2 (2 * e)) with (qz (M' * 2 ^ 53 - m * m) * pw 2 (2 * e)) by (rewrite qz_sub; ring).
  rewrite Qabs_Qmult, (Qabs_pos (pw 2 (2 * e))) by lra. apply Qmult_le_compat_r; [|lra]. apply Qabs_Qle_condition. split; [change (- qz (2 ^ 52)) with (qz (- 2 ^ 52))|]; apply (proj1 (qz_le _ _)); lia.
Qed.
Lemma squeeze_below w M a u X : 0 <= w -> 0 < u -> a + 1 <= M -> w <= (M - 1) * u -> X <= (1#2) * (w + M * u) * ((1#2) * (w + M * u)) -> - (a * (u * u)) <= X - (M * u) * (M * u) -> 0 < M -> False.
Proof.
  intros W U A B C D P. set (t := (1#2) * (w + M * u)) in *. assert (0 <= t) by (unfold t; assert (0 < M * u) by nra; lra).
  assert (t <= (M - (1#2)) * u) as T by (unfold t; lra). assert (t * t <= ((M - (1#2)) * u) * ((M - (1#2)) * u)) as S by nra. assert (0 < u * u) by nra. nra.
Qed.
Lemma squeeze_above w M a u X : 0 < u -> a + 1 <= M -> (M + 1) * u <= w -> (1#2) * (w + M * u) * ((1#2) * (w + M * u)) <= X -> X - (M * u) * (M * u) <= a * (u * u) -> 0 < M -> False.
Proof.
  intros U A B C D P. set (t := (1#2) * (w + M * u)) in *. assert (0 < M * u) by nra.
  assert ((M + (1#2)) * u <= t) as T by (unfold t; lra). assert (((M + (1#2)) * u) * ((M + (1#2)) * u) <= t * t) as S by nra. assert (0 < u * u) by nra. nra.
Qed.
Theorem sqrt_of_square p z d : represents z p -> 0 < p -> pw 2 (-1022) <= p * p -> in_range (p * p) -> closest (p * p) d -> represents (dsqrt d) p.
Proof.
  intros Z P Lo Hi N. destruct (represents_finite z p Z) as (t & m & e & -> & V & E); [lra|]. pose proof (fin_pos m e) as Pm. assert (t = false) as -> by (destruct t; auto; exfalso; unfold sg in E; lra).
  assert (p == qz (Zpos m) * pw 2 e) as E' by (unfold sg in E; lra). clear E. pose proof (dvalid_bounds _ _ _ V) as (V1 & V2 & V3).
  assert (p * p == qz (Zpos m * Zpos m) * pw 2 (2 * e)) as S by (rewrite E'; apply sq_units).
  pose proof (pw_pos 2 e ltac:(lia)) as Pe. pose proof (pw_pos 2 (2 * e) ltac:(lia)) as P2e.
  (* p is normal *)
  assert (2 ^ 52 <= Zpos m)%Z as M.
  { destruct (Z_lt_le_dec (Zpos m) (2 ^ 52)) as [C|C]; auto. exfalso. assert (Z.log2 (Zpos m) < 52)%Z by (apply Z.log2_lt_pow2; lia). assert (e = -1074)%Z as -> by lia.
    assert (p * p < pw 2 (-1022)); [|lra]. rewrite S. apply Qlt_trans with (pw 2 (104 + 2 * -1074)); [|apply pw_lt; lia]. rewrite pw_add by lia. apply Qmult_lt_r; [apply pw_pos; lia|]. rewrite pw_Z by lia. apply (proj1 (qz_lt _ _)). nia. }
  destruct (Z.eq_dec (Zpos m) (2 ^ 52)) as [M2|M2].
  - (* a power of two: the square is a double *)
    assert (p * p == pw 2 (104 + 2 * e)) as S2. { rewrite S, M2, pw_add by lia. apply Qmult_comp; [|reflexivity]. rewrite pw_Z by lia. reflexivity. }
    assert (-1022 <= 104 + 2 * e < 1024)%Z as B.
    { split.
      - destruct (Z_lt_le_dec (104 + 2 * e) (-1022)) as [C|C]; auto. exfalso. apply (pw_lt 2) in C; [|lia]. rewrite <- S2 in C. lra.
      - apply (pw_lt_inv 2); [lia|]. rewrite <- S2. apply Qlt_trans with (qz (2 ^ 1024 - 2 ^ 970)); [|rewrite pw_Z by lia; apply (proj1 (qz_lt _ _)); lia]. eapply Qle_lt_trans; [apply Qle_Qabs|exact Hi]. }
    destruct (grid_double (2 ^ 52) (52 + 2 * e)) as (n & f & W & F); [lia|lia|].
    assert (qz (Zpos n) * pw 2 f == p * p) as F'. { rewrite F, S2. replace (104 + 2 * e)%Z with (52 + (52 + 2 * e))%Z by lia. rewrite (pw_add 2 52 (52 + 2 * e)) by lia. apply Qmult_comp; [|reflexivity]. symmetry. apply (pw_Z 2 52). lia. }
    apply (dsqrt_exact d (S754_finite false m e)); [|lra|exact Z].
    destruct N as [[Rd Fd] N]. pose proof (N (S754_finite false n f) ltac:(now split)) as A. rewrite dval_finite, Qmult_1_l, F' in A.
    assert (dval d == p * p) as D. { setoid_replace (p * p - p * p) with 0 in A by ring. change (Qabs 0) with 0 in A. pose proof (Qabs_nonneg (dval d - p * p)). apply Qabs_Qle_condition in A. lra. }
    apply (represents_ext _ (dval d)); [exact D|]. apply represents_dval. now split.
  - (* the root of the rounded square *)
    assert (Qabs (dval d - p * p) <= qz (2 ^ 52) * pw 2 (2 * e)) as Err.
    { rewrite S. apply square_error; [lia|now rewrite <- S|unfold in_range in *; now rewrite <- S|]. destruct N as [R N]. split; auto. intros y Y. specialize (N y Y). now rewrite <- S. }
    apply Qabs_Qle_condition in Err as [Er1 Er2].
    assert (0 < dval d) as Pd. { assert (qz (2 ^ 52) * pw 2 (2 * e) < p * p); [|lra]. rewrite S. apply Qmult_lt_r; auto. apply (proj1 (qz_lt _ _)). nia. }
    destruct N as [[Rd Fd] _]. destruct d as [s| | |s k g]; try discriminate.
    pose proof (fin_pos k g) as Pk. assert (s = false) as -> by (destruct s; auto; exfalso; rewrite dval_finite in Pd; lra).
    pose proof (dsqrt_correct k g Rd) as (Ry & Py & H). set (y := dsqrt (S754_finite false k g)) in *. clearbody y.
    rewrite dval_finite, Qmult_1_l in Er1, Er2. set (X := qz (Zpos k) * pw 2 g) in *. clearbody X.
    destruct (H (S754_finite false m e)) as [Up Dn]; [split; auto|rewrite dval_finite; lra|]. rewrite dval_finite, Qmult_1_l in Up, Dn.
    assert (pw 2 (2 * e) == pw 2 e * pw 2 e) as EE by (replace (2 * e)%Z with (e + e)%Z by lia; apply pw_add; lia).
    pose proof (spaced_above m e y V M Ry) as Above. pose proof (spaced_below m e y V ltac:(lia) Ry) as Below.
    set (u := pw 2 e) in *. clearbody u. rewrite EE in *. clear EE.
    assert (qz (2 ^ 52) + 1 <= qz (Zpos m)) as Mq. { change 1 with (qz 1). rewrite <- qz_add. apply (proj1 (qz_le _ _)). lia. }
    assert (qz (Zpos m + 1) == qz (Zpos m) + 1) as Ma by (rewrite qz_add; reflexivity). assert (qz (Zpos m - 1) == qz (Zpos m) - 1) as Ms by (rewrite qz_sub; reflexivity).
    assert (dval y == p) as Ey.
    { destruct (Qlt_le_dec (dval y) (qz (Zpos m) * u)) as [C|C]; [exfalso|destruct (Qlt_le_dec (qz (Zpos m) * u) (dval y)) as [C'|C']; [exfalso|lra]].
      - rewrite E' in Er1. rewrite Ms in Below. exact (squeeze_below _ _ _ _ _ Py Pe Mq (Below C) (Up C) Er1 ltac:(change 0 with (qz 0); apply (proj1 (qz_lt _ _)); lia)).
      - rewrite E' in Er2. rewrite Ma in Above. exact (squeeze_above _ _ _ _ _ Pe Mq (Above C') (Dn C') Er2 ltac:(change 0 with (qz 0); apply (proj1 (qz_lt _ _)); lia)). }
    apply (represents_ext _ (dval y)); [exact Ey|]. now apply represents_dval.
Qed.
(** the product of a double with itself *)
Lemma dmul_square x p : represents x p -> ~ p == 0 -> in_range (p * p) -> closest (p * p) (dmul x x).
Proof.
  intros X N R. destruct (represents_finite x p X N) as (t & m & e & -> & V & E). destruct (fin_rat m e) as (a & b & A & B & F).
  assert (rat (a * a) (b * b) == (qz (Zpos m) * pw 2 e) * (qz (Zpos m) * pw 2 e)) as RR. { rewrite <- F. unfold rat. rewrite !qz_mul. field. change 0 with (qz 0). intros Z0. assert (b = 0)%Z by (apply (proj1 (inject_Z_injective b 0)); exact Z0). lia. }
  rewrite (dmul_rn64 t m e t m e (a * a) (b * b) V V ltac:(nia) ltac:(nia) RR). rewrite xorb_nilpotent.
  assert (p * p == rat (a * a) (b * b)) as P by (rewrite RR, E; destruct t; unfold sg; ring).
  destruct (rn64_correct false (a * a) (b * b) ltac:(nia) ltac:(nia)) as [C _]. destruct C as [C _]; [rewrite <- P; eapply Qle_lt_trans; [apply Qle_Qabs|exact R]|].
  destruct C as [C1 C2]. split; auto. intros y Y. rewrite P. apply (C2 y Y).
Qed.
Lemma closest_value q d d' : closest q d -> real_double d' -> dval d' == dval d -> closest q d'.
Proof. intros [_ H] R E. split; auto. intros y Y. rewrite E. now apply H. Qed.
(** integers *)
Lemma int_square_range n : (1 <= n < 2 ^ 53)%Z -> pw 2 (-1022) <= qz n * qz n /\ in_range (qz n * qz n).
Proof.
  intros N. assert (1 <= qz n) as L by (change 1 with (qz 1); apply (proj1 (qz_le _ _)); lia). split.
  - apply Qle_trans with 1; [apply Qle_bool_iff; vm_compute; reflexivity|nra].
  - unfold in_range. rewrite <- qz_mul. rewrite Qabs_pos by (change 0 with (qz 0); apply (proj1 (qz_le _ _)); nia). apply (proj1 (qz_lt _ _)). assert (n * n < 2 ^ 106)%Z by nia. assert (2 ^ 106 < 2 ^ 1024 - 2 ^ 970)%Z by reflexivity. lia.
Qed.
Theorem int_root_of_square n d : (1 <= n < 2 ^ 53)%Z -> closest (qz n * qz n) d -> is_int (dsqrt d) n.
Proof.
  intros N C. destruct (int_double n ltac:(lia)) as [z Z]. destruct (int_square_range n N). apply (sqrt_of_square (qz n) z d); auto. change 0 with (qz 0). apply (proj1 (qz_lt _ _)). lia.
Qed.
Lemma closest_ext p q d : p == q -> closest p d -> closest q d.
Proof. intros E [R H]. split; auto. intros y Y. rewrite <- E. now apply H. Qed.
Lemma add_zero x z q : represents x q -> represents z 0 -> represents (dadd x z) q.
Proof. intros X Z. apply (represents_ext _ (q + 0)); [ring|]. apply dadd_exact; auto. exists x. apply (represents_ext _ q); auto. ring. Qed.
Lemma zero_add x z q : represents x q -> represents z 0 -> represents (dadd z x) q.
Proof. intros X Z. apply (represents_ext _ (0 + q)); [ring|]. apply dadd_exact; auto. exists x. apply (represents_ext _ q); auto. ring. Qed.
Lemma mul_zero x z q : represents x q -> q == 0 -> represents z q -> represents (dmul x z) 0.
Proof. intros X Q Z. apply (represents_ext _ (q * q)); [rewrite Q; ring|]. apply dmul_exact; auto. exists x. apply (represents_ext _ q); auto. rewrite Q. ring. Qed.
Lemma represents_real x q : represents x q -> real_double x /\ dval x == q.
Proof.
  intros (V & v & E & H). destruct x as [s| | |s m e]; try discriminate E.
  - split; [now split|]. injection E as <-. exact H.
  - split; [now split|]. injection E as <-. rewrite <- H, dval_finite. destruct s; unfold pw, qz; ring.
Qed.
