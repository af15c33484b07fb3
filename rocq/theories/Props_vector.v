(** * Vector algebra on integer coordinates: exact results (C11, C14, C16, C17). *)
From Verif Require Import Base Dbl Dbl_facts Shadow Spec_shadow Spec_text Spec_num Spec_arith Arith_proofs Rootsq_proofs Face_proofs Face3ds_proofs Props_shadow.
From Coq Require Import QArith.
Open Scope Z_scope.

Lemma abs_mul_le a b A B : Z.abs a <= A -> Z.abs b <= B -> Z.abs (a * b) <= A * B.
Proof. intros H K. rewrite Z.abs_mul. apply Z.mul_le_mono_nonneg; lia. Qed.

(** an integer double and a bound *)
Definition bint (x : dbl) (z M : Z) : Prop := is_int x z /\ Z.abs z <= M.
Lemma bint_add x y a b A B : bint x a A -> bint y b B -> A + B < 2 ^ 53 -> bint (dadd x y) (a + b) (A + B).
Proof. intros [X L] [Y M] H. assert (Z.abs (a + b) <= A + B) by lia. split; auto. apply int_add; auto. lia. Qed.
Lemma bint_sub x y a b A B : bint x a A -> bint y b B -> A + B < 2 ^ 53 -> bint (dsub x y) (a - b) (A + B).
Proof. intros [X L] [Y M] H. assert (Z.abs (a - b) <= A + B) by lia. split; auto. apply int_sub; auto. lia. Qed.
Lemma bint_mul x y a b A B : bint x a A -> bint y b B -> A * B < 2 ^ 53 -> bint (dmul x y) (a * b) (A * B).
Proof. intros [X L] [Y M] H. pose proof (abs_mul_le _ _ _ _ L M). split; auto. apply int_mul; auto. lia. Qed.
Lemma bint_le x a A B : bint x a A -> A <= B -> bint x a B.
Proof. intros [X L] H. split; auto. lia. Qed.
Definition bvect (v : vect) (c : Z * Z * Z) (M : Z) : Prop := bint (vx v) (fst (fst c)) M /\ bint (vy v) (snd (fst c)) M /\ bint (vz v) (snd c) M.
Definition bpoint (v : point) (c : Z * Z * Z) (M : Z) : Prop := bint (px v) (fst (fst c)) M /\ bint (py v) (snd (fst c)) M /\ bint (pz v) (snd c) M.
Lemma bvect_iff v c M : bvect v c M <-> int_vect v c /\ coords_within M c.
Proof. unfold bvect, bint, int_vect, coords_within. tauto. Qed.
Lemma bpoint_iff v c M : bpoint v c M <-> int_point v c /\ coords_within M c.
Proof. unfold bpoint, bint, int_point, coords_within. tauto. Qed.
Ltac bcrd := repeat match goal with c : (Z * Z * Z)%type |- _ => destruct c as [[? ?] ?] end; unfold bvect, bpoint, zadd, zsub, zscale, zdot, zcross, zdet in *; cbn [fst snd vx vy vz px py pz] in *.
Lemma v_add_int a b c d A B : bvect a c A -> bvect b d B -> A + B < 2 ^ 53 -> bvect (v_add a b) (zadd c d) (A + B).
Proof. intros (A1 & A2 & A3) (B1 & B2 & B3) L. bcrd. split; [|split]; apply bint_add; auto. Qed.
Lemma v_sub_int a b c d A B : bvect a c A -> bvect b d B -> A + B < 2 ^ 53 -> bvect (v_sub a b) (zsub c d) (A + B).
Proof. intros (A1 & A2 & A3) (B1 & B2 & B3) L. bcrd. split; [|split]; apply bint_sub; auto. Qed.
Lemma v_dot_int a b c d A B : bvect a c A -> bvect b d B -> 0 <= A -> 0 <= B -> A * B + A * B + A * B < 2 ^ 53 -> bint (v_dot a b) (zdot c d) (A * B + A * B + A * B).
Proof. intros (A1 & A2 & A3) (B1 & B2 & B3) PA PB L. assert (0 <= A * B) by nia. bcrd. unfold v_dot. match goal with |- bint _ (?x + ?y + ?z) _ => replace (x + y + z) with (z + y + x) by ring end. apply bint_add; [apply bint_add|..]; try apply bint_mul; auto; lia. Qed.
Lemma v_cross_int a b c d A B : bvect a c A -> bvect b d B -> 0 <= A -> 0 <= B -> A * B + A * B < 2 ^ 53 -> bvect (v_cross a b) (zcross c d) (A * B + A * B).
Proof. intros (A1 & A2 & A3) (B1 & B2 & B3) PA PB L. assert (0 <= A * B) by nia. bcrd. split; [|split]; apply bint_sub; try apply bint_mul; auto; lia. Qed.
Lemma vec_pp_int p q c d A B : bpoint p c A -> bpoint q d B -> B + A < 2 ^ 53 -> bvect (vec_pp p q) (zsub d c) (B + A).
Proof. intros (A1 & A2 & A3) (B1 & B2 & B3) L. bcrd. split; [|split]; apply bint_sub; auto. Qed.

(** C16: every operation is exact on integer coordinates up to 2^25 *)
Theorem C16_exact_on_integers a b c d : int_vect a c -> int_vect b d -> coords_within (2 ^ 25) c -> coords_within (2 ^ 25) d ->
  int_vect (v_add a b) (zadd c d) /\ int_vect (v_sub a b) (zsub c d) /\ is_int (v_dot a b) (zdot c d) /\ int_vect (v_cross a b) (zcross c d).
Proof.
  intros Ha Hb Ca Cb. assert (bvect a c (2 ^ 25)) as A by now apply bvect_iff. assert (bvect b d (2 ^ 25)) as B by now apply bvect_iff.
  split; [eapply bvect_iff, v_add_int; eauto; reflexivity|]. split; [eapply bvect_iff, v_sub_int; eauto; reflexivity|].
  split; [eapply (v_dot_int a b c d); eauto; try reflexivity; discriminate|]. eapply bvect_iff, v_cross_int; eauto; try reflexivity; discriminate.
Qed.
(** differences of points: target minus origin; a point moved by the difference is the target *)
Theorem C16_points_exact p q c d : int_point p c -> int_point q d -> coords_within (2 ^ 50) c -> coords_within (2 ^ 50) d ->
  int_vect (vec_pp p q) (zsub d c) /\ int_vect (pt_sub q p) (zsub d c) /\ int_point (pt_add p (pt_sub q p)) d.
Proof.
  intros Hp Hq Cp Cq. assert (bpoint p c (2 ^ 50)) as P by now apply bpoint_iff. assert (bpoint q d (2 ^ 50)) as Q by now apply bpoint_iff.
  assert (bvect (vec_pp p q) (zsub d c) (2 ^ 50 + 2 ^ 50)) as V by (apply vec_pp_int; auto; reflexivity).
  split; [eapply bvect_iff; eauto|]. split; [eapply bvect_iff; exact V|]. eapply bpoint_iff with (M := 2 ^ 50 + (2 ^ 50 + 2 ^ 50)).
  destruct P as (P1 & P2 & P3), V as (V1 & V2 & V3). destruct c as [[x y] z], d as [[x' y'] z']. unfold bpoint, pt_add, pt_sub, zsub in *. cbn [fst snd px py pz] in *.
  replace x' with (x + (x' - x)) at 1 by lia. replace y' with (y + (y' - y)) at 1 by lia. replace z' with (z + (z' - z)) at 1 by lia.
  split; [|split]; apply bint_add; auto; reflexivity.
Qed.
Theorem C16_scale_exact s k a c : is_int s k -> int_vect a c -> coords_within (2 ^ 26) c -> Z.abs k <= 2 ^ 26 -> int_vect (v_scale s a) (zscale k c).
Proof.
  intros Hs Ha Ca Hk. assert (bvect a c (2 ^ 26)) as (A1 & A2 & A3) by now apply bvect_iff. assert (bint s k (2 ^ 26)) as S by now split.
  eapply bvect_iff with (M := 2 ^ 26 * 2 ^ 26). bcrd. split; [|split]; apply bint_mul; auto; reflexivity.
Qed.
Theorem C16_determinant_exact a b c x y z A B C : int_vect a x -> int_vect b y -> int_vect c z -> coords_within A x -> coords_within B y -> coords_within C z ->
  1 <= C -> 6 * (A * B * C) < 2 ^ 53 -> is_int (v_det a b c) (zdet x y z).
Proof.
  intros Ha Hb Hc Ca Cb Cc P1 L. assert (0 <= A) as PA by (destruct Ca; lia). assert (0 <= B) as PB by (destruct Cb; lia).
  assert (bvect a x A) as (A1 & A2 & A3) by now apply bvect_iff. assert (bvect b y B) as (B1 & B2 & B3) by now apply bvect_iff. assert (bvect c z C) as (C1 & C2 & C3) by now apply bvect_iff.
  clear - A1 A2 A3 B1 B2 B3 C1 C2 C3 P1 L PA PB. destruct x as [[x0 x1] x2], y as [[y0 y1] y2], z as [[z0 z1] z2]. unfold zdet, zdot, zcross. cbn [fst snd] in *.
  replace (x0 * (y1 * z2 - y2 * z1) + x1 * (y2 * z0 - y0 * z2) + x2 * (y0 * z1 - y1 * z0)) with (x0 * y1 * z2 - x0 * y2 * z1 - x1 * y0 * z2 + x1 * y2 * z0 + x2 * y0 * z1 - x2 * y1 * z0) by ring.
  assert (0 <= A * B) as PAB by nia. assert (A * B <= A * B * C) as LAB by nia. set (M := A * B * C) in *.
  assert (forall p q r u v w, bint p u A -> bint q v B -> bint r w C -> bint (dmul (dmul p q) r) (u * v * w) M) as T.
  { intros p q r u v w P Q R. unfold M. apply bint_mul; [apply bint_mul|..]; auto; unfold M in *; lia. }
  unfold v_det. cbv zeta. eapply proj1 with (B := _ <= _).
  apply bint_sub with (A := M + M + M + M + M) (B := M); [|now apply T|lia].
  apply bint_add with (A := M + M + M + M) (B := M); [|now apply T|lia].
  apply bint_add with (A := M + M + M) (B := M); [|now apply T|lia].
  apply bint_sub with (A := M + M) (B := M); [|now apply T|lia]. apply bint_sub; [now apply T|now apply T|lia].
Qed.

(** ** C11: convexity of polygons with integer coordinates *)
Definition zpt (C : list (Z * Z * Z)) (i : N) : Z * Z * Z := nth (N.to_nat i) C (0, 0, 0).
Definition zcorner_convex (f : list N) (C : list (Z * Z * Z)) (k : nat) : bool :=
  let n := zcross (zsub (zpt C (cyc f 1)) (zpt C (cyc f 0))) (zsub (zpt C (cyc f 2)) (zpt C (cyc f 1))) in
  let A := zpt C (cyc f k) in let B := zpt C (cyc f (k + 1)) in let D := zpt C (cyc f (k + 2)) in
  zdot (zcross (zsub B A) n) (zsub D B) <? 0.
Lemma pt_int P C i M : Forall2 int_point P C -> Forall (coords_within M) C -> (i < nsize P)%N -> bpoint (pt P i) (zpt C i) M.
Proof.
  intros H W L. apply bpoint_iff. unfold nsize in L. assert (N.to_nat i < length P)%nat as L' by lia. clear L. unfold pt, zpt. revert L'. generalize (N.to_nat i) as k. clear i.
  induction H as [|p c P C Hp H IH]; intros k L; cbn in L; [lia|]. inversion W; subst. destruct k as [|k]; cbn [nth]; auto. apply IH; auto. lia.
Qed.
Theorem C11_exact_on_integers f P C : Forall2 int_point P C -> Forall (coords_within (2 ^ 11)) C ->
  (3 < length f)%nat -> (length f <= length P)%nat -> (forall i, In i f -> (i < nsize P)%N) ->
  face_is_convex f P = Ok (forallb (zcorner_convex f C) (seq 0 (length f))).
Proof.
  intros H W L3 LP I. destruct (C11_convexity_value f P LP) as [_ V]. rewrite (V L3 I). f_equal. clear V.
  assert (forall k, (cyc f k < nsize P)%N) as Cy. { intros k. apply I. unfold cyc. apply nth_In. apply Nat.mod_upper_bound. lia. }
  assert (forall k, corner_convex f P k = zcorner_convex f C k) as E.
  { intros k. unfold corner_convex, zcorner_convex, first_normal. cbv zeta.
    pose proof (fun k => pt_int P C _ _ H W (Cy k)) as Q. assert (forall i j, bvect (vec_pp (pt P (cyc f i)) (pt P (cyc f j))) (zsub (zpt C (cyc f j)) (zpt C (cyc f i))) (2 ^ 12)) as E1.
    { intros i j. change (2 ^ 12) with (2 ^ 11 + 2 ^ 11). apply vec_pp_int; auto. reflexivity. }
    pose proof (v_cross_int _ _ _ _ _ _ (E1 0%nat 1%nat) (E1 1%nat 2%nat) ltac:(discriminate) ltac:(discriminate) ltac:(reflexivity)) as N.
    pose proof (v_cross_int _ _ _ _ _ _ (E1 k (k + 1)%nat) N ltac:(discriminate) ltac:(discriminate) ltac:(reflexivity)) as X.
    pose proof (v_dot_int _ _ _ _ _ _ X (E1 (k + 1)%nat (k + 2)%nat) ltac:(discriminate) ltac:(discriminate) ltac:(reflexivity)) as [D _].
    apply Bool.eq_true_iff_eq. rewrite Z.ltb_lt. apply (int_lt _ _ _ _ D). apply represents_zero. }
  induction (seq 0 (length f)) as [|k l IH]; cbn [forallb]; auto. now rewrite E, IH.
Qed.

(** ** C17: unit normals *)
(** when the corner's cross product is a positive multiple of an axis (the corner lies in an
    axis-parallel plane), the normal is that axis, exactly *)
Lemma axis_norm v n u0 u1 u2 : int_vect v (n * u0, n * u1, n * u2) -> 1 <= n < 2 ^ 53 -> u0 * u0 + u1 * u1 + u2 * u2 = 1 -> is_int (v_norm v) n.
Proof.
  intros (W1 & W2 & W3) N U. cbn [fst snd] in *. unfold v_norm. apply int_root_of_square; auto.
  assert (forall x k, is_int x (n * k) -> k * k = 1 -> closest (inject_Z n * inject_Z n) (dmul x x)) as Sq.
  { intros x k X K. apply (closest_ext (inject_Z (n * k) * inject_Z (n * k))%Q); [rewrite <- !inject_Z_mult; apply inject_Z_injective; nia|].
    apply dmul_square; auto; [change 0%Q with (inject_Z 0); rewrite inject_Z_injective; nia|].
    destruct (int_square_range n N) as [_ R]. unfold in_range in *. change (Round_proofs.qz n) with (inject_Z n) in R. rewrite <- inject_Z_mult in *. replace (n * k * (n * k)) with (n * n) by nia. exact R. }
  assert (forall x k, is_int x (n * k) -> k = 0 -> represents (dmul x x) 0) as Ze.
  { intros x k X ->. apply (mul_zero x x (inject_Z (n * 0))); auto. rewrite Z.mul_0_r. reflexivity. }
  assert (forall d d', closest (inject_Z n * inject_Z n) d -> represents d' (dval d) -> closest (inject_Z n * inject_Z n) d') as Tr.
  { intros d d' C R. apply represents_real in R as [R E]. exact (closest_value _ d d' C R E). }
  assert (forall d, closest (inject_Z n * inject_Z n) d -> represents d (dval d)) as Rp by (intros d [R _]; now apply represents_dval).
  unfold v_dot. assert ((u0 * u0 = 1 /\ u1 = 0 /\ u2 = 0) \/ (u0 = 0 /\ u1 * u1 = 1 /\ u2 = 0) \/ (u0 = 0 /\ u1 = 0 /\ u2 * u2 = 1)) as [(H0 & H1 & H2)|[(H0 & H1 & H2)|(H0 & H1 & H2)]].
  { assert (Z.abs u0 <= 1 /\ Z.abs u1 <= 1 /\ Z.abs u2 <= 1) as (K0 & K1 & K2) by nia. assert (u0 = 0 \/ u0 * u0 = 1) as [->|E0] by nia; assert (u1 = 0 \/ u1 * u1 = 1) as [->|E1] by nia; assert (u2 = 0 \/ u2 * u2 = 1) as [->|E2] by nia; lia. }
  - apply (Tr _ _ (Sq _ _ W1 H0)). apply zero_add; [apply Rp; eauto|]. apply add_zero; eauto.
  - apply (Tr _ _ (Sq _ _ W2 H1)). apply add_zero; [|eauto]. apply zero_add; [apply Rp; eauto|eauto].
  - apply (Tr _ _ (Sq _ _ W3 H2)). apply add_zero; [|eauto]. apply add_zero; [apply Rp; eauto|eauto].
Qed.
Theorem C17_axis_normal a b c x y z n u : int_point a x -> int_point b y -> int_point c z ->
  coords_within (2 ^ 24) x -> coords_within (2 ^ 24) y -> coords_within (2 ^ 24) z ->
  zcross (zsub y x) (zsub z y) = zscale n u -> 0 < n -> zdot u u = 1 -> int_vect (normal_to a b c) u.
Proof.
  intros Ha Hb Hc Ca Cb Cc E Pn U. assert (bpoint a x (2 ^ 24)) as A by now apply bpoint_iff. assert (bpoint b y (2 ^ 24)) as B by now apply bpoint_iff. assert (bpoint c z (2 ^ 24)) as C by now apply bpoint_iff.
  pose proof (vec_pp_int _ _ _ _ _ _ A B ltac:(reflexivity)) as V1. pose proof (vec_pp_int _ _ _ _ _ _ B C ltac:(reflexivity)) as V2.
  pose proof (v_cross_int _ _ _ _ _ _ V1 V2 ltac:(discriminate) ltac:(discriminate) ltac:(reflexivity)) as X. rewrite E in X.
  unfold normal_to. set (v := v_cross (vec_pp a b) (vec_pp b c)) in *. clearbody v. clear - X Pn U. destruct u as [[u0 u1] u2]. unfold zscale, zdot in *.
  assert (n <= 2 ^ 51) as Ln. { destruct X as (X1 & X2 & X3). cbn [fst snd] in *. destruct X1 as [_ X1], X2 as [_ X2], X3 as [_ X3]. change ((2 ^ 24 + 2 ^ 24) * (2 ^ 24 + 2 ^ 24) + (2 ^ 24 + 2 ^ 24) * (2 ^ 24 + 2 ^ 24)) with (2 ^ 51) in *.
    assert (u0 <> 0 \/ u1 <> 0 \/ u2 <> 0) as [H|[H|H]] by lia; nia. }
  assert (int_vect v (n * u0, n * u1, n * u2)) as W by (apply (proj1 (proj1 (bvect_iff _ _ _) X))).
  assert (Z.abs u0 <= 1 /\ Z.abs u1 <= 1 /\ Z.abs u2 <= 1) as (K0 & K1 & K2) by nia.
  assert (is_int (v_norm v) n) as Nv by (apply (axis_norm v n u0 u1 u2 W); [lia|exact U]). destruct W as (W1 & W2 & W3). cbn [fst snd] in *.
  assert (forall w k, is_int w (n * k) -> Z.abs k <= 1 -> is_int (ddiv w (v_norm v)) k) as Q.
  { intros w k Hw Hk. assert (inject_Z (n * k) / inject_Z n == inject_Z k)%Q as Eq. { rewrite inject_Z_mult. field. change 0%Q with (inject_Z 0). rewrite inject_Z_injective. lia. }
    apply (represents_ext _ _ _ Eq). apply ddiv_exact; auto.
    - change 0%Q with (inject_Z 0). rewrite inject_Z_injective. lia.
    - destruct (int_double k ltac:(lia)) as [q Hq]. exists q. eapply represents_ext; [symmetry; exact Eq|exact Hq]. }
  unfold v_div. split; [|split]; cbn [vx vy vz fst snd]; apply Q; auto.
Qed.

(** ** C14: integer triangles in axis-parallel planes keep points and orientation *)
Lemma round32_point_int p c : int_point p c -> coords_within (2 ^ 23) c -> int_point (round32_point p) c.
Proof.
  intros (P1 & P2 & P3) (C1 & C2 & C3). unfold round32_point, pt_to_3ds, pt_of_3ds. split; [|split]; cbn [px py pz]; apply round32_int; auto; lia.
Qed.
Lemma zdet_cross x y u n : zcross x y = zscale n u -> zdot u u = 1 -> zdet x y u = n.
Proof. destruct x as [[x0 x1] x2], y as [[y0 y1] y2], u as [[u0 u1] u2]. unfold zcross, zscale, zdet, zdot, zcross. intros E U. injection E as E0 E1 E2.
  transitivity (u0 * (x1 * y2 - x2 * y1) + u1 * (x2 * y0 - x0 * y2) + u2 * (x0 * y1 - x1 * y0)); [ring|]. rewrite E0, E1, E2. transitivity (n * (u0 * u0 + u1 * u1 + u2 * u2)); [ring|]. rewrite U. ring.
Qed.
Theorem C14_axis_aligned m C :
  (length (c_str (m_name m)) < 63)%nat -> (nsize (m_points m) < 65536)%N -> (Z.of_nat (length (m_faces m)) < 2147483648)%Z ->
  mesh_wf m -> (forall f, In f (m_faces m) -> length f = 3%nat) -> (3 <= length (m_points m))%nat ->
  Forall2 int_point (m_points m) C -> Forall (coords_within (2 ^ 23)) C ->
  (forall a b c, In [a; b; c] (m_faces m) -> exists n u, zcross (zsub (zpt C b) (zpt C a)) (zsub (zpt C c) (zpt C b)) = zscale n u /\ 0 < n /\ zdot u u = 1) ->
  exists lm m', mesh_to_3ds m = Ok lm /\ mesh_of_3ds lm = Ok m' /\ m_faces m' = m_faces m /\ Forall2 int_point (m_points m') C.
Proof.
  intros Hn HP HF Hwf H3 H3P HC HB HN. destruct (C14_round_trip m Hn HP HF Hwf H3 H3P) as (lm & m' & E1 & E2 & _ & E3 & _ & E4). exists lm, m'. split; auto. split; auto. split.
  - assert (forall G G', Forall2 (fun f f' => exists a b c, f = [a; b; c] /\ f' = if dltb depsilon (det_3ds (m_points m) a b c) then [a; b; c] else [a; c; b]) G G' -> (forall f, In f G -> In f (m_faces m)) -> G' = G) as A.
    { clear - HC HB HN Hwf. induction 1 as [|f f' G G' (a & b & c & -> & ->) H IH]; intros I; auto. rewrite IH by (intros; apply I; now right). f_equal.
      assert (In [a; b; c] (m_faces m)) as If by (apply I; now left). destruct (Hwf _ If) as [_ Ix]. destruct (HN a b c If) as (n & u & E & Pn & U).
      pose proof (pt_int _ _ a _ HC HB ltac:(apply Ix; cbn; auto)) as A. pose proof (pt_int _ _ b _ HC HB ltac:(apply Ix; cbn; auto)) as B. pose proof (pt_int _ _ c _ HC HB ltac:(apply Ix; cbn; auto)) as D.
      apply bpoint_iff in A as [A A']. apply bpoint_iff in B as [B B']. apply bpoint_iff in D as [D D'].
      assert (is_int (det_3ds (m_points m) a b c) n) as Dt.
      { unfold det_3ds. cbv zeta. assert (forall x, coords_within (2 ^ 23) x -> coords_within (2 ^ 24) x) as Wd by (unfold coords_within; intros; lia). pose proof (C17_axis_normal _ _ _ _ _ _ _ _ A B D (Wd _ A') (Wd _ B') (Wd _ D') E Pn U) as (N1 & N2 & N3).
        rewrite <- (zdet_cross _ _ _ _ E U). assert (coords_within 1 u) as Cu. { destruct u as [[u0 u1] u2]. unfold zdot in U. unfold coords_within. cbn [fst snd]. nia. }
        assert (forall p q x y, int_point p x -> int_point q y -> coords_within (2 ^ 23) x -> coords_within (2 ^ 23) y -> int_vect (pt_sub (round32_point q) (round32_point p)) (zsub y x) /\ coords_within (2 ^ 24) (zsub y x)) as S.
        { intros p q x y P Q Cx Cy. assert (bvect (pt_sub (round32_point q) (round32_point p)) (zsub y x) (2 ^ 23 + 2 ^ 23)) as V.
          { apply vec_pp_int; [apply bpoint_iff; split; auto; now apply round32_point_int|apply bpoint_iff; split; auto; now apply round32_point_int|reflexivity]. }
          apply bvect_iff in V as [V1 (V2 & V3 & V4)]. split; auto. unfold coords_within. lia. }
        destruct (S _ _ _ _ A B A' B') as [S1 S2]. destruct (S _ _ _ _ B D B' D') as [S3 S4].
        apply (C16_determinant_exact _ _ _ _ _ _ (2 ^ 24) (2 ^ 24) 1); auto; [|lia|reflexivity]. destruct Cu as (U0 & U1 & U2). split; [|split]; cbn [vx vy vz]; apply round32_int; auto; lia. }
      assert (dltb depsilon (det_3ds (m_points m) a b c) = true) as ->; auto.
      apply (dlt_represents _ _ (1 # 4503599627370496) (inject_Z n)); [|exact Dt|].
      - split; [reflexivity|]. eexists. split; [reflexivity|]. vm_compute. reflexivity.
      - apply Qlt_le_trans with (inject_Z 1); [reflexivity|]. rewrite <- Zle_Qle. lia. }
    apply (A _ _ E4); auto.
  - rewrite E3. clear - HC HB. induction HC as [|p c P C Hp H IH]; cbn [map]; constructor; inversion HB; subst; auto. now apply round32_point_int.
Qed.

(** ** Examples *)
Lemma is_int_ofZ_check x z : match dvalue x with Some v => Qeq_bool v (inject_Z z) | None => false end = true -> dvalid x = true -> is_int x z.
Proof. intros H V. split; auto. destruct (dvalue x) as [v|]; [|discriminate]. exists v. split; auto. now apply Qeq_bool_eq. Qed.
Ltac ints := repeat (apply is_int_ofZ_check; vm_compute; reflexivity || split).
Definition box_points : list point := map (fun c => let '(x, y, z) := c in mkPoint (dofZ x) (dofZ y) (dofZ z)) [(0, 0, 5); (4, 0, 5); (4, 3, 5); (0, 3, 5); (0, 0, 0)].
Definition box_coords : list (Z * Z * Z) := [(0, 0, 5); (4, 0, 5); (4, 3, 5); (0, 3, 5); (0, 0, 0)].
Example C11_integer_example : Forall2 int_point box_points box_coords /\ Forall (coords_within (2 ^ 11)) box_coords /\
  forallb (zcorner_convex [0; 1; 2; 3]%N box_coords) (seq 0 4) = true /\ forallb (zcorner_convex [0; 2; 1; 3]%N box_coords) (seq 0 4) = false.
Proof.
  split; [repeat constructor; try (vm_compute; reflexivity); try (eexists; split; [reflexivity|vm_compute; reflexivity])|]. split; [|split; vm_compute; reflexivity].
  repeat constructor; cbn [fst snd]; vm_compute; discriminate.
Qed.
Example C14_axis_example : exists n u, zcross (zsub (zpt box_coords 1) (zpt box_coords 0)) (zsub (zpt box_coords 2) (zpt box_coords 1)) = zscale n u /\ 0 < n /\ zdot u u = 1.
Proof. exists 12, (0, 0, 1). split; [reflexivity|]. split; reflexivity. Qed.
Example C14_wall_example : exists n u, zcross (zsub (zpt box_coords 4) (zpt box_coords 0)) (zsub (zpt box_coords 1) (zpt box_coords 4)) = zscale n u /\ 0 < n /\ zdot u u = 1.
Proof. exists 20, (0, -1, 0). split; [reflexivity|]. split; reflexivity. Qed.
