(** * Property C41 about the doubles of Adjacency_stream. *)
From Verif Require Import Base Dbl Decimal Shadow Streams Handlers Geom Surface Spec_surface Spec_text Spec_num Spec_arith Spec_edges Arith_proofs Nearest_proofs Sum_proofs Rootsq_proofs Props_num Props_surface Side.
From Coq Require Import QArith Qabs Qround Lqa.
From Verif Require Import Round_proofs.
Close Scope Q_scope.
Open Scope nat_scope.

Lemma in_range_size k : (0 <= k < 2 ^ 64)%Z -> in_range (inject_Z k).
Proof.
  intros K. unfold in_range. rewrite Qabs_pos by (change 0%Q with (inject_Z 0); rewrite <- Zle_Qle; lia). rewrite <- Zlt_Qlt. assert (2 ^ 64 < 2 ^ 1024 - 2 ^ 970)%Z by reflexivity. lia.
Qed.
Lemma dofZ_nearest k : (0 <= k < 2 ^ 64)%Z -> nearest_double (inject_Z k) (dofZ k).
Proof.
  intros K. destruct (normalize_correct k 0) as [A _]. assert (qz k * pw 2 0 == inject_Z k)%Q as E by (rewrite pw_0; unfold qz; ring).
  apply (nearest_ext _ _ _ E). apply A. pose proof (in_range_size k K) as R. unfold in_range in *. now rewrite E.
Qed.
(** the side: the root of a square; in all cases a number below 2^32 *)
Lemma side_square n : (0 <= n < 2 ^ 32)%Z -> side_d (Z.to_N (n * n)) = Ok (Z.to_N n).
Proof.
  intros H. unfold side_d. rewrite Z2N.id by nia. apply C81_index. rewrite Z2N.id by lia.
  assert (is_int (dsqrt (dofZ (n * n))) n) as I'.
  { destruct (Z.eq_dec n 0) as [->|N0]; [split; [reflexivity|]; exists 0%Q; split; reflexivity|].
    apply int_root_of_square; [lia|]. apply nearest_closest. apply (nearest_ext (inject_Z (n * n))); [rewrite inject_Z_mult; reflexivity|]. apply dofZ_nearest. nia. }
  apply represents_real in I' as [[_ F] E]. split; auto. split; [lia|]. left. rewrite E. rewrite <- Zle_Qle, <- Zlt_Qlt. lia.
Qed.
Lemma side_bound k : (k < 2 ^ 63)%N -> exists n, side_d k = Ok n /\ (n < 2 ^ 32)%N.
Proof.
  intros K. unfold side_d. set (d := dofZ (Z.of_N k)).
  assert (nearest_double (inject_Z (Z.of_N k)) d) as [R D] by (apply dofZ_nearest; lia). clearbody d.
  assert (0 <= inject_Z (Z.of_N k))%Q as Pk by (change 0%Q with (inject_Z 0); rewrite <- Zle_Qle; lia). assert (inject_Z (Z.of_N k) <= inject_Z (2 ^ 63))%Q as Lk by (rewrite <- Zle_Qle; lia).
  assert (0 <= dval d)%Q as Pd. { destruct (D dzero) as [A _]; [now split|]. change (dval dzero) with 0%Q in A.
    destruct (Qlt_le_dec (dval d) 0) as [L|]; auto. exfalso. rewrite Qabs_neg in A by lra. rewrite Qabs_neg in A by lra. lra. }
  assert (dval d <= inject_Z (2 ^ 63))%Q as Ud.
  { destruct (grid_double 1 63) as (m & e & V & E); [lia|lia|]. destruct (D (S754_finite false m e)) as [A _]; [now split|]. rewrite dval_finite, Qmult_1_l, E in A.
    assert (qz 1 * pw 2 63 == inject_Z (2 ^ 63))%Q as E2 by (rewrite pw_Z by lia; reflexivity). rewrite E2 in A.
    rewrite (Qabs_pos (inject_Z (2 ^ 63) - _)) in A by lra. apply Qabs_Qle_condition in A. lra. }
  pose proof (root_correct d R Pd) as (Ry & Py & H). set (y := dsqrt d) in *. clearbody y.
  destruct (int_double (2 ^ 32 - 1)) as [z Z]; [reflexivity|]. apply represents_real in Z as [Rz Ez]. destruct (H z Rz) as [_ Dn]; [rewrite Ez; change 0%Q with (inject_Z 0); rewrite <- Zle_Qle; lia|].
  rewrite Ez in Dn.
  assert (dval y <= inject_Z (2 ^ 32 - 1))%Q as Uy.
  { destruct (Qlt_le_dec (inject_Z (2 ^ 32 - 1)) (dval y)) as [C|]; auto. exfalso. specialize (Dn C).
    assert (inject_Z (2 ^ 32 - 1) <= (1 # 2) * (dval y + inject_Z (2 ^ 32 - 1)))%Q as M by lra.
    set (t := ((1 # 2) * (dval y + inject_Z (2 ^ 32 - 1)))%Q) in *. clearbody t. assert (0 <= inject_Z (2 ^ 32 - 1))%Q as P0 by discriminate.
    assert (inject_Z (2 ^ 32 - 1) * inject_Z (2 ^ 32 - 1) <= t * t)%Q as T by (clear -M P0; generalize dependent (inject_Z (2 ^ 32 - 1)); intros; nra).
    assert (inject_Z (2 ^ 63) < inject_Z (2 ^ 32 - 1) * inject_Z (2 ^ 32 - 1))%Q as C2 by reflexivity. clear -T Dn Ud C2. lra. }
  assert (0 <= Qfloor (dval y) <= 2 ^ 32 - 1)%Z as Fl. { split; [change 0%Z with (Qfloor (inject_Z 0)); now apply Qfloor_resp_le|]. rewrite <- (Qfloor_Z (2 ^ 32 - 1)). now apply Qfloor_resp_le. }
  exists (Z.to_N (Qfloor (dval y))). split; [|lia]. apply C81_index. rewrite Z2N.id by lia. split; [apply Ry|]. split; [lia|]. left. split; [apply Qfloor_le|apply Qlt_floor].
Qed.
(** the computation in doubles prints the same text and refuses the same vectors, whatever the
    size; std::vector<bool>::max_size() is below 2^63 *)
Theorem C41_side m : (nsize m < 2 ^ 63)%N -> adjacency_print_d m = adjacency_print m.
Proof.
  intros L. unfold adjacency_print_d, adjacency_print. destruct (Nat.eqb_spec (Nat.sqrt (length m) * Nat.sqrt (length m)) (length m)) as [E|N].
  - set (n := Nat.sqrt (length m)) in *. assert (nsize m = Z.to_N (Z.of_nat n * Z.of_nat n)) as S by (unfold nsize; lia).
    assert (0 <= Z.of_nat n < 2 ^ 32)%Z as B by nia. rewrite S at 1. rewrite (side_square _ B). cbn [bind]. rewrite N.mod_small by (unfold two64; nia).
    replace (Z.to_N (Z.of_nat n) * Z.to_N (Z.of_nat n))%N with (nsize m) by lia. rewrite N.eqb_refl. replace (N.to_nat (Z.to_N (Z.of_nat n))) with n by lia. reflexivity.
  - destruct (side_bound _ L) as (n & -> & B). cbn [bind]. rewrite N.mod_small by (unfold two64; nia). destruct (N.eqb_spec (n * n) (nsize m)) as [E|]; auto.
    exfalso. apply N. unfold nsize in E. replace (length m) with (N.to_nat n * N.to_nat n)%nat by lia. now rewrite Nat.sqrt_square.
Qed.
(** the side of a size that is not a square may be above its root *)
Example C41_side_example : side_d (94906267 * 94906267 - 1)%N = Ok 94906267%N /\ side_d (94906267 * 94906267)%N = Ok 94906267%N /\ side_d 8 = Ok 2%N /\ adjacency_print_d [true; false; false] = Throw LogicError.
Proof. vm_compute. auto. Qed.
