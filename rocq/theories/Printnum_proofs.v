(** * Printnum_proofs: the default notation of doubles and of unsigned integers. *)
From Verif Require Import Base Dbl Decimal Round_proofs Rn_proofs Scan_proofs Spec_text Spec_num Nearest_proofs Num_proofs.
From Coq Require Import QArith Qpower Qabs Lqa.
Open Scope Z_scope.

Lemma rstrip0_last s : rstrip0 s = [] \/ exists t c, rstrip0 s = t ++ [c] /\ c <> zero.
Proof.
  induction s as [|c s IH]; [auto|]. cbn [rstrip0]. destruct (rstrip0 s) as [|c' s'] eqn:E.
  - destruct (Ascii.eqb_spec c ch_0) as [->|N]; [auto|]. right. exists [], c. auto.
  - right. destruct IH as [H|(t & c0 & H & N)]; [discriminate|]. exists (c :: t), c0. rewrite H. auto.
Qed.
Lemma dot_frac_text F : Forall isdig F -> fraction_text (dot_frac F) (map dig F).
Proof. intros D. destruct F as [|c F]; [constructor|]. cbn [dot_frac]. constructor. now apply digits_text_spec. Qed.
Lemma tidy_dot F : (F = [] \/ exists t c, F = t ++ [c] /\ c <> zero) -> tidy_fraction (dot_frac F).
Proof. intros [->|(t & c & -> & N)]; [now left|]. right. exists t, c. split; [|auto]. destruct t; reflexivity. Qed.
Lemma lead_digit c t : Forall isdig (c :: t) -> 10 ^ Z.of_nat (length t) <= numval 0 (c :: t) -> c <> zero.
Proof.
  intros F L ->. change (zero :: t) with ([zero] ++ t) in L. rewrite numval_app in L. change (numval 0 [zero]) with 0 in L. inversion F as [|? ? _ Ft]; subst. clear F.
  assert (numval 0 t < 10 ^ Z.of_nat (length t)) as H; [|lia]. clear L. rewrite <- positional_numval. induction Ft as [|c t D F IH]; [reflexivity|].
  cbn [map positional length]. destruct (dig_code c D). rewrite map_length. rewrite Nat2Z.inj_succ, Z.pow_succ_r by lia. nia.
Qed.
Lemma zero_digit : isdig zero.
Proof. discriminate. Qed.

Lemma print_nat_tidy_fuel f : forall n, 0 < n -> n < 2 ^ Z.of_nat f -> exists c t, digits_fuel f n [] = c :: t /\ c <> zero.
Proof.
  induction f as [|f IH]; intros n P L; [cbn in L; lia|]. cbn [digits_fuel]. destruct (Z.leb_spec n 0); [lia|]. rewrite digits_fuel_app.
  destruct (Z.le_gt_cases (n / 10) 0) as [Z|Z].
  - assert (n / 10 = 0) as E by (pose proof (Z.div_pos n 10); lia). rewrite E. exists (digit_char (n mod 10)), []. assert (n < 10) as L10 by (apply Z.div_small_iff in E; lia). rewrite Z.mod_small by lia.
    split. { destruct f; reflexivity. }
    intros C. assert (char_digit (digit_char n) = char_digit zero) as X by now rewrite C. rewrite char_digit_char in X by lia. cbv in X. injection X. lia.
  - destruct (IH (n / 10)) as (c & t & -> & N); [lia| |].
    + rewrite Nat2Z.inj_succ, Z.pow_succ_r in L by lia. apply Z.div_lt_upper_bound; [lia|]. assert (0 < 2 ^ Z.of_nat f) by (apply Z.pow_pos_nonneg; lia). lia.
    + exists c, (t ++ [digit_char (n mod 10)]). auto.
Qed.
Lemma print_nat_text n : 0 <= n -> nat_text (print_nat n) n /\ (print_nat n = [zero] \/ hd zero (print_nat n) <> zero).
Proof.
  intros P. split. { apply nat_text_spec. destruct (print_nat_spec n P) as (A & B & C). auto. }
  unfold print_nat. destruct (Z.eqb_spec n 0); [now left|]. right.
  assert (n < 2 ^ Z.of_nat (Z.to_nat (Z.log2 n + 1))) as L by (rewrite Z2Nat.id by (pose proof (Z.log2_nonneg n); lia); apply Z.log2_spec; lia).
  destruct (print_nat_tidy_fuel _ n ltac:(lia) L) as (c & t & -> & N). exact N.
Qed.
Lemma exp_digits x : let u := (if Z.abs x <? 10 then ch_0 :: print_nat (Z.abs x) else print_nat (Z.abs x)) in
  nat_text u (Z.abs x) /\ (2 <= length u)%nat /\ (length u = 2%nat \/ hd zero u <> zero).
Proof.
  cbv zeta. destruct (print_nat_text (Z.abs x) ltac:(lia)) as [T H]. apply nat_text_spec in T as (F & NE & V). destruct (Z.ltb_spec (Z.abs x) 10) as [L|L].
  - assert (length (print_nat (Z.abs x)) = 1%nat) as L1.
    { destruct (print_nat (Z.abs x)) as [|c t]; [easy|]. destruct t as [|c' t]; [reflexivity|exfalso]. assert (c <> zero) as Nc by (destruct H as [H|H]; [discriminate|exact H]).
      assert (10 <= numval 0 (c :: c' :: t)) as Ge; [|lia]. rewrite <- positional_numval. cbn [map positional]. inversion F as [|? ? D F']; subst. pose proof (numval_nonneg _ F') as P. rewrite <- positional_numval in P.
      destruct (dig_code c D) as [Dc Db]. assert (dig c <> 0) as Dn. { intros E. apply Nc. rewrite E in Dc. assert (N_of_ascii c = 48%N) as E' by lia. rewrite <- (ascii_N_embedding c), E'. reflexivity. }
      cbn [map positional] in P. assert (10 <= 10 ^ Z.of_nat (length (dig c' :: map dig t))) as Pw. { cbn [length]. rewrite Nat2Z.inj_succ, Z.pow_succ_r by lia. assert (0 < 10 ^ Z.of_nat (length (map dig t))) by (apply Z.pow_pos_nonneg; lia). lia. } nia. }
    split; [|split; [cbn [length]; lia|left; cbn [length]; lia]]. apply nat_text_spec. split; [constructor; auto; apply zero_digit|]. split; [discriminate|]. change (ch_0 :: print_nat (Z.abs x)) with ([ch_0] ++ print_nat (Z.abs x)). rewrite numval_app. exact V.
  - destruct (print_nat (Z.abs x)) as [|c t] eqn:E; [easy|]. assert (2 <= length (c :: t))%nat as L2.
    { destruct t as [|c' t]; [exfalso|cbn; lia]. inversion F as [|? ? D _]; subst. unfold numval in V. cbn [fold_left] in V. destruct (dig_code c D). lia. }
    split; [apply nat_text_spec; auto|]. split; [auto|]. right. destruct H as [H|H]; [rewrite H in L2; cbn in L2; lia|exact H].
Qed.
Lemma pow10_eq (D e D' e' : Z) j : D * 10 ^ Z.of_nat j = D' -> e = e' + Z.of_nat j -> (inject_Z D * (10#1) ^ e == inject_Z D' * (10#1) ^ e')%Q.
Proof.
  intros <- ->. change (10#1)%Q with (qz 10). change (qz 10 ^ (e' + Z.of_nat j))%Q with (pw 10 (e' + Z.of_nat j)). change (qz 10 ^ e')%Q with (pw 10 e'). rewrite pw_add by lia. rewrite (pw_Z 10 (Z.of_nat j)) by lia.
  change inject_Z with qz. rewrite qz_mul. ring.
Qed.
Lemma fmt_g_text s d x : 100000 <= d <= 999999 -> default_text s d x (fmt_g s d x).
Proof.
  intros Hd. unfold fmt_g.
  destruct (fixed_digits_spec 6 d ltac:(change (10 ^ Z.of_nat 6) with 1000000; lia)) as (D1 & D2 & D3).
  set (ds := fixed_digits 6 d []) in *.
  assert (hd zero ds <> zero) as Hl. { destruct ds as [|c t]; [discriminate|]. cbn [hd]. apply lead_digit with t; auto. cbn [length] in D2. injection D2 as ->. change (10 ^ Z.of_nat 5) with 100000. lia. }
  assert (forall k, (1 <= k <= 6)%nat -> exists j, let I := firstn k ds in let F := rstrip0 (skipn k ds) in
    Forall isdig I /\ I <> [] /\ Forall isdig F /\ (length F + j = 6 - k)%nat /\ numval 0 (I ++ F) * 10 ^ Z.of_nat j = d /\ hd zero I = hd zero ds) as Hsplit.
  { intros k Hk. destruct (rstrip0_spec (skipn k ds)) as [j Ej]. exists j. cbn zeta.
    assert (Forall isdig (firstn k ds ++ skipn k ds)) as HF by (rewrite firstn_skipn; auto).
    apply Forall_app in HF as [HF1 HF2]. rewrite Ej in HF2. apply Forall_app in HF2 as [HF2 _].
    split; auto. split. { intros E. assert (length (firstn k ds) = k) by (rewrite firstn_length; lia). rewrite E in H. cbn in H. lia. }
    split; auto. split. { assert (length (skipn k ds) = 6 - k)%nat as L by (rewrite skipn_length; lia). rewrite Ej, app_length, repeat_length in L. lia. }
    split. { rewrite <- numval_zeros, <- numval_app, <- app_assoc, <- Ej, firstn_skipn. auto. }
    destruct k as [|k]; [lia|]. destruct ds; reflexivity. }
  unfold default_text. change (sign_str s) with (sign_of s).
  destruct ((-4 <=? x) && (x <? 6))%bool eqn:Eg.
  - apply andb_true_iff in Eg as [G1 G2]. apply Z.leb_le in G1. apply Z.ltb_lt in G2.
    destruct (Z.leb_spec 0 x) as [H0|H0].
    + destruct (Hsplit (Z.to_nat (x + 1)) ltac:(lia)) as (j & HI & Hne & HF & HL & HV & HH). cbv zeta in *. set (I := firstn (Z.to_nat (x + 1)) ds) in *. set (F := rstrip0 (skipn (Z.to_nat (x + 1)) ds)) in *.
      exists I, (map dig I), (dot_frac F), (map dig F), [], 0. rewrite app_nil_r. split; [reflexivity|]. split; [now apply digits_text_spec|]. split; [now apply dot_frac_text|]. split; [constructor|].
      split. { rewrite <- map_app, positional_numval, map_length. apply pow10_eq with j; auto. lia. }
      split; [apply tidy_dot, rstrip0_last|]. split; [auto|]. split; [auto|]. right. now rewrite HH.
    + destruct (rstrip0_spec ds) as [j Ej].
      assert (Forall isdig (rstrip0 ds)) as HF. { rewrite Ej in D1. apply Forall_app in D1. tauto. }
      assert (length (rstrip0 ds) + j = 6)%nat as HL. { pose proof (f_equal (@length ascii) Ej) as L. rewrite app_length, repeat_length in L. lia. }
      set (Zs := repeat ch_0 (Z.to_nat (- x - 1))). assert (Forall isdig (Zs ++ rstrip0 ds)) as DF by (apply Forall_app; split; [apply isdig_zeros|auto]).
      exists [zero], [0], (dot_frac (Zs ++ rstrip0 ds)), (map dig (Zs ++ rstrip0 ds)), [], 0. rewrite app_nil_r. split; [reflexivity|].
      split. { apply digits_text_spec. split; [repeat constructor; apply zero_digit|reflexivity]. } split; [now apply dot_frac_text|]. split; [constructor|]. split.
      { change ([0] ++ map dig (Zs ++ rstrip0 ds)) with (map dig ([zero] ++ Zs ++ rstrip0 ds)). rewrite positional_numval, map_length. apply pow10_eq with j.
        - rewrite !numval_app. unfold numval at 3. cbn [fold_left]. change (10 * 0 + dig zero) with 0. unfold Zs. rewrite numval_zeros, Z.mul_0_l. rewrite <- numval_zeros, <- numval_app, <- Ej. auto.
        - unfold Zs. rewrite app_length, repeat_length. lia. }
      split. { apply tidy_dot. destruct (rstrip0_last ds) as [E|(t & c & -> & Nc)].
        - exfalso. rewrite E in Ej. cbn [app] in Ej. destruct ds as [|c t]; [discriminate|]. destruct j; [discriminate|]. injection Ej as -> _. now apply Hl.
        - right. exists (Zs ++ t), c. now rewrite app_assoc. }
      split; [auto|]. split; [discriminate|]. now left.
  - destruct (Hsplit 1%nat ltac:(lia)) as (j & HI & Hne & HF & HL & HV & HH). cbv zeta in *. set (I := firstn 1 ds) in *. set (F := rstrip0 (skipn 1 ds)) in *.
    destruct (exp_digits x) as (U1 & U2 & U3). set (u := (if Z.abs x <? 10 then ch_0 :: print_nat (Z.abs x) else print_nat (Z.abs x))) in *.
    exists I, (map dig I), (dot_frac F), (map dig F), (exp_str x), x. split; [reflexivity|]. split; [now apply digits_text_spec|]. split; [now apply dot_frac_text|]. split.
    { unfold exp_str. fold u. destruct (Z.ltb_spec x 0) as [L|L].
      - pose proof (exponent "e"%char [minus] true u (Z.abs x) (or_introl eq_refl) minus_sign U1) as K. cbv iota in K. replace (- Z.abs x) with x in K by lia. exact K.
      - pose proof (exponent "e"%char [plus] false u (Z.abs x) (or_introl eq_refl) plus_sign U1) as K. cbv iota in K. replace (Z.abs x) with x in K by lia. exact K. }
    split. { rewrite <- map_app, positional_numval, map_length. apply pow10_eq with j; auto. lia. }
    split; [apply tidy_dot, rstrip0_last|]. split; [unfold I; rewrite firstn_length; lia|]. split; [intros E; rewrite E in HH; now apply Hl; rewrite <- HH|].
    exists (if x <? 0 then minus else plus), u. unfold exp_str. fold u. split; [destruct (x <? 0); reflexivity|]. split; [destruct (x <? 0); auto|]. split; [auto|]. split; [auto|]. split; [auto|].
    destruct (Z.ltb_spec x 0); split; try discriminate; auto; lia.
Qed.
Theorem print_dbl_text x : real_double x -> ~ (dval x == 0)%Q ->
  exists D X, six_digits (Qabs (dval x)) D X /\ default_text (negative x) D X (print_dbl x).
Proof.
  intros [V F] N. destruct x as [s|s| |s m e]; try discriminate; [now destruct N|]. cbn [print_dbl negative].
  pose proof (frac_rat m e) as Fr. destruct (frac m e) as [a b]. destruct Fr as (A & B & R). pose proof (dec6_nearest a b A B) as S. destruct (dec6 a b) as [D X].
  assert (Qabs (dval (S754_finite s m e)) == rat a b)%Q as E.
  { rewrite dval_finite, R, Qabs_Qmult. assert (Qabs (if s then -1 else 1) == 1)%Q as -> by (destruct s; reflexivity). rewrite Qabs_pos; [ring|]. pose proof (pw_pos 2 e ltac:(lia)). pose proof (qz_pos (Zpos m) ltac:(lia)). nra. }
  exists D, X. split; [|apply fmt_g_text; apply S]. destruct S as [S1 S2]. split; auto. intros D' X' HD v w. specialize (S2 D' X' HD). cbv zeta in S2. fold v w in S2. now rewrite E.
Qed.
(** ** the six digits are unique *)
Definition dec (D X : Z) : Q := qz D * pw 10 (X - 5).
Lemma dec_grid D X D' X' : 100000 <= D <= 999999 -> 100000 <= D' <= 999999 -> (dec D X < dec D' X')%Q -> X <= X' /\ exists k, (dec D' X' == qz k * pw 10 (X - 5))%Q /\ D + 1 <= k.
Proof.
  unfold dec. intros H H' L. pose proof (pw_pos 10 (X - 5) ltac:(lia)) as P. destruct (Z.le_gt_cases X X') as [Le|Lt].
  - split; auto. exists (D' * 10 ^ (X' - 5 - (X - 5))). pose proof (pw_mult 10 (X - 5) (X' - 5) D' ltac:(lia) ltac:(lia)) as E. split; auto.
    rewrite E in L. apply Qmult_lt_r in L; auto. apply qz_lt in L. lia.
  - exfalso. assert (qz D' * pw 10 (X' - 5) < qz 1000000 * pw 10 (X' - 5))%Q as A. { apply Qmult_lt_r; [apply pw_pos; lia|]. apply (proj1 (qz_lt _ _)). lia. }
    assert (qz 100000 * pw 10 (X - 5) <= qz D * pw 10 (X - 5))%Q as B. { apply Qmult_le_r; auto. apply (proj1 (qz_le _ _)). lia. }
    assert (pw 10 (6 + (X' - 5)) <= pw 10 (5 + (X - 5)))%Q as C by (apply pw_le; lia). rewrite !pw_add, (pw_Z 10 6), (pw_Z 10 5) in C by lia. change (10 ^ 6) with 1000000 in C. change (10 ^ 5) with 100000 in C. lra.
Qed.
Lemma dec_inj D X D' X' : 100000 <= D <= 999999 -> 100000 <= D' <= 999999 -> (dec D X == dec D' X')%Q -> D = D' /\ X = X'.
Proof.
  assert (forall D X D' X', 100000 <= D <= 999999 -> 100000 <= D' <= 999999 -> X < X' -> (dec D X < dec D' X')%Q) as M.
  { unfold dec. clear. intros D X D' X' H H' L. assert (qz D * pw 10 (X - 5) < qz 1000000 * pw 10 (X - 5))%Q as A. { apply Qmult_lt_r; [apply pw_pos; lia|]. apply (proj1 (qz_lt _ _)). lia. }
    assert (qz 100000 * pw 10 (X' - 5) <= qz D' * pw 10 (X' - 5))%Q as B. { apply Qmult_le_r; [apply pw_pos; lia|]. apply (proj1 (qz_le _ _)). lia. }
    assert (pw 10 (6 + (X - 5)) <= pw 10 (5 + (X' - 5)))%Q as C by (apply pw_le; lia). rewrite !pw_add, (pw_Z 10 6), (pw_Z 10 5) in C by lia. change (10 ^ 6) with 1000000 in C. change (10 ^ 5) with 100000 in C. lra. }
  intros H H' E. assert (X = X') as <-.
  { destruct (Z.lt_trichotomy X X') as [L|[L|L]]; auto; exfalso; [pose proof (M D X D' X' H H' L)|pose proof (M D' X' D X H' H L)]; lra. }
  split; auto. unfold dec in E. apply Qmult_inj_r in E; [now apply qz_eq|]. pose proof (pw_pos 10 (X - 5) ltac:(lia)). lra.
Qed.
Lemma between_closer q v v' w : (v < v')%Q -> (v' < w)%Q -> (Qabs (v - q) == Qabs (w - q))%Q -> (Qabs (v' - q) < Qabs (v - q))%Q.
Proof.
  intros A B E. 
  destruct (Qlt_le_dec q v) as [L|L].
  - exfalso. rewrite (Qabs_pos (v - q)), (Qabs_pos (w - q)) in E by lra. lra.
  - rewrite (Qabs_neg (v - q)) in * by lra. destruct (Qlt_le_dec w q) as [L'|L']; [rewrite (Qabs_neg (w - q)) in E by lra; lra|]. rewrite (Qabs_pos (w - q)) in E by lra.
    destruct (Qlt_le_dec v' q); [rewrite Qabs_neg by lra; lra|rewrite Qabs_pos by lra; lra].
Qed.
Theorem six_digits_unique q D X D' X' : six_digits q D X -> six_digits q D' X' -> D = D' /\ X = X'.
Proof.
  intros [H1 H2] [H1' H2']. destruct (H2 D' X' H1') as [A B]. destruct (H2' D X H1) as [A' B'].
  change (inject_Z D * (10 # 1) ^ (X - 5))%Q with (dec D X) in *. change (inject_Z D' * (10 # 1) ^ (X' - 5))%Q with (dec D' X') in *.
  destruct (Qeq_dec (dec D X) (dec D' X')) as [E|N]; [now apply dec_inj|exfalso].
  assert (Qabs (dec D X - q) == Qabs (dec D' X' - q))%Q as T by lra. specialize (B T N). specialize (B' (Qeq_sym _ _ T) ltac:(intros X0; apply N; now rewrite X0)).
  assert (forall D X D' X', 100000 <= D <= 999999 -> 100000 <= D' <= 999999 -> (forall D' X', 100000 <= D' <= 999999 -> (Qabs (dec D X - q) <= Qabs (dec D' X' - q))%Q) ->
    Z.even D = true -> Z.even D' = true -> (Qabs (dec D X - q) == Qabs (dec D' X' - q))%Q -> (dec D X < dec D' X')%Q -> False) as Main.
  { clear. intros D X D' X' H H' Min Ev Ev' T L. destruct (dec_grid D X D' X' H H' L) as (Lx & k & K & Lk).
    assert (D <> 999999) as Nd by (intros ->; discriminate).
    pose proof (pw_pos 10 (X - 5) ltac:(lia)) as P.
    assert (dec D X < dec (D + 1) X)%Q as L1. { unfold dec. apply Qmult_lt_r; auto. apply (proj1 (qz_lt _ _)). lia. }
    assert (dec (D + 1) X < dec D' X')%Q as L2.
    { assert (dec (D + 1) X <= dec D' X')%Q as L2. { rewrite K. unfold dec. apply Qmult_le_r; auto. apply (proj1 (qz_le _ _)). lia. }
      apply Qle_lt_or_eq in L2 as [L2|L2]; [auto|exfalso]. assert (D + 1 = D' /\ X = X') as [<- _] by (apply dec_inj; auto; lia). rewrite Z.add_1_r, Z.even_succ, <- Z.negb_even, Ev in Ev'. discriminate. }
    pose proof (between_closer q _ _ _ L1 L2 T) as C. specialize (Min (D + 1) X ltac:(lia)). lra. }
  destruct (Qlt_le_dec (dec D X) (dec D' X')) as [L|L].
  - apply (Main D X D' X'); auto. intros D0 X0 H0. now destruct (H2 D0 X0 H0).
  - apply Qle_lt_or_eq in L as [L|L]; [|apply N; now rewrite L]. apply (Main D' X' D X); auto; [|now symmetry]. intros D0 X0 H0. now destruct (H2' D0 X0 H0).
Qed.
