(** * Scanning back what was printed. *)
From Verif Require Import Base Dbl Decimal Round_proofs Rn_proofs.
From Coq Require Import QArith Qpower Qabs Lqa.
Open Scope Z_scope.

Definition dig (c : ascii) : Z := match char_digit c with Some d => d | None => 0 end.
Definition isdig (c : ascii) : Prop := char_digit c <> None.
Definition numval (v : Z) (ds : str) : Z := fold_left (fun v c => 10 * v + dig c) ds v.
Definition nodig (s : str) : Prop := match s with [] => True | c :: _ => char_digit c = None end.

Lemma char_digit_char n : 0 <= n < 10 -> char_digit (digit_char n) = Some n.
Proof.
  intros H. assert (n = 0 \/ n = 1 \/ n = 2 \/ n = 3 \/ n = 4 \/ n = 5 \/ n = 6 \/ n = 7 \/ n = 8 \/ n = 9) as D by lia.
  repeat (destruct D as [->|D]; [reflexivity|]). subst. reflexivity.
Qed.
Lemma isdig_char n : 0 <= n < 10 -> isdig (digit_char n).
Proof. intros H. unfold isdig. rewrite char_digit_char by auto. discriminate. Qed.
Lemma dig_char n : 0 <= n < 10 -> dig (digit_char n) = n.
Proof. intros H. unfold dig. rewrite char_digit_char by auto. reflexivity. Qed.
Lemma numval_app v a b : numval v (a ++ b) = numval (numval v a) b.
Proof. unfold numval. apply fold_left_app. Qed.
Lemma numval_lin ds : forall v, numval v ds = v * 10 ^ Z.of_nat (length ds) + numval 0 ds.
Proof.
  induction ds as [|c ds IH]; intros v; cbn [numval fold_left length].
  - cbn. lia.
  - fold (numval (10 * v + dig c) ds). fold (numval (10 * 0 + dig c) ds). rewrite IH, (IH (10 * 0 + dig c)).
    rewrite Nat2Z.inj_succ, Z.pow_succ_r by lia. ring.
Qed.

Lemma scan_digits_app ds : forall v n rest, Forall isdig ds -> nodig rest ->
  scan_digits v n (ds ++ rest) = (numval v ds, (n + length ds)%nat, rest).
Proof.
  induction ds as [|c ds IH]; intros v n rest Hd Hr; cbn [app].
  - rewrite Nat.add_0_r. destruct rest as [|c r]; cbn in *; auto. rewrite Hr. reflexivity.
  - inversion Hd as [|? ? Hc Hds]; subst. cbn [scan_digits length]. destruct (char_digit c) as [d|] eqn:E; [|contradiction].
    rewrite IH by auto. cbn [numval fold_left]. unfold dig at 2. rewrite E. f_equal. f_equal. lia.
Qed.

(** ** digits of integers *)
Lemma fixed_digits_app k : forall n acc, fixed_digits k n acc = fixed_digits k n [] ++ acc.
Proof.
  induction k as [|k IH]; intros n acc; cbn [fixed_digits]; auto.
  rewrite IH, (IH _ [_]), <- app_assoc. reflexivity.
Qed.
Lemma fixed_digits_spec k : forall n, 0 <= n < 10 ^ Z.of_nat k ->
  Forall isdig (fixed_digits k n []) /\ length (fixed_digits k n []) = k /\ numval 0 (fixed_digits k n []) = n.
Proof.
  induction k as [|k IH]; intros n H; cbn [fixed_digits].
  - split; [constructor|]. split; auto. cbn in *. lia.
  - rewrite Nat2Z.inj_succ, Z.pow_succ_r in H by lia.
    pose proof (Z.div_mod n 10 ltac:(lia)). pose proof (Z.mod_pos_bound n 10 ltac:(lia)).
    destruct (IH (n / 10)) as (I1 & I2 & I3).
    { split; [apply Z.div_pos; lia|apply Z.div_lt_upper_bound; lia]. }
    rewrite fixed_digits_app. split; [|split].
    + apply Forall_app. split; auto. constructor; auto. apply isdig_char; lia.
    + rewrite app_length, I2. cbn. lia.
    + rewrite numval_app, I3. unfold numval; cbn [fold_left]. rewrite dig_char by lia. lia.
Qed.
Lemma digits_fuel_app f : forall n acc, digits_fuel f n acc = digits_fuel f n [] ++ acc.
Proof.
  induction f as [|f IH]; intros n acc; cbn [digits_fuel]; auto. destruct (n <=? 0); auto.
  rewrite IH, (IH _ [_]), <- app_assoc. reflexivity.
Qed.
Lemma digits_fuel_spec f : forall n, 0 <= n < 2 ^ Z.of_nat f ->
  Forall isdig (digits_fuel f n []) /\ numval 0 (digits_fuel f n []) = n /\ (0 < n -> digits_fuel f n [] <> []).
Proof.
  induction f as [|f IH]; intros n H; cbn [digits_fuel].
  - cbn in H. split; [constructor|]. split; [cbn; lia|lia].
  - destruct (Z.leb_spec n 0). { split; [constructor|]. split; [cbn; lia|lia]. }
    rewrite Nat2Z.inj_succ, Z.pow_succ_r in H by lia.
    pose proof (Z.div_mod n 10 ltac:(lia)). pose proof (Z.mod_pos_bound n 10 ltac:(lia)).
    destruct (IH (n / 10)) as (H3 & H4 & H5).
    { split; [apply Z.div_pos; lia|apply Z.div_lt_upper_bound; lia]. }
    rewrite digits_fuel_app. split; [|split].
    + apply Forall_app. split; auto. constructor; auto. apply isdig_char; lia.
    + rewrite numval_app, H4. unfold numval; cbn [fold_left]. rewrite dig_char by lia. lia.
    + intros _ E. destruct (digits_fuel f (n / 10) []); discriminate.
Qed.
Lemma print_nat_spec n : 0 <= n -> Forall isdig (print_nat n) /\ numval 0 (print_nat n) = n /\ print_nat n <> [].
Proof.
  intros H. unfold print_nat. destruct (Z.eqb_spec n 0) as [->|Hn].
  - split; [repeat constructor; discriminate|]. split; [reflexivity|discriminate].
  - pose proof (Z.log2_nonneg n). destruct (digits_fuel_spec (Z.to_nat (Z.log2 n + 1)) n) as (H1 & H2 & H3).
    { split; auto. rewrite Z2Nat.id by lia. apply Z.log2_spec. lia. }
    split; [|split]; auto. apply H3; lia.
Qed.

Lemma isdig_bounds c : isdig c <-> (48 <= N_of_ascii c <= 57)%N.
Proof.
  unfold isdig, char_digit. destruct (_ && _)%bool eqn:E; split; intros H; try easy.
  - apply andb_true_iff in E as [E1 E2]. apply N.leb_le in E1, E2. auto.
  - exfalso. destruct H as [H1 H2]. apply N.leb_le in H1, H2. rewrite H1, H2 in E. discriminate.
Qed.
Lemma isdig_neq c d : isdig c -> char_digit d = None -> Ascii.eqb c d = false.
Proof. intros H E. apply Ascii.eqb_neq. intros ->. contradiction. Qed.

Lemma nodig_char c s : char_digit c = None -> nodig (c :: s).
Proof. auto. Qed.
Lemma scan_sign_dig ds rest : Forall isdig ds -> ds <> [] -> scan_sign (ds ++ rest) = (false, ds ++ rest).
Proof.
  intros H Hn. destruct ds as [|c ds]; [contradiction|]. inversion H; subst. cbn [app scan_sign].
  rewrite !(isdig_neq c) by (auto; reflexivity). reflexivity.
Qed.
Lemma scan_sign_str s ds rest : Forall isdig ds -> ds <> [] -> scan_sign (sign_str s ++ ds ++ rest) = (s, ds ++ rest).
Proof. intros H Hn. destruct s; [reflexivity|]. change (sign_str false ++ ds ++ rest) with (ds ++ rest). apply scan_sign_dig; auto. Qed.

(** ** size_t *)
Lemma scan_size_print n rest : (n < two64)%N -> nodig rest -> scan_size (print_N n ++ rest) = Some (n, rest).
Proof.
  intros Hn Hr. destruct (print_nat_spec (Z.of_N n) ltac:(lia)) as (H1 & H2 & H3). unfold scan_size, print_N.
  rewrite scan_sign_dig by auto. rewrite scan_digits_app by auto. rewrite H2.
  destruct (print_nat (Z.of_N n)) as [|c ds] eqn:E; [contradiction|]. cbn [length Nat.add Nat.eqb].
  replace (Z.of_N two64 <=? Z.of_N n) with false by lia. rewrite N2Z.id. reflexivity.
Qed.

(** ** doubles *)
Definition num_end (s : str) : Prop :=
  match s with [] => True | c :: _ => char_digit c = None /\ c <> ch_dot /\ c <> ch_e /\ c <> ch_E end.

Lemma rstrip0_spec s : exists j, s = rstrip0 s ++ repeat ch_0 j.
Proof.
  induction s as [|c s [j IH]]; cbn [rstrip0].
  - exists O. reflexivity.
  - destruct (rstrip0 s) as [|c' s'] eqn:E.
    + destruct (Ascii.eqb_spec c ch_0) as [->|Hc].
      * exists (S j). cbn. f_equal. auto.
      * exists j. cbn. f_equal. auto.
    + exists j. rewrite IH at 1. reflexivity.
Qed.
Lemma numval_zeros j v : numval v (repeat ch_0 j) = v * 10 ^ Z.of_nat j.
Proof.
  rewrite numval_lin, repeat_length. assert (numval 0 (repeat ch_0 j) = 0) as ->; [|lia].
  induction j; cbn; auto.
Qed.
Lemma isdig_zeros j : Forall isdig (repeat ch_0 j).
Proof. induction j; cbn; constructor; auto. discriminate. Qed.

(** scanning [I][.F] *)
Definition dot_end (s : str) : Prop := match s with [] => True | c :: _ => char_digit c = None /\ c <> ch_dot end.
Lemma num_dot_end s : num_end s -> dot_end s.
Proof. destruct s; cbn; tauto. Qed.
Lemma scan_dot F v rest : Forall isdig F -> dot_end rest ->
  match dot_frac F ++ rest with
  | c :: s' => if Ascii.eqb c ch_dot then scan_digits v 0 s' else (v, O, dot_frac F ++ rest)
  | [] => (v, O, [])
  end = (numval v F, length F, rest).
Proof.
  intros HF Hr. destruct F as [|f F].
  - cbn [dot_frac app length]. destruct rest as [|c r]; auto. destruct Hr as (_ & Hc).
    destruct (Ascii.eqb_spec c ch_dot); [contradiction|]. reflexivity.
  - change (dot_frac (f :: F)) with (ch_dot :: f :: F). cbn [app]. rewrite Ascii.eqb_refl.
    change (f :: F ++ rest) with ((f :: F) ++ rest). rewrite scan_digits_app; auto. destruct rest; cbn in *; tauto.
Qed.
Lemma nodig_dot F rest : num_end rest -> nodig (dot_frac F ++ rest).
Proof. intros H. destruct F; cbn; auto. destruct rest; cbn in *; tauto. Qed.

(** [is >> double] on a mantissa without exponent *)
Lemma scan_double_fixed s I F rest x : Forall isdig I -> I <> [] -> Forall isdig F -> num_end rest ->
  dec_to_dbl s (numval 0 (I ++ F)) (- Z.of_nat (length F)) = x -> dfinite x = true ->
  scan_double (sign_str s ++ I ++ dot_frac F ++ rest) = Some (x, rest).
Proof.
  intros HI Hne HF Hr Ex Hx. unfold scan_double. rewrite scan_sign_str by auto.
  rewrite scan_digits_app by (auto using nodig_dot). cbn [Nat.add].
  rewrite scan_dot by auto using num_dot_end. rewrite <- numval_app.
  destruct (Nat.eqb_spec (length I + length F) 0) as [E|_]. { destruct I; [contradiction|discriminate]. }
  cbn zeta beta. rewrite Z.sub_0_l, Ex.
  destruct rest as [|c r].
  - destruct x; try discriminate; reflexivity.
  - destruct Hr as (_ & _ & He & HE). destruct (Ascii.eqb_spec c ch_e); [contradiction|].
    destruct (Ascii.eqb_spec c ch_E); [contradiction|]. cbn [orb]. destruct x; try discriminate; reflexivity.
Qed.
Lemma exp_digits_spec x : let es := (if Z.abs x <? 10 then ch_0 :: print_nat (Z.abs x) else print_nat (Z.abs x)) in
  Forall isdig es /\ es <> [] /\ numval 0 es = Z.abs x.
Proof.
  destruct (print_nat_spec (Z.abs x) ltac:(lia)) as (H1 & H2 & H3). cbn zeta. destruct (Z.abs x <? 10).
  - split; [constructor; auto; discriminate|]. split; [discriminate|]. exact H2.
  - auto.
Qed.
Lemma nodig_num_end rest : num_end rest -> nodig rest.
Proof. destruct rest; cbn; tauto. Qed.
Lemma scan_double_exp s I F e rest x : Forall isdig I -> I <> [] -> Forall isdig F -> num_end rest ->
  dec_to_dbl s (numval 0 (I ++ F)) (e - Z.of_nat (length F)) = x -> dfinite x = true ->
  scan_double (sign_str s ++ I ++ dot_frac F ++ exp_str e ++ rest) = Some (x, rest).
Proof.
  intros HI Hne HF Hr Ex Hx. unfold scan_double. rewrite scan_sign_str by auto.
  destruct (exp_digits_spec e) as (D1 & D2 & D3). cbn zeta in D1, D2, D3. unfold exp_str.
  set (es := if Z.abs e <? 10 then _ else _) in *.
  assert (forall c, nodig (ch_e :: c)) as Hnd by reflexivity.
  rewrite scan_digits_app; auto.
  2:{ destruct F; cbn; auto. }
  cbn [Nat.add].
  rewrite scan_dot by (auto; repeat split; discriminate). rewrite <- numval_app.
  destruct (Nat.eqb_spec (length I + length F) 0) as [E|_]. { destruct I; [contradiction|discriminate]. }
  cbn zeta beta. cbn [app]. change (Ascii.eqb ch_e ch_e) with true. cbn [orb].
  assert (scan_sign ((if e <? 0 then ch_minus else ch_plus) :: es ++ rest) = (e <? 0, es ++ rest)) as ->.
  { destruct (e <? 0); reflexivity. }
  rewrite scan_digits_app by auto using nodig_num_end. rewrite D3.
  destruct (Nat.eqb_spec (0 + length es) 0) as [E|_]. { destruct es; [contradiction|discriminate]. }
  replace (if e <? 0 then - Z.abs e else Z.abs e) with e by (destruct (Z.ltb_spec e 0); lia).
  rewrite Ex. destruct x; try discriminate; reflexivity.
Qed.

Lemma dec_to_dbl_frac s v e : v <> 0 -> dec_to_dbl s v e = let '(a, b) := dfrac v e in rn64 s a b.
Proof. intros H. unfold dec_to_dbl, dfrac. destruct (Z.eqb_spec v 0); [contradiction|]. reflexivity. Qed.
(** a decimal is read the same whatever its number of trailing zeros *)
Lemma dec_to_dbl_shift s v e j : 0 < v -> 0 <= j -> dec_to_dbl s (v * 10 ^ j) e = dec_to_dbl s v (e + j).
Proof.
  intros Hv Hj. assert (0 < 10 ^ j) by (apply Z.pow_pos_nonneg; lia).
  rewrite !dec_to_dbl_frac by nia.
  pose proof (dfrac_rat (v * 10 ^ j) e ltac:(nia)) as H1. pose proof (dfrac_rat v (e + j) ltac:(lia)) as H2.
  destruct (dfrac (v * 10 ^ j) e), (dfrac v (e + j)). destruct H1 as (A1 & A2 & A3), H2 as (B1 & B2 & B3).
  apply rn64_ext; auto. rewrite A3, B3, qz_mul, <- pw_Z, (pw_add 10 e j) by lia. ring.
Qed.

Lemma scan_fmt_g s d x rest y : 100000 <= d < 1000000 -> num_end rest ->
  dec_to_dbl s d (x - 5) = y -> dfinite y = true ->
  scan_double (fmt_g s d x ++ rest) = Some (y, rest).
Proof.
  intros Hd Hr Ey Hy. unfold fmt_g.
  destruct (fixed_digits_spec 6 d ltac:(change (10 ^ Z.of_nat 6) with 1000000; lia)) as (D1 & D2 & D3).
  set (ds := fixed_digits 6 d []) in *.
  assert (forall k, (1 <= k <= 6)%nat -> exists j, let I := firstn k ds in let F := rstrip0 (skipn k ds) in
    Forall isdig I /\ I <> [] /\ Forall isdig F /\ (length F + j = 6 - k)%nat /\ numval 0 (I ++ F) * 10 ^ Z.of_nat j = d) as Hsplit.
  { intros k Hk. destruct (rstrip0_spec (skipn k ds)) as [j Ej]. exists j. cbn zeta.
    assert (Forall isdig (firstn k ds ++ skipn k ds)) as HF by (rewrite firstn_skipn; auto).
    apply Forall_app in HF as [HF1 HF2]. rewrite Ej in HF2. apply Forall_app in HF2 as [HF2 _].
    split; auto. split. { intros E. assert (length (firstn k ds) = k) by (rewrite firstn_length; lia). rewrite E in H. cbn in H. lia. }
    split; auto. split.
    { assert (length (skipn k ds) = 6 - k)%nat as L by (rewrite skipn_length; lia). rewrite Ej, app_length, repeat_length in L. lia. }
    rewrite <- numval_zeros, <- numval_app, <- app_assoc, <- Ej, firstn_skipn. auto. }
  assert (forall D j E, D * 10 ^ Z.of_nat j = d -> E = x - 5 + Z.of_nat j -> dec_to_dbl s D E = y) as Hval.
  { intros D j E HD HE. subst E. assert (0 < 10 ^ Z.of_nat j) by (apply Z.pow_pos_nonneg; lia).
    rewrite <- dec_to_dbl_shift by nia. rewrite HD. auto. }
  rewrite <- !app_assoc.
  destruct ((-4 <=? x) && (x <? 6))%bool eqn:Eg.
  - apply andb_true_iff in Eg as [G1 G2]. apply Z.leb_le in G1. apply Z.ltb_lt in G2.
    destruct (Z.leb_spec 0 x) as [H0|H0].
    + destruct (Hsplit (Z.to_nat (x + 1)) ltac:(lia)) as (j & HI & Hne & HF & HL & HV).
      rewrite <- !app_assoc. apply scan_double_fixed; auto. apply Hval with j; auto. lia.
    + destruct (rstrip0_spec ds) as [j Ej].
      assert (Forall isdig (rstrip0 ds)) as HF. { rewrite Ej in D1. apply Forall_app in D1. tauto. }
      assert (length (rstrip0 ds) + j = 6)%nat as HL. { pose proof (f_equal (@length ascii) Ej) as L. rewrite app_length, repeat_length in L. lia. }
      change (ch_0 :: dot_frac ?f) with ([ch_0] ++ dot_frac f). rewrite <- app_assoc.
      apply scan_double_fixed; auto.
      * repeat constructor; discriminate.
      * discriminate.
      * apply Forall_app. split; auto using isdig_zeros.
      * apply Hval with j.
        -- rewrite !numval_app. unfold numval at 3. cbn [fold_left]. change (10 * 0 + dig ch_0) with 0.
           rewrite numval_zeros, Z.mul_0_l. rewrite <- numval_zeros, <- numval_app, <- Ej. auto.
        -- rewrite app_length, repeat_length. lia.
  - destruct (Hsplit 1%nat ltac:(lia)) as (j & HI & Hne & HF & HL & HV).
    rewrite <- !app_assoc. apply scan_double_exp; auto. apply Hval with j; auto. lia.
Qed.

(** The double obtained by printing x with 6 digits and reading the text *)
Definition via_text (x : dbl) : dbl :=
  match x with
  | S754_finite s m e =>
    let '(a, b) := frac m e in let '(d, k) := dec6 a b in dec_to_dbl s d (k - 5)
  | _ => x
  end.

Lemma via_text_finite s m e : dvalid (S754_finite s m e) = true ->
  dfinite (via_text (S754_finite s m e)) = true /\ dvalid (via_text (S754_finite s m e)) = true.
Proof.
  intros Hv. cbn [via_text]. pose proof (frac_rat m e) as Hf. destruct (frac m e) as [a b]. destruct Hf as (Ha & Hb & Hr).
  pose proof (dec6_spec a b Ha Hb) as H6. destruct (dec6 a b) as [d k] eqn:E. destruct H6 as (Hd & _).
  rewrite dec_to_dbl_frac by lia.
  pose proof (dfrac_rat d (k - 5) ltac:(lia)) as Hf2. destruct (dfrac d (k - 5)) as [n q]. destruct Hf2 as (Hn & Hq & Hr2).
  assert (rat a b <= dmaxval)%Q as Hmax. { rewrite Hr. apply frac_le_max with s; auto. }
  pose proof (@dec6_no_overflow a b d k Ha Hb Hmax E) as Hov. rewrite <- Hr2 in Hov.
  destruct (rn64_err s n q Hn Hq Hov) as (y & Ey & Hy & _). rewrite Ey. split; auto. rewrite <- Ey. apply rn64_valid; auto.
Qed.

(** reading the text of any finite double gives [via_text] of it *)
Lemma scan_print x rest : dvalid x = true -> dfinite x = true -> num_end rest ->
  scan_double (print_dbl x ++ rest) = Some (via_text x, rest).
Proof.
  intros Hv Hf Hr. destruct x as [s|s| |s m e]; try discriminate.
  - cbn [print_dbl via_text]. rewrite <- app_assoc. change [ch_0] with ([ch_0] ++ dot_frac []). rewrite <- app_assoc.
    apply scan_double_fixed; auto; try discriminate. repeat constructor; discriminate.
  - destruct (via_text_finite s m e Hv) as [Hy _]. revert Hy. cbn [print_dbl via_text].
    pose proof (frac_rat m e) as Hfr. destruct (frac m e) as [a b]. destruct Hfr as (Ha & Hb & Hr').
    pose proof (dec6_spec a b Ha Hb) as H6. destruct (dec6 a b) as [d k]. destruct H6 as (Hd & _). intros Hy.
    apply scan_fmt_g; auto.
Qed.

Lemma via_text_zero s : via_text (S754_zero s) = S754_zero s.
Proof. reflexivity. Qed.

(** from 10^-317 upwards, and for zeros, the reread value prints the same *)
Definition dbig (x : dbl) : Prop := match x with S754_finite _ _ _ => (pw 10 (-317) <= qabsv x)%Q | _ => True end.
Lemma via_text_stable x : dvalid x = true -> dfinite x = true -> dbig x ->
  print_dbl (via_text x) = print_dbl x.
Proof.
  intros Hv Hf Hbig. destruct x as [s|s| |s m e]; try discriminate; auto.
  cbn [via_text print_dbl]. cbn [dbig qabsv] in Hbig.
  pose proof (frac_rat m e) as Hfr. destruct (frac m e) as [a b]. destruct Hfr as (Ha & Hb & Hr).
  pose proof (frac_le_max s m e Hv) as Hmax. rewrite <- Hr in Hmax, Hbig.
  pose proof (dec6_spec a b Ha Hb) as H6. destruct (dec6 a b) as [d k] eqn:E. destruct H6 as (Hd & _).
  rewrite dec_to_dbl_frac by lia.
  destruct (@dec6_stable s a b d k _ Ha Hb Hmax Hbig E eq_refl) as (m' & e' & Ey & _ & E').
  rewrite Ey. cbn [print_dbl]. destruct (frac m' e') as [a' b']. rewrite E'. reflexivity.
Qed.
(** and rereading again changes nothing *)
Lemma via_text_idem x : dvalid x = true -> dfinite x = true -> dbig x -> via_text (via_text x) = via_text x.
Proof.
  intros Hv Hf Hbig. destruct x as [s|s| |s m e]; try discriminate; auto.
  cbn [via_text]. cbn [dbig qabsv] in Hbig.
  pose proof (frac_rat m e) as Hfr. destruct (frac m e) as [a b]. destruct Hfr as (Ha & Hb & Hr).
  pose proof (frac_le_max s m e Hv) as Hmax. rewrite <- Hr in Hmax, Hbig.
  pose proof (dec6_spec a b Ha Hb) as H6. destruct (dec6 a b) as [d k] eqn:E. destruct H6 as (Hd & _).
  rewrite dec_to_dbl_frac by lia.
  destruct (@dec6_stable s a b d k _ Ha Hb Hmax Hbig E eq_refl) as (m' & e' & Ey & _ & E').
  rewrite Ey. cbn [via_text]. destruct (frac m' e') as [a' b']. rewrite E'. rewrite dec_to_dbl_frac by lia. auto.
Qed.

(** decimals of at most six digits are read back exactly *)
Lemma via_text_exact s m e D k : dvalid (S754_finite s m e) = true -> (0 < D < 1000000) ->
  (qz (Zpos m) * pw 2 e == qz D * pw 10 k)%Q -> via_text (S754_finite s m e) = S754_finite s m e.
Proof.
  intros Hv HD E. cbn [via_text]. pose proof (frac_rat m e) as Hfr. destruct (frac m e) as [a b]. destruct Hfr as (Ha & Hb & Hr).
  pose proof (@dec6_exact a b D k Ha Hb HD ltac:(rewrite Hr; auto)) as H6.
  pose proof (dec6_spec a b Ha Hb) as Hs. destruct (dec6 a b) as [d x]. destruct Hs as (Hd & _).
  rewrite dec_to_dbl_frac by lia.
  pose proof (dfrac_rat d (x - 5) ltac:(lia)) as Hf2. destruct (dfrac d (x - 5)) as [n q]. destruct Hf2 as (Hn & Hq & Hr2).
  apply rn64_exact; auto. rewrite Hr2, H6, Hr. reflexivity.
Qed.
(** the error made by going through the text: half a unit of the sixth digit,
    plus the rounding of the decimal to binary *)
Lemma via_text_err s m e : dvalid (S754_finite s m e) = true -> dbig (S754_finite s m e) ->
  let x := S754_finite s m e in
  (Qabs (qabsv x - qabsv (via_text x)) <= (6 # 1000000) * qabsv x)%Q /\
  exists m' e', via_text x = S754_finite s m' e'.
Proof.
  intros Hv Hbig. cbn zeta. cbn [dbig qabsv via_text] in *.
  pose proof (frac_rat m e) as Hfr. destruct (frac m e) as [a b]. destruct Hfr as (Ha & Hb & Hr).
  pose proof (frac_le_max s m e Hv) as Hmax. rewrite <- Hr in Hmax, Hbig.
  pose proof (dec6_spec a b Ha Hb) as H6. destruct (dec6 a b) as [d x] eqn:E. destruct H6 as (Hd & Herr & Hlo & Hhi).
  rewrite dec_to_dbl_frac by lia.
  destruct (@dec6_stable s a b d x _ Ha Hb Hmax Hbig E eq_refl) as (m' & e' & Ey & _ & E').
  pose proof (@dec6_no_overflow a b d x Ha Hb Hmax E) as Hov.
  pose proof (dfrac_rat d (x - 5) ltac:(lia)) as Hf2. destruct (dfrac d (x - 5)) as [n q]. destruct Hf2 as (Hn & Hq & Hr2).
  split; [|eauto]. rewrite <- Hr.
  assert (-317 <= x)%Z as Hx.
  { assert (pw 10 (-317) < pw 10 (x + 1))%Q as H by lra. apply pw_lt_inv in H; lia. }
  pose proof (pw_pos 10 (x - 5) ltac:(lia)) as Hp.
  assert (pw 10 x == 100000 * pw 10 (x - 5))%Q as Ex.
  { rewrite (@pw_split 10 5 (x - 5) x) by lia. rewrite (pw_Z 10 5) by lia. reflexivity. }
  assert (pw 10 (x + 1) == 1000000 * pw 10 (x - 5))%Q as Ex1.
  { rewrite (@pw_split 10 6 (x - 5) (x + 1)) by lia. rewrite (pw_Z 10 6) by lia. reflexivity. }
  assert (qz d <= 999999)%Q as Hd2. { change 999999%Q with (qz 999999). apply -> qz_le. lia. }
  rewrite <- Hr2 in Hov.
  assert (rat n q <= pw 10 (x + 1))%Q as Hnq. { rewrite Hr2, Ex1. apply Qmult_le_r; lra. }
  pose proof (@rn64_err_pw10 s n q x _ Hn Hq Hov Hnq Hx eq_refl) as He.
  apply Qabs_Qlt_condition in He. apply Qabs_Qle_condition in Herr. rewrite Hr2 in He.
  apply Qabs_Qle_condition. split; lra.
Qed.

(** first character of a printed number *)
Lemma print_nat_head n : 0 <= n -> exists c r, print_nat n = c :: r /\ isdig c.
Proof.
  intros H. destruct (print_nat_spec n H) as (H1 & _ & H3). destruct (print_nat n) as [|c r]; [contradiction|].
  inversion H1; subst. eauto.
Qed.
Lemma print_dbl_head x : dfinite x = true -> exists c r, print_dbl x = c :: r /\ (isdig c \/ c = ch_minus).
Proof.
  intros Hf. destruct x as [s|s| |s m e]; try discriminate.
  - destruct s; cbn; eexists _, _; split; eauto. left. discriminate.
  - cbn [print_dbl]. pose proof (frac_rat m e) as Hfr. destruct (frac m e) as [a b]. destruct Hfr as (Ha & Hb & _).
    pose proof (dec6_spec a b Ha Hb) as Hs. destruct (dec6 a b) as [d x]. destruct Hs as (Hd & _).
    unfold fmt_g. destruct s; [cbn; eauto|]. cbn [sign_str app].
    destruct (fixed_digits_spec 6 d ltac:(change (10 ^ Z.of_nat 6) with 1000000; lia)) as (D1 & D2 & D3).
    destruct (fixed_digits 6 d []) as [|c ds]; [discriminate|]. inversion D1; subst.
    destruct ((-4 <=? x) && (x <? 6))%bool eqn:Eg.
    + destruct (Z.leb_spec 0 x).
      * replace (Z.to_nat (x + 1)) with (S (Z.to_nat x)) by lia. cbn. eauto.
      * eexists _, _. split; [reflexivity|]. left. discriminate.
    + cbn. eauto.
Qed.
