(** * Lines and tokens: readlines inverts line output; scanning printed tokens. *)
From Verif Require Import Base Dbl Decimal Round_proofs Rn_proofs Scan_proofs Shadow Streams.
From Coq Require Import QArith.
Open Scope Z_scope.

(** ** readlines *)
Lemma readlines_acc_line l : forall cur rest, ~ In ch_nl l ->
  readlines_acc cur (l ++ ch_nl :: rest) = (rev cur ++ l) :: readlines_acc [] rest.
Proof.
  induction l as [|c l IH]; intros cur rest H.
  - cbn [app readlines_acc]. rewrite Ascii.eqb_refl, app_nil_r. reflexivity.
  - cbn [app readlines_acc]. destruct (Ascii.eqb_spec c ch_nl) as [->|Hc]; [exfalso; apply H; left; auto|].
    rewrite IH by (intros X; apply H; right; auto). cbn [rev]. rewrite <- app_assoc. reflexivity.
Qed.
Lemma readlines_line l rest : ~ In ch_nl l -> readlines (l ++ ch_nl :: rest) = l :: readlines rest.
Proof. intros H. unfold readlines. rewrite readlines_acc_line; auto. Qed.
Lemma readlines_lines ls rest : Forall (fun l => ~ In ch_nl l) ls ->
  readlines (concat (map print_line ls) ++ rest) = ls ++ readlines rest.
Proof.
  induction ls as [|l ls IH]; intros H; cbn [map concat app]; auto.
  inversion H; subst. unfold print_line at 1. rewrite <- !app_assoc. cbn [app]. rewrite readlines_line by auto.
  rewrite IH by auto. reflexivity.
Qed.
Lemma readlines_acc_last l : forall cur, ~ In ch_nl l ->
  readlines_acc cur l = match rev cur ++ l with [] => [] | x => [x] end.
Proof.
  induction l as [|c l IH]; intros cur H; cbn [readlines_acc].
  - rewrite app_nil_r. destruct cur as [|a cur]; auto. cbn [rev]. destruct (rev cur ++ [a]) eqn:E; auto.
    destruct (rev cur); discriminate.
  - destruct (Ascii.eqb_spec c ch_nl) as [->|Hc]; [exfalso; apply H; left; auto|].
    rewrite IH by (intros X; apply H; right; auto). cbn [rev]. rewrite <- app_assoc. reflexivity.
Qed.
Lemma readlines_last l : ~ In ch_nl l -> l <> [] -> readlines l = [l].
Proof. intros H Hn. unfold readlines. rewrite readlines_acc_last by auto. cbn [rev app]. destruct l; congruence. Qed.
Lemma readlines_acc_no_nl s : forall cur, ~ In ch_nl cur -> Forall (fun l => ~ In ch_nl l) (readlines_acc cur s).
Proof.
  induction s as [|c s IH]; intros cur H; cbn [readlines_acc].
  - destruct cur; constructor; auto. rewrite <- in_rev. auto.
  - destruct (Ascii.eqb_spec c ch_nl).
    + constructor. { rewrite <- in_rev; auto. } apply IH. auto.
    + apply IH. intros [E|E]; auto.
Qed.

(** ** Tokens *)
Definition spaces (s : str) : Prop := Forall (fun c => is_space c = true) s.
Definition sp_end (s : str) : Prop := match s with [] => True | c :: _ => is_space c = true end.
(** the text t, followed by a space or the end, is read as the item a *)
Definition tok {A} (scan : str -> option (A * str)) (t : str) (a : A) : Prop :=
  (exists c t', t = c :: t' /\ is_space c = false) /\
  forall rest, sp_end rest -> scan (t ++ rest) = Some (a, rest).
Inductive toks {A} (scan : str -> option (A * str)) : str -> list A -> Prop :=
| toks_nil ws : spaces ws -> toks scan ws []
| toks_cons ws t a rest l : spaces ws -> tok scan t a -> sp_end rest -> toks scan rest l ->
    toks scan (ws ++ t ++ rest) (a :: l).
Lemma skip_ws_spaces ws s : spaces ws -> skip_ws (ws ++ s) = skip_ws s.
Proof. induction 1 as [|c ws H Hw IH]; cbn [app skip_ws]; auto. rewrite H. auto. Qed.
Lemma skip_ws_tok c t rest : is_space c = false -> skip_ws ((c :: t) ++ rest) = (c :: t) ++ rest.
Proof. intros H. cbn. rewrite H. reflexivity. Qed.
Lemma scan_list_toks {A} (scan : str -> option (A * str)) s l : toks scan s l ->
  forall fuel, (length s <= fuel)%nat -> scan_list scan fuel s = l.
Proof.
  induction 1 as [ws H|ws t a rest l Hws [(c & t' & -> & Hc) Ht] Hr Hl IH]; intros fuel Hf.
  - destruct fuel; cbn [scan_list]; auto. rewrite <- (app_nil_r ws), skip_ws_spaces by auto. reflexivity.
  - rewrite !app_length in Hf. cbn [length] in Hf. destruct fuel as [|fuel]; [lia|]. cbn [scan_list].
    rewrite skip_ws_spaces, skip_ws_tok by auto. cbn [app]. 
    change (c :: t' ++ rest) with ((c :: t') ++ rest). rewrite Ht by auto. f_equal. apply IH. lia.
Qed.
Lemma scan_doubles_toks s l : toks scan_double s l -> scan_doubles s = l.
Proof. intros H. unfold scan_doubles. eapply scan_list_toks; eauto. Qed.
Lemma scan_sizes_toks s l : toks scan_size s l -> scan_sizes s = l.
Proof. intros H. unfold scan_sizes. eapply scan_list_toks; eauto. Qed.

Lemma space_num_end s : sp_end s -> num_end s.
Proof.
  destruct s as [|c s]; cbn; auto. intros H.
  destruct c as [[] [] [] [] [] [] [] []]; try discriminate; repeat split; try reflexivity; discriminate.
Qed.
Lemma space_nodig s : sp_end s -> nodig s.
Proof. intros H. apply nodig_num_end, space_num_end, H. Qed.
Lemma isdig_nospace c : isdig c -> is_space c = false.
Proof. intros H. apply isdig_bounds in H. unfold is_space. lia. Qed.

Lemma tok_double x : dvalid x = true -> dfinite x = true -> tok scan_double (print_dbl x) (via_text x).
Proof.
  intros Hv Hf. split.
  - destruct (print_dbl_head x Hf) as (c & r & E & H). exists c, r. split; auto.
    destruct H as [H|H]; [apply isdig_nospace; auto|subst; reflexivity].
  - intros rest Hr. apply scan_print; auto using space_num_end.
Qed.
Lemma tok_size n : (n < two64)%N -> tok scan_size (print_N n) n.
Proof.
  intros H. split.
  - unfold print_N. destruct (print_nat_head (Z.of_N n) ltac:(lia)) as (c & r & E & Hc). exists c, r. split; auto.
    apply isdig_nospace; auto.
  - intros rest Hr. apply scan_size_print; auto using space_nodig.
Qed.

(** ** integers read as doubles *)
Definition dbl_of_N (n : N) : dbl := dec_to_dbl false (Z.of_N n) 0.
Lemma dbl_of_N_spec n : (n < 2 ^ 53)%N ->
  dfinite (dbl_of_N n) = true /\ dvalid (dbl_of_N n) = true /\ size_of_dbl (dbl_of_N n) = Ok n /\
  (qabsv (dbl_of_N n) == inject_Z (Z.of_N n))%Q.
Proof.
  intros Hn. unfold dbl_of_N. destruct (N.eq_dec n 0) as [->|Hn0]; [cbn; auto using Qeq_refl|].
  rewrite dec_to_dbl_frac by lia. unfold dfrac. cbn [Z.leb Z.compare]. change (10 ^ 0) with 1. rewrite Z.mul_1_r.
  set (z := Z.of_N n). assert (0 < z < 2 ^ 53) as Hz. { unfold z. change (2 ^ 53)%N with 9007199254740992%N in Hn. lia. }
  pose proof (Z.log2_nonneg z) as L0. assert (Z.log2 z < 53) as L1 by (apply Z.log2_lt_pow2; lia).
  pose proof (Z.log2_spec z ltac:(lia)) as [L2 L3].
  set (k := 52 - Z.log2 z). assert (0 < 2 ^ k) as Hk by (apply Z.pow_pos_nonneg; lia).
  assert (exists p, Zpos p = z * 2 ^ k) as [p Ep]. { exists (Z.to_pos (z * 2 ^ k)). rewrite Z2Pos.id; nia. }
  assert (Z.log2 (Zpos p) = 52) as Lp.
  { rewrite Ep, Z.log2_mul_pow2 by lia. lia. }
  assert (dvalid (S754_finite false p (- k)) = true) as Hv. { apply dvalid_intro; lia. }
  assert (qz (Zpos p) * pw 2 (- k) == qz z)%Q as Ev.
  { rewrite Ep, qz_mul, <- pw_Z, pw_opp by lia. pose proof (pw_pos 2 k ltac:(lia)). field. intros E. rewrite E in H. discriminate. }
  assert (rn64 false z 1 = S754_finite false p (- k)) as E.
  { apply rn64_exact; auto; try lia. rewrite Ev. unfold rat. change (qz 1) with 1%Q. field. }
  rewrite E. split; auto. split; auto. split.
  - cbn [size_of_dbl]. unfold frac. destruct (Z.leb_spec 0 (- k)) as [H|H].
    + assert (k = 0) as K0 by lia. rewrite K0 in *. rewrite Ep. change (2 ^ 0) with 1. change (2 ^ (- 0)) with 1.
      rewrite Z.mul_1_r, !Z.mul_1_r, Z.div_1_r. replace (z <? Z.of_N two64) with true; [unfold z; rewrite N2Z.id; auto|].
      symmetry. apply Z.ltb_lt. change (Z.of_N two64) with (2 ^ 64). lia.
    + rewrite Z.opp_involutive, Ep, Z.div_mul by lia. replace (z <? Z.of_N two64) with true; [unfold z; rewrite N2Z.id; auto|].
      symmetry. apply Z.ltb_lt. change (Z.of_N two64) with (2 ^ 64). lia.
  - exact Ev.
Qed.
Lemma tok_index n : (n < 2 ^ 53)%N -> tok scan_double (print_N n) (dbl_of_N n).
Proof.
  intros H. destruct (print_nat_spec (Z.of_N n) ltac:(lia)) as (H1 & H2 & H3). split.
  - unfold print_N. destruct (print_nat_head (Z.of_N n) ltac:(lia)) as (c & r & E & Hc). exists c, r. split; auto.
    apply isdig_nospace; auto.
  - intros rest Hr. unfold print_N.
    change (print_nat (Z.of_N n) ++ rest) with (sign_str false ++ print_nat (Z.of_N n) ++ dot_frac [] ++ rest).
    apply scan_double_fixed; auto using space_num_end.
    + rewrite app_nil_r, H2. reflexivity.
    + apply dbl_of_N_spec; auto.
Qed.

(** ** characters of printed tokens: visible, so neither space nor newline *)
Definition visible (c : ascii) : Prop := (33 <= N_of_ascii c)%N /\ c <> ch_hash.
Lemma isdig_visible c : isdig c -> visible c.
Proof. intros H. apply isdig_bounds in H. split; [lia|]. intros ->. cbn in H. lia. Qed.
Lemma Forall_dig_visible s : Forall isdig s -> Forall visible s.
Proof. intros H. eapply Forall_impl; [|exact H]. exact isdig_visible. Qed.
Lemma print_N_visible n : Forall visible (print_N n).
Proof. apply Forall_dig_visible. apply print_nat_spec. lia. Qed.
Lemma visible_minus : visible ch_minus. Proof. split; cbn; [lia|discriminate]. Qed.
Lemma visible_plus : visible ch_plus. Proof. split; cbn; [lia|discriminate]. Qed.
Lemma visible_dot : visible ch_dot. Proof. split; cbn; [lia|discriminate]. Qed.
Lemma visible_e : visible ch_e. Proof. split; cbn; [lia|discriminate]. Qed.
Lemma visible_0 : visible ch_0. Proof. split; cbn; [lia|discriminate]. Qed.
Lemma dot_frac_visible s : Forall isdig s -> Forall visible (dot_frac s).
Proof. intros H. destruct s; [constructor|]. constructor; [apply visible_dot|]. apply Forall_dig_visible; auto. Qed.
Lemma rstrip0_dig s : Forall isdig s -> Forall isdig (rstrip0 s).
Proof. intros H. destruct (rstrip0_spec s) as [j E]. rewrite E in H. apply Forall_app in H. tauto. Qed.
Lemma firstn_dig k s : Forall isdig s -> Forall isdig (firstn k s).
Proof. intros H. rewrite <- (firstn_skipn k s) in H. apply Forall_app in H. tauto. Qed.
Lemma skipn_dig k s : Forall isdig s -> Forall isdig (skipn k s).
Proof. intros H. rewrite <- (firstn_skipn k s) in H. apply Forall_app in H. tauto. Qed.
Lemma print_dbl_visible x : dfinite x = true -> Forall visible (print_dbl x).
Proof.
  assert (forall s, Forall visible (sign_str s)) as Hs. { intros []; repeat constructor; apply visible_minus. }
  intros Hf. destruct x as [s|s| |s m e]; try discriminate; cbn [print_dbl].
  - apply Forall_app. split; auto. repeat constructor; apply visible_0.
  - pose proof (frac_rat m e) as Hfr. destruct (frac m e) as [a b]. destruct Hfr as (Ha & Hb & _).
    pose proof (dec6_spec a b Ha Hb) as H6. destruct (dec6 a b) as [d x]. destruct H6 as (Hd & _).
    unfold fmt_g.
    destruct (fixed_digits_spec 6 d ltac:(change (10 ^ Z.of_nat 6) with 1000000; lia)) as (D1 & _ & _).
    set (ds := fixed_digits 6 d []) in *. apply Forall_app. split; auto.
    destruct ((-4 <=? x) && (x <? 6))%bool; [destruct (0 <=? x)|].
    + apply Forall_app. split; [apply Forall_dig_visible, firstn_dig; auto|]. apply dot_frac_visible, rstrip0_dig, skipn_dig; auto.
    + constructor; [apply visible_0|]. apply dot_frac_visible, Forall_app. split; [apply isdig_zeros|apply rstrip0_dig; auto].
    + apply Forall_app. split; [apply Forall_dig_visible, firstn_dig; auto|].
      apply Forall_app. split; [apply dot_frac_visible, rstrip0_dig, skipn_dig; auto|].
      destruct (exp_digits_spec x) as (E1 & _). cbn zeta in E1. unfold exp_str. constructor; [apply visible_e|].
      constructor; [destruct (x <? 0); [apply visible_minus|apply visible_plus]|]. apply Forall_dig_visible; auto.
Qed.
Lemma visible_no_nl s : Forall visible s -> ~ In ch_nl s.
Proof. intros H Hin. rewrite Forall_forall in H. destruct (H _ Hin) as [H1 _]. cbn in H1. lia. Qed.
Lemma visible_nospace c : visible c -> is_space c = false.
Proof. intros [H _]. unfold is_space. lia. Qed.
