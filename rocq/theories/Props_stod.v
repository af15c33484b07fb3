(** * C100: the pixel size of orthoproject, a text read by std::stod. *)
From Coq Require Import Strings.String.
From Verif Require Import Base Dbl Decimal Round_proofs Rn_proofs Scan_proofs Lines_proofs Spec_text Spec_num Nearest_proofs Num_proofs Stod Spec_stod Stod_proofs.
From Coq Require Import QArith Qpower Qabs Lqa.
Import List. Import ListNotations.
Open Scope Z_scope.

(** ** From the number found to the double *)
Definition conclude (f : found) : outcome dbl :=
  match f with
  | Infinity s => Ok (S754_infinity s)
  | Nan => Ok S754_nan
  | Power s v k e =>
    if v =? 0 then Ok (S754_zero s)
    else
      let '(a, b) := if 0 <=? e then (v * k ^ e, 1) else (v, k ^ (- e)) in
      settle a b (rn64 s a b)
  end.
Lemma stod_conclude s : stod s = match strtod (skip_ws s) with None => Throw LogicError | Some f => conclude f end.
Proof. unfold stod. destruct (strtod (skip_ws s)) as [[]|]; reflexivity. Qed.
Lemma power_rat v k e : 0 < v -> (k = 10 \/ k = 2) -> let '(a, b) := if 0 <=? e then (v * k ^ e, 1) else (v, k ^ (- e)) in 0 < a /\ 0 < b /\ (rat a b == inject_Z v * (inject_Z k) ^ e)%Q.
Proof.
  intros Hv Hk. assert (0 < k) as K by lia. change ((inject_Z k) ^ e)%Q with (pw k e). change (inject_Z v) with (qz v). destruct (Z.leb_spec 0 e).
  - assert (0 < k ^ e) by (apply Z.pow_pos_nonneg; lia). split; [nia|]. split; [lia|].
    unfold rat. rewrite qz_mul, <- pw_Z by auto. change (qz 1) with 1%Q. field.
  - assert (0 < k ^ (- e)) by (apply Z.pow_pos_nonneg; lia). split; [lia|]. split; [lia|].
    unfold rat. rewrite <- pw_Z by lia. rewrite pw_opp. pose proof (pw_pos k e K). field. lra.
Qed.
Lemma rat_lt a b n d : 0 < b -> 0 < d -> (rat a b * inject_Z n < inject_Z d)%Q <-> a * n < d * b.
Proof.
  intros Hb Hd. unfold rat, qz. assert (0 < inject_Z b)%Q as B by (change 0%Q with (inject_Z 0); now rewrite <- Zlt_Qlt).
  assert (inject_Z a / inject_Z b * inject_Z n == (inject_Z (a * n)) / inject_Z b)%Q as E by (rewrite inject_Z_mult; field; lra).
  rewrite E. rewrite (Zlt_Qlt (a * n)), (inject_Z_mult d). split; intros H.
  - apply (Qmult_lt_r _ _ (inject_Z b)) in H; auto. assert (inject_Z (a * n) / inject_Z b * inject_Z b == inject_Z (a * n))%Q as X by (field; lra). now rewrite X in H.
  - apply Qlt_shift_div_r; auto.
Qed.
Lemma tiny_below a b q : 0 < a -> 0 < b -> (rat a b == q)%Q -> tiny a b = true <-> below_normal q.
Proof.
  intros A B E. unfold tiny, below_normal. rewrite Z.ltb_lt, <- (rat_lt a b (2 ^ 1076) (2 ^ 54 - 1)) by (auto; lia). rewrite <- E. pose proof (rat_pos a b A B). tauto.
Qed.
Lemma rat_eq a b n d : 0 < b -> 0 < d -> n * b =? a * d = true <-> (rat n d == rat a b)%Q.
Proof.
  intros B D. rewrite Z.eqb_eq. unfold rat, qz.
  assert (0 < inject_Z b)%Q as Bq by (change 0%Q with (inject_Z 0); now rewrite <- Zlt_Qlt). assert (0 < inject_Z d)%Q as Dq by (change 0%Q with (inject_Z 0); now rewrite <- Zlt_Qlt). split; intros H.
  - apply (f_equal inject_Z) in H. rewrite !inject_Z_mult in H. assert (inject_Z n * inject_Z b == inject_Z a * inject_Z d)%Q as H' by (rewrite H; reflexivity). clear H.
    assert (inject_Z n / inject_Z d == (inject_Z n * inject_Z b) / (inject_Z d * inject_Z b))%Q as -> by (field; lra). rewrite H'. field. lra.
  - apply inject_Z_injective. rewrite !inject_Z_mult. assert (inject_Z n == (inject_Z n / inject_Z d) * inject_Z d)%Q as X by (field; lra). rewrite X, H. field. lra.
Qed.
Lemma exactly_representable s a b q x : 0 < a -> 0 < b -> (rat a b == q)%Q -> nearest_double (signed s q) x -> negative x = s -> exactly x a b = true <-> representable q.
Proof.
  intros A B E [R N] Sg. pose proof (rat_pos a b A B) as P.
  assert (exactly x a b = true <-> (dval x == signed s q)%Q) as K.
  { destruct x as [|s'| |s' m e]; cbn [exactly dval negative] in *; [split; [discriminate|]; intros H; exfalso; destruct s; cbn [signed] in H; lra|destruct R; discriminate|destruct R; discriminate|]. subst s'.
    pose proof (frac_rat m e) as F. destruct (frac m e) as [n d]. destruct F as (Fn & Fd & F). rewrite (rat_eq a b n d B Fd). rewrite F, E. change ((2#1) ^ e)%Q with (pw 2 e). change (inject_Z (Zpos m)) with (qz (Zpos m)). destruct s; cbn [signed]; split; intros H; lra. }
  rewrite K. split.
  - intros H. destruct s; cbn [signed] in H; [|exists x; auto]. exists (dopp x). split; [|rewrite dval_opp, H; ring]. destruct R. split; destruct x; auto.
  - intros (y & Ry & Ey). assert (exists z, real_double z /\ (dval z == signed s q)%Q) as (z & Rz & Ez).
    { destruct s; cbn [signed]; [|eauto]. exists (dopp y). split; [|rewrite dval_opp, Ey; reflexivity]. destruct Ry. split; destruct y; auto. }
    destruct (N z Rz) as [L _]. assert (dval z - signed s q == 0)%Q as Z by lra. rewrite Z in L. change (Qabs 0) with 0%Q in L. pose proof (Qle_Qabs (dval x - signed s q)). pose proof (Qle_Qabs (- (dval x - signed s q))) as L2. rewrite Qabs_opp in L2. lra.
Qed.
Lemma representable_ext q q' : (q == q')%Q -> representable q -> representable q'.
Proof. intros E (x & R & V). exists x. split; auto. now rewrite V. Qed.
Lemma conclude_owed f v : means f v -> owed v (conclude f).
Proof.
  destruct f as [s n k e|s|], v as [neg q|neg|]; cbn [means]; try easy; [|intros ->; reflexivity..].
  intros (<- & V & K & Q). cbn [conclude owed]. destruct (Z.eqb_spec n 0) as [-> |NZ].
  - assert (q == 0)%Q as Z by (rewrite Q; change (inject_Z 0) with 0%Q; ring). left. split; [unfold in_range; rewrite Z; reflexivity|]. split; [intros [H _]; lra|]. exists (S754_zero s). split; auto. split; [|reflexivity].
    split; [split; reflexivity|]. intros y Y. assert (signed s q == 0)%Q as -> by (destruct s; cbn [signed]; lra). cbn [dval even_mantissa]. split; [|auto]. change (Qabs (0 - 0)) with 0%Q. apply Qabs_nonneg.
  - pose proof (power_rat n k e ltac:(lia) K) as P. destruct (if 0 <=? e then (n * k ^ e, 1) else (n, k ^ (- e))) as [a b]. destruct P as (A & B & P). assert (rat a b == q)%Q as Rq by (rewrite P, Q; reflexivity).
    pose proof (rat_pos a b A B) as Rp. assert (Qabs q == rat a b)%Q as Aq by (rewrite Qabs_pos; lra). destruct (rn64_correct s a b A B) as [C1 C2].
    destruct (in_range_dec q) as [G|G].
    + unfold in_range in G. pose proof G as G'. rewrite Aq in G'. destruct (C1 G') as [N1 N2]. set (x := rn64 s a b) in *. assert (nearest_double (signed s q) x) as N by (eapply nearest_ext; [|exact N1]; destruct s; cbn [signed]; lra).
      pose proof (finite_not_inf x (proj1 N)) as NI. pose proof (exactly_representable s a b q x A B Rq N N2) as X. pose proof (tiny_below a b q A B Rq) as T.
      assert (settle a b x = if tiny a b && negb (exactly x a b) then Throw OutOfRange else Ok x) as -> by (destruct x; auto; exfalso; now apply (NI s0)).
      destruct (tiny a b && negb (exactly x a b)) eqn:W.
      * right. split; [|auto]. right. apply andb_true_iff in W as [W1 W2]. apply negb_true_iff in W2. split; [now apply T|]. intros H. apply X in H. congruence.
      * left. split; [auto|]. split; [|exists x; auto]. intros H. apply T in H. rewrite H in W. cbn [andb] in W. apply negb_false_iff in W. now apply X.
    + right. split; [auto|]. unfold in_range in G. rewrite Aq in G. rewrite C2 by lra. reflexivity.
Qed.

(** ** C100 *)
Lemma blank_skip b s : all_blank b -> s = [] \/ no_blank_head s -> skip_ws (b ++ s) = s.
Proof.
  intros B H. induction b as [|c b IH]; cbn [app].
  - destruct s as [|c s]; [reflexivity|]. destruct H as [H|H]; [discriminate|]. cbn [skip_ws]. destruct (is_space c) eqn:E; auto. apply is_space_codes in E. easy.
  - apply all_blank_cons in B as [C B]. cbn [skip_ws]. apply is_space_codes in C. rewrite C. auto.
Qed.
Lemma number_head s t v : longest_number s t -> number_text t v -> no_blank_head s.
Proof.
  intros (r & -> & _) N. destruct (number_core t v N) as (st & sg & u & f & -> & S & C & _).
  assert (no_blank_head (st ++ u) -> no_blank_head ((st ++ u) ++ r)) as K by (destruct (st ++ u); [easy|auto]). apply K. destruct S; cbn [app no_blank_head]; [|cbn; lia..].
  apply core_head in C. destruct u as [|c u]; [easy|]. cbn [app no_blank_head]. intros I'. cbn [In] in I'. destruct C as [C|[C|[C|C]]]; [apply digit_code in C; lia|subst c; cbn in I'; lia|apply letter_code in C; cbn in C; lia..].
Qed.
(** *** blanks, then the longest text that is a number in the sense of the C standard: its
    value correctly rounded; what follows is ignored.  Numbers too large, or so small that
    digits are lost, are refused *)
Theorem C100_reads b s t v : all_blank b -> longest_number s t -> number_text t v -> owed v (stod (b ++ s)).
Proof.
  intros B L N. rewrite stod_conclude, blank_skip by (auto; right; eapply number_head; eauto). destruct (strtod_reads t v N) as (f & M & R). rewrite (R s L). now apply conclude_owed.
Qed.
(** *** without a number: std::invalid_argument *)
Theorem C100_refuses b s : all_blank b -> s = [] \/ no_blank_head s -> no_number s -> stod (b ++ s) = Throw LogicError.
Proof. intros B H N. rewrite stod_conclude, blank_skip by auto. now rewrite strtod_refuses. Qed.
(** *** no other case *)
Theorem C100_always x : exists b s, x = b ++ s /\ all_blank b /\ ((exists t v, longest_number s t /\ number_text t v) \/ ((s = [] \/ no_blank_head s) /\ no_number s)).
Proof.
  destruct (skip_ws_split x) as (b & E & B & H). exists b, (skip_ws x). split; auto. split; auto. destruct (strtod_cases (skip_ws x)) as [C|C]; auto. right. split; auto. destruct (skip_ws x); [auto|right; apply H; discriminate].
Qed.
(** *** the rest is ignored *)
Lemma longest_self t : a_number t -> longest_number t t.
Proof. intros A. exists []. rewrite app_nil_r. split; auto. split; auto. intros [|c a] r E _; [auto|discriminate]. Qed.
Theorem C100_rest_ignored b s t : all_blank b -> longest_number s t -> stod (b ++ s) = stod t.
Proof.
  intros B L. assert (a_number t) as [v N] by (destruct L as (r & _ & A & _); exact A). rewrite !stod_conclude, blank_skip by (auto; right; eapply number_head; eauto).
  assert (longest_number t t) as L' by (apply longest_self; now exists v). replace (skip_ws t) with t by (symmetry; apply (blank_skip [] t); [intros ? []|right; eapply number_head; eauto]).
  destruct (strtod_reads t v N) as (f & _ & R). now rewrite (R s L), (R t L').
Qed.
(** *** a number ends where a character follows that no number contains: so a decimal comma
    cuts the fraction off, silently *)
Theorem C100_stops t c r : a_number t -> ~ number_char c -> longest_number (t ++ c :: r) t.
Proof.
  intros A C. exists (c :: r). split; auto. split; auto. intros [|x a] r' E [v N]; auto. exfalso. cbn [app] in E. injection E as <- E. apply number_chars in N. apply Forall_app in N as [_ N]. inversion N; subst. easy.
Qed.
Theorem C100_comma t r : a_number t -> stod (t ++ ","%char :: r) = stod t.
Proof.
  intros A. apply (C100_rest_ignored [] _ t); [intros ? []|]. apply C100_stops; auto. intros H. unfold number_char, word_char in H. destruct H as [H|H]; [cbn in H; lia|]. repeat (destruct H as [H|H]; [discriminate|]). discriminate.
Qed.
Theorem C100_total s : stod s <> UB.
Proof.
  rewrite stod_conclude. destruct (strtod (skip_ws s)) as [[sg v k e| |]|]; try discriminate. cbn [conclude]. destruct (v =? 0); [discriminate|]. destruct (if 0 <=? e then _ else _) as [a b]. unfold settle. destruct (rn64 sg a b); try discriminate; destruct (_ && _); discriminate.
Qed.
