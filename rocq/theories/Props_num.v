(** * C81, C82: numbers in text files, for every text and every number. *)
From Verif Require Import Base Dbl Decimal Round_proofs Rn_proofs Scan_proofs Spec_text Spec_num Nearest_proofs Num_proofs Printnum_proofs.
From Coq Require Import QArith Qpower Qabs Lqa.
Open Scope Z_scope.

(** C81: extracting a double takes the longest prefix that can be continued to a decimal
    number, succeeds exactly when that prefix is one and is in range, and yields the nearest
    double, ties to even, with the sign of the text. *)
Theorem C81_double s x r : scan_double s = Some (x, r) <-> takes_double s x r.
Proof. apply scan_double_correct. Qed.
(** the result is determined by the text *)
Theorem C81_unambiguous t neg q neg' q' : decimal_text t neg q -> decimal_text t neg' q' -> neg = neg' /\ (q == q')%Q.
Proof. apply decimal_unique. Qed.
Theorem C81_nearest_unique q x y : in_range q -> nearest_double q x -> nearest_double q y -> negative x = negative y -> x = y.
Proof. apply nearest_unique. Qed.
(** extracting an index *)
Theorem C81_size s n r : scan_size s = Some (n, r) <-> takes_size s n r.
Proof. apply scan_size_correct. Qed.
(** the numbers of a line *)
Theorem C81_doubles s l : scan_doubles s = l <-> extracts takes_double s l.
Proof. apply scan_list_spec; [apply scan_double_correct|apply takes_double_shorter]. Qed.
Theorem C81_sizes s l : scan_sizes s = l <-> extracts takes_size s l.
Proof. apply scan_list_spec; [apply scan_size_correct|apply takes_size_shorter]. Qed.
(** the degree at the head of a face line: on failure 0, or 2^64-1 when the number is too large *)
Theorem C81_degree l n r : scan_size_n l = (n, r) <->
  exists b s, l = b ++ s /\ all_blank b /\ (s = [] \/ no_blank_head s) /\
  match r with
  | Some r => s <> [] /\ takes_size s n r
  | None => (forall m u, ~ takes_size s m u) /\
            (Z.of_N n = 2 ^ 64 - 1 /\ (exists t neg v u, consumed an_integer s t u /\ integer_text t neg v /\ 2 ^ 64 <= v) \/
             n = 0%N /\ forall t u, consumed an_integer s t u -> ~ an_integer t)
  end.
Proof.
  destruct (skip_ws_split l) as (b0 & E0 & B0 & H0).
  assert (forall b s, l = b ++ s -> all_blank b -> (s = [] \/ no_blank_head s) -> s = skip_ws l) as Uq.
  { intros b s E B N. destruct (skip_ws l) as [|c w] eqn:Es.
    - rewrite app_nil_r in E0. destruct N as [N|N]; [auto|exfalso]. destruct s as [|c s]; [easy|]. apply N. apply B0. rewrite <- E0, E. apply in_or_app. right. now left.
    - specialize (H0 ltac:(discriminate)). destruct N as [->|N].
      + rewrite app_nil_r in E. subst b. exfalso. apply H0. apply B. rewrite E0. apply in_or_app. right. now left.
      + rewrite E0 in E. symmetry in E. destruct (blank_split_unique _ _ _ _ E B B0 N H0); auto. }
  assert (scan_size_n l = (n, r) <-> (let s := skip_ws l in match r with
    | Some r => s <> [] /\ takes_size s n r
    | None => (forall m u, ~ takes_size s m u) /\ (Z.of_N n = 2 ^ 64 - 1 /\ (exists t neg v u, consumed an_integer s t u /\ integer_text t neg v /\ 2 ^ 64 <= v) \/ n = 0%N /\ forall t u, consumed an_integer s t u -> ~ an_integer t) end)) as Core.
  { cbv zeta. unfold scan_size_n. destruct (skip_ws l) as [|c s] eqn:Es.
    - assert (forall t u, consumed an_integer [] t u -> ~ an_integer t) as NT.
      { intros t u (E & _) (neg & v & st & w & -> & S & N). symmetry in E. apply app_eq_nil in E as [E _]. apply app_eq_nil in E as [_ ->]. apply nat_text_spec in N as (_ & N & _). easy. }
      destruct r as [r|]; split.
      + discriminate.
      + intros [[] _]. reflexivity.
      + intros H. injection H as <-. split; [intros m u (t & neg & v & C & I & _); apply (NT t u C); eexists _, _; exact I|]. right. auto.
      + intros [_ [[_ (t & neg & v & u & C & I & _)]|[-> _]]]; [|reflexivity]. exfalso. apply (NT t u C). eexists _, _. exact I.
    - destruct (scan_size (c :: s)) as [[k w]|] eqn:Sc.
      + pose proof (proj1 (scan_size_correct _ _ _) Sc) as T. destruct r as [r|]; split.
        * intros H. injection H as <- <-. split; [discriminate|auto].
        * intros [_ H]. apply scan_size_correct in H. rewrite Sc in H. injection H as -> ->. reflexivity.
        * discriminate.
        * intros [H _]. now destruct (H k w).
      + assert (forall m u, ~ takes_size (c :: s) m u) as NT by (intros m u T; apply scan_size_correct in T; congruence).
        destruct (scan_size_shape (c :: s)) as (st & sg & ds & w & Eq & S & D & Nd & C & E1 & E2). unfold scan_size in Sc. rewrite E1 in *. cbn [snd]. rewrite E2 in *.
        destruct (Nat.eqb_spec (length ds) 0) as [Z|NZ].
        * assert (forall t u, consumed an_integer (c :: s) t u -> ~ an_integer t) as NI.
          { intros t u C' (neg & v & I). destruct (consumed_unique _ _ _ _ _ _ C C') as [<- _]. destruct ds; [|discriminate]. rewrite app_nil_r in I.
            destruct I as (st' & x & E & S' & Nx). apply nat_text_spec in Nx as (F & NE & _). destruct x as [|y x]; [easy|]. inversion_clear F as [|? ? D0 _]. apply isdig_not_sign in D0.
            destruct D0 as (A & B & _). destruct S; destruct S'; cbn [app] in E; try discriminate; injection E as E' E''; try discriminate; congruence. }
          destruct r as [r|]; split; [discriminate|intros [_ H]; now destruct (NT n r)| |].
          -- intros H. injection H as <-. split; auto.
          -- intros [_ [[_ (t & neg & v & u & C' & I & _)]|[-> _]]]; [|reflexivity]. exfalso. apply (NI t u C'). eexists _, _. exact I.
        * assert (ds <> []) as Ne by (intros ->; now apply NZ).
          assert (integer_text (st ++ ds) sg (numval 0 ds)) as I by (exists st, ds; split; auto; split; auto; apply nat_text_spec; auto).
          destruct (Z.leb_spec (Z.of_N two64) (numval 0 ds)) as [L|L]; [|discriminate].
          destruct r as [r|]; split; [discriminate|intros [_ H]; now destruct (NT n r)| |].
          -- intros H. injection H as <-. split; auto. left. split; [reflexivity|]. exists (st ++ ds), sg, (numval 0 ds), w. auto.
          -- intros [_ [[H _]|[_ H]]]; [|exfalso; apply (H _ _ C); eexists _, _; exact I]. f_equal. unfold two64 in *. lia. }
  rewrite Core. cbv zeta. split.
  - intros H. exists b0, (skip_ws l). split; auto. split; auto. split; [|exact H]. destruct (skip_ws l); [now left|right; apply H0; discriminate].
  - intros (b & s & E & B & N & H). rewrite <- (Uq b s); auto.
Qed.
(** a double used as an index (OBJ faces): truncation; undefined when the result does not fit *)
Theorem C81_index x n : size_of_dbl x = Ok n <->
  dfinite x = true /\ Z.of_N n < 2 ^ 64 /\ ((inject_Z (Z.of_N n) <= dval x /\ dval x < inject_Z (Z.of_N n + 1))%Q \/ n = 0%N /\ (-1 < dval x <= 0)%Q).
Proof.
  destruct x as [s|s| |s m e]; cbn [size_of_dbl dfinite].
  - cbn [dval]. split.
    + intros H. injection H as <-. split; auto. split; [reflexivity|]. left. split; [apply Qle_refl|reflexivity].
    + intros (_ & _ & [[H1 H2]|[-> _]]); [|reflexivity]. change 0%Q with (qz 0) in *. apply qz_le in H1. apply qz_lt in H2. f_equal. lia.
  - split; [discriminate|intros (H & _); discriminate].
  - split; [discriminate|intros (H & _); discriminate].
  - pose proof (frac_rat m e) as F. destruct (frac m e) as [a b]. destruct F as (A & B & R). pose proof (rat_pos a b A B) as Rp.
    assert (forall k, (qz k <= rat a b < qz (k + 1))%Q <-> a / b = k) as Fl.
    { intros k. rewrite (rat_le_Z a b k B), (rat_lt_Z a b (k + 1) B). split.
      - intros [H1 H2]. symmetry. apply Z.div_unique with (r := a - k * b); lia.
      - intros <-. pose proof (Z.div_mod a b ltac:(lia)). pose proof (Z.mod_pos_bound a b B). lia. }
    assert (dval (S754_finite s m e) == (if s then -1 else 1) * rat a b)%Q as Ed by (rewrite dval_finite, R; reflexivity).
    change (2 ^ 64) with (Z.of_N two64). change inject_Z with qz. rewrite Ed. pose proof (Z.div_pos a b ltac:(lia) B) as Dp. destruct s.
    + destruct (Z.eqb_spec (a / b) 0) as [Z|Z].
      * apply Fl in Z. change (qz (0 + 1)) with 1%Q in Z. change (qz 0) with 0%Q in Z. split.
        -- intros H. injection H as <-. split; auto. split; [reflexivity|]. right. split; auto. lra.
        -- intros (_ & _ & [[H _]|[-> _]]); [|reflexivity]. exfalso. assert (qz 0 <= qz (Z.of_N n))%Q by (apply (proj1 (qz_le _ _)); lia). change (qz 0) with 0%Q in *. lra.
      * split; [discriminate|]. intros (_ & _ & [[H _]|[-> H]]).
        -- exfalso. assert (qz 0 <= qz (Z.of_N n))%Q by (apply (proj1 (qz_le _ _)); lia). change (qz 0) with 0%Q in *. lra.
        -- exfalso. apply Z. apply Fl. change (qz (0 + 1)) with 1%Q. change (qz 0) with 0%Q. lra.
    + setoid_replace (1 * rat a b)%Q with (rat a b) by ring. destruct (Z.ltb_spec (a / b) (Z.of_N two64)) as [L|L]; split.
      * intros H. injection H as <-. split; auto. rewrite Z2N.id by lia. split; auto. left. apply Fl. reflexivity.
      * intros (_ & _ & [H|[-> H]]); [|exfalso; lra]. apply Fl in H. rewrite H. now rewrite N2Z.id.
      * discriminate.
      * intros (_ & Ln & [H|[-> H]]); [|exfalso; lra]. apply Fl in H. lia.
Qed.
From Coq Require Import String.
Definition chars (s : String.string) : str := String.list_ascii_of_string s.
(** concrete: "-12.5e1x" gives -125 and leaves "x"; "1e", ".e5", "1e999" and "- 5" fail *)
Example C81_example :
  scan_double (chars "-12.5e1x") = Some (dopp (dofZ 125), chars "x") /\
  scan_double (chars "1e") = None /\ scan_double (chars ".e5") = None /\ scan_double (chars "1e999") = None /\ scan_double (chars "- 5") = None /\
  scan_size (chars "-1 2") = Some (18446744073709551615%N, chars " 2") /\ scan_size (chars "18446744073709551616") = None /\
  scan_sizes (chars " 3 0 1 x 2") = [3; 0; 1]%N /\ takes_double (chars "-12.5e1x") (dopp (dofZ 125)) (chars "x").
Proof. repeat (split; [vm_compute; reflexivity|]). apply C81_double. vm_compute. reflexivity. Qed.

(** C82: writing a double: the nearest decimal of six significant digits, plain notation for
    exponents from -4 to 5 and scientific otherwise, without superfluous zeros. *)
Theorem C82_double x : real_double x -> ~ (dval x == 0)%Q ->
  exists D X, six_digits (Qabs (dval x)) D X /\ default_text (negative x) D X (print_dbl x).
Proof. apply print_dbl_text. Qed.
(** these digits are unique *)
Theorem C82_digits_unique q D X D' X' : six_digits q D X -> six_digits q D' X' -> D = D' /\ X = X'.
Proof. apply six_digits_unique. Qed.
(** zeros keep their sign *)
Theorem C82_zero s : print_dbl (S754_zero s) = sign_of s ++ [zero].
Proof. destruct s; reflexivity. Qed.
(** infinities and NaN are written as words, which no extraction reads back *)
Theorem C82_not_finite x : dfinite x = false -> (print_dbl x = chars "inf" \/ print_dbl x = chars "-inf" \/ print_dbl x = chars "nan") /\ scan_double (print_dbl x) = None.
Proof. destruct x as [s|s| |s m e]; try discriminate; [destruct s|]; intros _; (split; [auto|reflexivity]). Qed.
(** unsigned integers: their decimal digits, no leading zero *)
Theorem C82_integer n : nat_text (print_N n) (Z.of_N n) /\ (print_N n = [zero] \/ hd zero (print_N n) <> zero).
Proof. apply print_nat_text. lia. Qed.
(** the text determines the number of six digits it was made from *)
Theorem C82_value neg D X t : default_text neg D X t -> decimal_text t neg (inject_Z D * (10#1) ^ (X - 5)).
Proof.
  intros (it & ids & ft & fds & et & e & -> & A & B & C & V & T & L).
  exists (sign_of neg), it, ids, ft, fds, et, e. split; [reflexivity|]. split; [destruct neg; constructor|]. split; [auto|]. split; [auto|]. split; [auto|].
  split; [|now rewrite V]. intros E. assert (it <> []) as NE.
  { destruct ((-4 <=? X) && (X <? 6)); [tauto|]. destruct L as (L & _). destruct it; discriminate. }
  destruct A as [|? ? ? ? _ _]; [easy|discriminate].
Qed.
Example C82_example : print_dbl (dopp (dofZ 125)) = chars "-125" /\ print_dbl (dofZ 1234567) = chars "1.23457e+06" /\ real_double (dofZ 1234567) /\ ~ (dval (dofZ 1234567) == 0)%Q /\
  default_text false 123457 6 (chars "1.23457e+06").
Proof.
  split; [vm_compute; reflexivity|]. split; [vm_compute; reflexivity|]. split; [split; vm_compute; reflexivity|]. split; [vm_compute; discriminate|].
  change (chars "1.23457e+06") with (fmt_g false 123457 6). apply fmt_g_text. lia.
Qed.
