(** * Proofs about std::stod (C100): the number found is the longest one. *)
From Verif Require Import Base Dbl Decimal Round_proofs Rn_proofs Scan_proofs Spec_text Spec_num Nearest_proofs Num_proofs Stod Spec_stod.
From Coq Require Import QArith Qpower Qabs Lqa.
Open Scope Z_scope.

Definition all (p : ascii -> bool) (s : str) : Prop := Forall (fun c => p c = true) s.
Definition stops (p : ascii -> bool) (s : str) : Prop := match s with [] => True | c :: _ => p c = false end.
Lemma span_spec p s : let '(a, b) := span p s in s = a ++ b /\ all p a /\ stops p b.
Proof.
  induction s as [|c s IH]; cbn [span]; [repeat constructor|]. destruct (p c) eqn:E.
  - destruct (span p s) as [a b]. destruct IH as (-> & A & B). repeat split; auto. now constructor.
  - split; [reflexivity|]. split; [constructor|exact E].
Qed.
Lemma span_app p a b : all p a -> stops p b -> span p (a ++ b) = (a, b).
Proof.
  induction 1 as [|c a C A IH]; intros B; cbn [app].
  - destruct b as [|c b]; [reflexivity|]. cbn [span]. cbn [stops] in B. now rewrite B.
  - cbn [span]. rewrite C, IH; auto.
Qed.
Lemma cut p a : forall a' x b, all p a -> all p a' -> stops p b -> a' ++ x = a ++ b -> exists m, a = a' ++ m /\ x = m ++ b.
Proof.
  induction a as [|c a IH]; intros a' x b A A' B E.
  - destruct a' as [|c' a']; [exists []; auto|]. cbn [app] in E. subst b. inversion A'; subst. cbn [stops] in B. congruence.
  - destruct a' as [|c' a']; [exists (c :: a); auto|]. cbn [app] in E. injection E as -> E. inversion A; subst. inversion A'; subst. destruct (IH a' x b) as (m & -> & ->); auto. exists m; auto.
Qed.

Section MANTISSA.
Context (isd ise : ascii -> bool) (dot_d : isd dot = false) (dot_e : ise dot = false) (apart : forall c, isd c = true -> ise c = false).
Inductive gexp : str -> Z -> Prop :=
| ge_none : gexp [] 0
| ge_some c st neg D : ise c = true -> sign_text st neg -> D <> [] -> all is_digit D -> gexp (c :: st ++ D) (if neg then - horner 10 dec_val D else horner 10 dec_val D).
Definition gtext (t ip fp : str) (e : Z) : Prop :=
  exists d et, t = ip ++ fracstr d ++ et /\ fp = fracdigs d /\ all isd ip /\ all isd fp /\ ip ++ fp <> [] /\ gexp et e.
Lemma gexp_stops et e : gexp et e -> stops isd et /\ match et with c :: _ => c <> dot | [] => True end.
Proof.
  intros []; cbn [stops]; auto. split; [|intros ->; congruence]. destruct (isd c) eqn:X; auto. apply apart in X. congruence.
Qed.
Lemma digits_no_sign_head D r : all is_digit D -> D <> [] -> no_sign_head (D ++ r).
Proof.
  intros A N. destruct D as [|c D]; [easy|]. inversion A; subst. cbn [app no_sign_head]. split; intros ->; discriminate.
Qed.
Lemma mantissa_self t ip fp e : gtext t ip fp e -> mantissa isd ise t = Some (ip, fp, e).
Proof.
  intros (d & et & -> & -> & A & B & N & G). unfold mantissa. pose proof (gexp_stops _ _ G) as [S1 S2].
  assert (stops isd (fracstr d ++ et)) as S by (destruct d; auto).
  rewrite span_app by auto.
  assert (fraction_part isd (fracstr d ++ et) = (fracdigs d, et)) as E.
  { destruct d as [f|]; cbn [fracstr fracdigs app fraction_part].
    - change (Ascii.eqb dot ch_dot) with true. cbv iota. now apply span_app.
    - destruct et as [|c et]; [reflexivity|]. cbn [fraction_part]. destruct (Ascii.eqb_spec c ch_dot); [easy|reflexivity]. }
  rewrite E. destruct (ip ++ fracdigs d) as [|x y] eqn:X; [easy|]. f_equal. f_equal.
  destruct G as [|c st neg D C S' ND AD]; [reflexivity|]. cbn [exponent_part]. rewrite C. rewrite (scan_sign_text st neg); auto.
  - rewrite <- (app_nil_r D) at 1. rewrite span_app; cbn [stops]; auto. now destruct D.
  - rewrite <- (app_nil_r D). now apply digits_no_sign_head.
Qed.
Lemma mantissa_some s ip fp e : mantissa isd ise s = Some (ip, fp, e) ->
  exists t r, s = t ++ r /\ gtext t ip fp e /\ forall t' r' ip' fp' e', s = t' ++ r' -> gtext t' ip' fp' e' -> (length t' <= length t)%nat.
Proof.
  unfold mantissa. pose proof (span_spec isd s) as P. destruct (span isd s) as [I s1]. destruct P as (-> & AI & S1).
  set (q := fraction_part isd s1). assert (exists d, fst q = fracdigs d /\ s1 = fracstr d ++ snd q /\ all isd (fst q) /\ (d = None -> match s1 with c :: _ => c <> dot | [] => True end) /\ (d <> None -> stops isd (snd q))) as (d & Ef & E1 & AF & Nd & Sd).
  { unfold q, fraction_part. destruct s1 as [|c s1]; [exists None; repeat constructor; auto; congruence|]. destruct (Ascii.eqb_spec c ch_dot) as [->|N].
    - pose proof (span_spec isd s1) as P. destruct (span isd s1) as [F s2]. destruct P as (-> & AF & S2). exists (Some F). cbn. repeat split; auto. discriminate.
    - exists None. cbn. repeat split; auto; try constructor; congruence. }
  clearbody q. destruct q as [F s2]. cbn [fst snd] in *. subst s1.
  destruct (I ++ F) as [|x y] eqn:X; [discriminate|]. assert (I ++ F <> []) as NE by congruence. clear X x y.
  set (e0 := exponent_part ise s2). intros H. injection H as <- <- He.
  (* the exponent *)
  assert (exists et r, s2 = et ++ r /\ gexp et e0 /\ (forall et' r' e', s2 = et' ++ r' -> gexp et' e' -> (length et' <= length et)%nat)) as (et & r & E2 & G & Mx).
  { unfold e0, exponent_part. clear -s2. destruct s2 as [|c u]; [exists [], []; split; auto; split; [constructor|]; intros [|? ?] ? ? ? ?; [cbn; lia|discriminate]|].
    destruct (ise c) eqn:C.
    - destruct (scan_sign u) as [neg s3] eqn:Sc. apply scan_sign_inv in Sc as Iv. destruct Iv as (st & Hu & S & Hs).
      pose proof (span_spec is_digit s3) as P. destruct (span is_digit s3) as [D s4]. destruct P as (E3 & AD & S4).
      assert (forall c' st' neg' D' r', sign_text st' neg' -> D' <> [] -> all is_digit D' -> c :: u = (c' :: st' ++ D') ++ r' -> s3 = D' ++ r' /\ u = st' ++ D' ++ r') as Sp.
      { intros c' st' neg' D' r' S' ND' AD' Eq. cbn [app] in Eq. injection Eq as _ Eq. rewrite <- app_assoc in Eq. split; auto. rewrite Eq in Sc. rewrite (scan_sign_text st' neg') in Sc; auto using digits_no_sign_head. now injection Sc. }
      destruct D as [|x D].
      + exists [], (c :: u). split; auto. split; [constructor|]. intros et' r' e' Eq G. destruct G as [|c' st' neg' D' C' S' ND' AD']; [cbn; lia|]. exfalso.
        destruct (Sp c' st' neg' D' r' S' ND' AD' Eq) as [E3' _]. rewrite E3 in E3'. cbn [app] in E3'. destruct D' as [|x D']; [easy|]. inversion AD'; subst. cbn [app stops] in S4. congruence.
      + exists (c :: st ++ x :: D), s4. split; [rewrite Hu, E3; cbn [app]; now rewrite <- app_assoc|]. split; [now constructor|]. intros et' r' e' Eq G. destruct G as [|c' st' neg' D' C' S' ND' AD']; [cbn; lia|].
        destruct (Sp c' st' neg' D' r' S' ND' AD' Eq) as [E3' Eu]. destruct (cut is_digit (x :: D) D' r' s4) as (m & Em & _); auto. { now rewrite <- E3'. }
        apply (f_equal (@length ascii)) in Em. apply (f_equal (@length ascii)) in Hu. apply (f_equal (@length ascii)) in Eu. apply (f_equal (@length ascii)) in E3. apply (f_equal (@length ascii)) in E3'.
        cbn [length] in *. rewrite !app_length in *. cbn [length] in *. lia.
    - exists [], (c :: u). split; auto. split; [constructor|]. intros et' r' e' Eq G. destruct G as [|c' st' neg' D' C' S' ND' AD']; [cbn; lia|]. exfalso. cbn [app] in Eq. injection Eq as -> _. congruence. }
  subst s2. exists (I ++ fracstr d ++ et), r. split; [now rewrite !app_assoc|]. split. { exists d, et. rewrite <- Ef. repeat split; auto. now rewrite <- He. }
  intros t' r' ip' fp' e' Eq (d' & et' & -> & -> & A' & B' & N' & G'). rewrite !app_length. pose proof (gexp_stops _ _ G') as [T1 T2].
  rewrite <- !app_assoc in Eq. destruct (cut isd I ip' (fracstr d' ++ et' ++ r') (fracstr d ++ et ++ r)) as (m & -> & Em); auto.
  destruct m as [|x m].
  - cbn [app] in Em. rewrite app_nil_r. destruct d' as [f'|]; cbn [fracstr fracdigs app length] in *.
    + destruct d as [f|]; cbn [fracstr fracdigs app length] in *; [|specialize (Nd eq_refl)].
      * injection Em as Em. subst F. destruct (cut isd f f' (et' ++ r') (et ++ r)) as (m & -> & Em'); auto. { apply Sd. discriminate. }
        destruct m as [|x m]; [|destruct et' as [|y et']; cbn [app length] in *; [rewrite app_length; lia|]].
        -- cbn [app] in Em'. specialize (Mx et' r' e' (eq_sym Em') G'). rewrite app_nil_r. lia.
        -- exfalso. injection Em' as -> _. apply Forall_app in AF as [_ AF]. inversion AF; subst. cbn [stops] in T1. congruence.
      * exfalso. destruct (et ++ r); [discriminate|]. injection Em as <- _. easy.
    + destruct et' as [|y et']; [cbn; lia|]. destruct d as [f|]; cbn [fracstr fracdigs app length] in *.
      * exfalso. injection Em as -> _. easy.
      * specialize (Mx (y :: et') r' e' (eq_sym Em) G'). cbn [length] in Mx. lia.
  - assert (isd x = true) as X. { apply Forall_app in AI as [_ AI]. inversion AI; subst; auto. } cbn [app] in Em. destruct d' as [f'|]; cbn [fracstr app] in Em; [injection Em as <- _; congruence|].
    destruct et' as [|y et']; [cbn [fracstr length]; rewrite app_length; lia|]. injection Em as -> _. cbn [stops] in T1. congruence.
Qed.
Lemma mantissa_none s : mantissa isd ise s = None -> forall t' r' ip' fp' e', s = t' ++ r' -> ~ gtext t' ip' fp' e'.
Proof.
  unfold mantissa. pose proof (span_spec isd s) as P. destruct (span isd s) as [I s1]. destruct P as (-> & AI & S1). intros H t' r' ip' fp' e' Eq (d' & et' & -> & -> & A' & B' & N' & G').
  rewrite <- !app_assoc in Eq. destruct (cut isd I ip' (fracstr d' ++ et' ++ r') s1) as (m & -> & Em); auto.
  destruct ip' as [|x ip']; [|destruct (fraction_part isd s1); cbn [app] in H; discriminate]. cbn [app] in *.
  destruct d' as [f'|]; cbn [fracdigs fracstr app] in *; [|easy].
  destruct m as [|y m]; [|destruct (fraction_part isd s1); cbn [app] in H; discriminate]. cbn [app] in *. subst s1. cbn [fraction_part] in H. change (Ascii.eqb dot ch_dot) with true in H. cbv iota in H.
  destruct f' as [|x f']; [easy|]. cbn [app span] in H. inversion B' as [|? ? Bx Bf]; subst. rewrite Bx in H. destruct (span isd (f' ++ et' ++ r')) as [a b]. cbn in H. discriminate.
Qed.
End MANTISSA.

(** ** Words *)
Definition small (a : ascii) : Prop := (97 <= N_of_ascii a <= 122)%N.
Lemma lower_letter a c : small a -> Ascii.eqb a (lower c) = true <-> letter a c.
Proof.
  intros S. unfold lower, letter, small in *. rewrite Ascii.eqb_eq. pose proof (N_ascii_bounded c) as Bc.
  destruct ((65 <=? N_of_ascii c) && (N_of_ascii c <=? 90))%N eqn:E.
  - apply andb_true_iff in E as [E1 E2]. apply N.leb_le in E1, E2. split.
    + intros ->. right. rewrite N_ascii_embedding by lia. lia.
    + intros [-> | H]; [lia|]. rewrite <- (ascii_N_embedding a). f_equal. lia.
  - split; [now left|]. intros [H | H]; [auto|]. exfalso. apply andb_false_iff in E. rewrite !N.leb_gt in E. lia.
Qed.
Lemma begins_spelled w : Forall small w -> forall s, begins w s = true <-> exists t r, s = t ++ r /\ spelled w t.
Proof.
  induction 1 as [|a w S W IH]; intros s; cbn [begins].
  - split; auto. intros _. exists [], s. split; [auto|constructor].
  - destruct s as [|c s].
    + split; [discriminate|]. intros (t & r & E & Sp). inversion Sp; subst. discriminate.
    + rewrite andb_true_iff, lower_letter, IH by auto. split.
      * intros [L (t & r & -> & Sp)]. exists (c :: t), r. split; [auto|now constructor].
      * intros (t & r & E & Sp). inversion Sp as [|? c' ? t' L' Sp']; subst. cbn [app] in E. injection E as -> ->. split; eauto.
Qed.
Lemma spelled_len w t : spelled w t -> length t = length w.
Proof. induction 1; cbn [length]; auto. Qed.
Lemma spelled_app w1 w2 t : spelled (w1 ++ w2) t -> exists t1 t2, t = t1 ++ t2 /\ spelled w1 t1 /\ spelled w2 t2.
Proof. intros H. apply Forall2_app_inv_l in H as (t1 & t2 & A & B & ->). eauto. Qed.
Lemma smalls (w : str) : forallb (fun a => (97 <=? N_of_ascii a) && (N_of_ascii a <=? 122))%N w = true -> Forall small w.
Proof. rewrite forallb_forall. intros H. apply Forall_forall. intros a I'. apply H in I'. apply andb_true_iff in I' as [A B]. apply N.leb_le in A, B. now split. Qed.
Definition w_infinity : str := ["i"; "n"; "f"; "i"; "n"; "i"; "t"; "y"]%char.
Lemma small_inf : Forall small w_inf.  Proof. now apply smalls. Qed.
Lemma small_nan : Forall small w_nan.  Proof. now apply smalls. Qed.
Lemma small_infinity : Forall small w_infinity.  Proof. now apply smalls. Qed.
Definition is_word (c : ascii) : bool :=
  let n := N_of_ascii c in ((48 <=? n) && (n <=? 57) || (65 <=? n) && (n <=? 90) || (97 <=? n) && (n <=? 122) || (n =? 95))%N.
Lemma is_word_char c : is_word c = true <-> word_char c.
Proof. unfold is_word, word_char. cbv zeta. rewrite !orb_true_iff, !andb_true_iff, !N.leb_le, N.eqb_eq. tauto. Qed.

(** ** The unsigned numbers *)
Inductive core (sg : bool) : str -> found -> Prop :=
| co_dec u ip fp e : gtext is_digit is_e u ip fp e -> core sg u (Power sg (horner 10 dec_val (ip ++ fp)) 10 (e - Z.of_nat (length fp)))
| co_hex x u ip fp e : x = "x"%char \/ x = "X"%char -> gtext is_hex is_p u ip fp e -> core sg ("0"%char :: x :: u) (Power sg (horner 16 hexa (ip ++ fp)) 2 (e - 4 * Z.of_nat (length fp)))
| co_inf u : spelled w_inf u \/ spelled w_infinity u -> core sg u (Infinity sg)
| co_nan t u : spelled w_nan t -> nan_suffix u -> core sg (t ++ u) Nan.

Definition oneof (l : list N) (c : ascii) : bool := existsb (N.eqb (N_of_ascii c)) l.
Lemma digit_code c : is_digit c = true <-> (48 <= N_of_ascii c <= 57)%N.
Proof.
  unfold is_digit. pose proof (isdig_bounds c) as B. unfold isdig in B. destruct (char_digit c).
  - split; auto. intros _. apply B. discriminate.
  - split; [discriminate|]. intros H. apply B in H. congruence.
Qed.
Lemma hex_code c : is_hex c = true <-> (48 <= N_of_ascii c <= 57 \/ 65 <= N_of_ascii c <= 70 \/ 97 <= N_of_ascii c <= 102)%N.
Proof.
  unfold is_hex, hex_val. cbv zeta.
  destruct ((48 <=? N_of_ascii c) && (N_of_ascii c <=? 57))%N eqn:A; [apply andb_true_iff in A; rewrite !N.leb_le in A; split; [tauto|auto]|].
  destruct ((65 <=? N_of_ascii c) && (N_of_ascii c <=? 70))%N eqn:B; [apply andb_true_iff in B; rewrite !N.leb_le in B; split; [tauto|auto]|].
  destruct ((97 <=? N_of_ascii c) && (N_of_ascii c <=? 102))%N eqn:C; [apply andb_true_iff in C; rewrite !N.leb_le in C; split; [tauto|auto]|].
  split; [discriminate|]. apply andb_false_iff in A, B, C. rewrite !N.leb_gt in *. lia.
Qed.
Lemma char_code (c d : ascii) : c = d <-> N_of_ascii c = N_of_ascii d.
Proof. split; [congruence|]. intros H. rewrite <- (ascii_N_embedding c), <- (ascii_N_embedding d). congruence. Qed.
Lemma e_code c : is_e c = true <-> (N_of_ascii c = 101 \/ N_of_ascii c = 69)%N.
Proof. unfold is_e. rewrite orb_true_iff, !Ascii.eqb_eq, !char_code. reflexivity. Qed.
Lemma p_code c : is_p c = true <-> (N_of_ascii c = 112 \/ N_of_ascii c = 80)%N.
Proof. unfold is_p. rewrite orb_true_iff, !Ascii.eqb_eq, !char_code. reflexivity. Qed.
Lemma dec_apart c : is_digit c = true -> is_e c = false.
Proof. rewrite digit_code. intros H. destruct (is_e c) eqn:E; auto. apply e_code in E. lia. Qed.
Lemma hex_apart c : is_hex c = true -> is_p c = false.
Proof. rewrite hex_code. intros H. destruct (is_p c) eqn:E; auto. apply p_code in E. lia. Qed.
Definition dec_self := mantissa_self is_digit is_e eq_refl eq_refl dec_apart.
Definition dec_some := mantissa_some is_digit is_e eq_refl eq_refl dec_apart.
Definition dec_none := mantissa_none is_digit is_e.
Definition hex_self := mantissa_self is_hex is_p eq_refl eq_refl hex_apart.
Definition hex_some := mantissa_some is_hex is_p eq_refl eq_refl hex_apart.
Definition hex_none := mantissa_none is_hex is_p.
(** the first characters of a decimal number *)
Lemma dec_head u ip fp e : gtext is_digit is_e u ip fp e -> exists c r, u = c :: r /\ (is_digit c = true \/ c = dot) /\ match r with d :: _ => is_digit d = true \/ d = dot \/ is_e d = true | [] => True end.
Proof.
  intros (d & et & -> & -> & A & B & N & G).
  assert (match et with y :: _ => is_e y = true | [] => True end) as T by (destruct G; auto).
  destruct ip as [|c ip]; cbn [app].
  - destruct d as [f|]; [|easy]. cbn [fracdigs app] in *. destruct f as [|x f]; [easy|]. inversion B; subst. exists dot, (x :: f ++ et). cbn [fracstr app]. auto.
  - inversion A as [|? ? Ac Ai]; subst. exists c, (ip ++ fracstr d ++ et). repeat split; auto. destruct ip as [|x ip]; cbn [app]; [|inversion Ai; subst; auto].
    destruct d as [f|]; cbn [fracstr app]; auto. destruct et; auto.
Qed.
Lemma spelled_head a w t : spelled (a :: w) t -> exists c t', t = c :: t' /\ letter a c.
Proof. intros H. inversion H; subst. eauto. Qed.
Ltac codes := rewrite ?digit_code, ?hex_code, ?e_code, ?p_code, ?char_code in *; cbn in *; try lia.
Lemma core_head sg u f : core sg u f -> match u with c :: _ => is_digit c = true \/ c = dot \/ letter "i"%char c \/ letter "n"%char c | [] => False end.
Proof.
  intros [u' ip fp e G|x u' ip fp e X G|u' [S|S]|t u' S Su].
  - apply dec_head in G as (c & r & -> & [H|H] & _); auto.
  - left. reflexivity.
  - apply spelled_head in S as (c & t' & -> & L). auto.
  - apply spelled_head in S as (c & t' & -> & L). auto.
  - apply spelled_head in S as (c & t' & -> & L). cbn [app]. auto.
Qed.
Lemma letter_code a c : letter a c -> (N_of_ascii c = N_of_ascii a \/ N_of_ascii c = N_of_ascii a - 32)%N.
Proof. intros [->|H]; auto. Qed.
Lemma not_begins a w c s : small a -> Forall small w -> ~ letter a c -> begins (a :: w) (c :: s) = false.
Proof. intros S W L. cbn [begins]. destruct (Ascii.eqb a (lower c)) eqn:E; auto. apply lower_letter in E; tauto. Qed.
Lemma core_strtod sg u f : core sg u f -> strtod_unsigned sg u = Some f.
Proof.
  intros [u' ip fp e G|x u' ip fp e X G|u' S|t u' S Su]; unfold strtod_unsigned.
  - destruct (dec_head _ _ _ _ G) as (c & r & -> & H & H2).
    rewrite (not_begins "i"%char ["n"; "f"]%char), (not_begins "n"%char ["a"; "n"]%char); try (now apply smalls); try (split; cbn; lia).
    2,3: intros L; apply letter_code in L; destruct H as [H|H]; codes.
    assert ((match r with x :: s2 => if Ascii.eqb c ch_0 && (Ascii.eqb x "x"%char || Ascii.eqb x "X"%char) then mantissa is_hex is_p s2 else None | [] => None end) = None) as ->.
    { destruct r as [|y r]; auto. destruct (Ascii.eqb y "x"%char || Ascii.eqb y "X"%char) eqn:E; [|now rewrite andb_false_r]. apply orb_true_iff in E. rewrite !Ascii.eqb_eq in E. exfalso. destruct E as [-> | ->]; destruct H2 as [H2|[H2|H2]]; discriminate. }
    now rewrite (dec_self _ _ _ _ G).
  - rewrite (not_begins "i"%char ["n"; "f"]%char), (not_begins "n"%char ["a"; "n"]%char); try (now apply smalls); try (split; cbn; lia).
    2,3: intros L; apply letter_code in L; cbn in L; lia.
    assert (Ascii.eqb "0"%char ch_0 && (Ascii.eqb x "x"%char || Ascii.eqb x "X"%char) = true) as -> by (destruct X as [-> | ->]; reflexivity).
    now rewrite (hex_self _ _ _ _ G).
  - assert (begins w_inf u' = true) as ->; auto. apply begins_spelled; [exact small_inf|]. destruct S as [S|S]; [exists u', []; rewrite app_nil_r; auto|].
    change w_infinity with (w_inf ++ ["i"; "n"; "i"; "t"; "y"]%char) in S. apply spelled_app in S as (a & b & -> & A & _). eauto.
  - assert (begins w_nan (t ++ u') = true) as -> by (apply begins_spelled; [exact small_nan|eauto]).
    destruct (spelled_head _ _ _ S) as (c & t' & -> & L). cbn [app]. rewrite (not_begins "i"%char ["n"; "f"]%char); auto; try (now apply smalls); try (split; cbn; lia).
    intros L'. apply letter_code in L, L'. cbn in *. lia.
Qed.
Lemma core_prefix_dec sg s u r f : s = u ++ r -> core sg u f -> begins w_inf s = false -> begins w_nan s = false ->
  (exists ip fp e, gtext is_digit is_e u ip fp e) \/ (exists x u' ip fp e, u = "0"%char :: x :: u' /\ (x = "x"%char \/ x = "X"%char) /\ gtext is_hex is_p u' ip fp e).
Proof.
  intros -> [u' ip fp e G|x u' ip fp e X G|u' S|t u' S Su] I' N.
  - left. eauto.
  - right. eauto 10.
  - exfalso. apply not_true_iff_false in I'. apply I'. apply begins_spelled; [exact small_inf|]. destruct S as [S|S]; [eauto|].
    change w_infinity with (w_inf ++ ["i"; "n"; "i"; "t"; "y"]%char) in S. apply spelled_app in S as (a & b & -> & A & _). exists a, (b ++ r). rewrite app_assoc. auto.
  - exfalso. apply not_true_iff_false in N. apply N. apply begins_spelled; [exact small_nan|]. exists t, (u' ++ r). rewrite app_assoc. auto.
Qed.
Lemma core_prefix_i sg s u r f : s = u ++ r -> core sg u f -> begins w_inf s = true -> (spelled w_inf u \/ spelled w_infinity u).
Proof.
  intros E C B. apply begins_spelled in B; [|exact small_inf]. destruct B as (t & r' & Et & S). destruct (spelled_head _ _ _ S) as (c & t' & -> & L). apply letter_code in L. rewrite Et in E. cbn [app] in E.
  destruct C as [u' ip fp e G|x u' ip fp e X G|u' S'|t1 u' S' Su]; auto; exfalso.
  - apply dec_head in G as (d & q & -> & H & _). injection E as -> _. destruct H as [H|H]; codes.
  - injection E as -> _. cbn in L. lia.
  - apply spelled_head in S' as (d & q & -> & H). injection E as -> _. apply letter_code in H. cbn in *. lia.
Qed.
Lemma core_prefix_n sg s u r f : s = u ++ r -> core sg u f -> begins w_nan s = true -> exists t v, u = t ++ v /\ spelled w_nan t /\ nan_suffix v.
Proof.
  intros E C B. apply begins_spelled in B; [|exact small_nan]. destruct B as (t & r' & Et & S). destruct (spelled_head _ _ _ S) as (c & t' & -> & L). apply letter_code in L. rewrite Et in E. cbn [app] in E.
  destruct C as [u' ip fp e G|x u' ip fp e X G|u' S'|t1 u' S' Su]; eauto; exfalso.
  - apply dec_head in G as (d & q & -> & H & _). injection E as -> _. destruct H as [H|H]; codes.
  - injection E as -> _. cbn in L. lia.
  - assert (exists d q, u' = d :: q /\ letter "i"%char d) as (d & q & -> & H) by (destruct S' as [S'|S']; exact (spelled_head _ _ _ S')). injection E as -> _. apply letter_code in H. cbn in *. lia.
Qed.
(** the longest suffix after "nan" *)
Lemma suffix_longest s : exists u r, s = u ++ r /\ nan_suffix u /\ forall u' r', s = u' ++ r' -> nan_suffix u' -> (length u' <= length u)%nat.
Proof.
  assert (forall t, all is_word t <-> Forall word_char t) as W by (intros t; unfold all; rewrite !Forall_forall; split; intros H x I'; apply is_word_char; auto).
  assert ((forall u' r', s = u' ++ r' -> nan_suffix u' -> u' = []) \/ exists a b, s = "("%char :: a ++ ")"%char :: b /\ all is_word a) as [H|(a & b & -> & A)].
  { destruct s as [|c s]; [left; intros [|? ?] ? E; [auto|discriminate]|].
    pose proof (span_spec is_word s) as P. destruct (span is_word s) as [a b]. destruct P as (-> & A & B).
    assert (forall u' r', c :: a ++ b = u' ++ r' -> nan_suffix u' -> u' = [] \/ c = "("%char /\ exists b', b = ")"%char :: b') as K.
    { intros u' r' E S. destruct S as [|t T]; auto. right. cbn [app] in E. injection E as -> E. split; auto. rewrite <- app_assoc in E. destruct (cut is_word a t ([")"%char] ++ r') b) as (m & -> & Em); [auto|now apply W|auto|auto|].
      destruct m as [|x m]; [cbn [app] in Em; eauto|]. exfalso. cbn [app] in Em. injection Em as <- _. apply Forall_app in A as [_ A]. inversion A; subst. discriminate. }
    destruct b as [|d b]; [left; intros u' r' E S; destruct (K u' r' E S) as [H|[_ [b' H]]]; [auto|discriminate]|].
    destruct (Ascii.eqb_spec c "("%char) as [-> |N1]; [|left; intros u' r' E S; destruct (K u' r' E S) as [H|[H _]]; [auto|easy]].
    destruct (Ascii.eqb_spec d ")"%char) as [-> |N2]; [eauto|]. left; intros u' r' E S; destruct (K u' r' E S) as [H|[_ [b' H]]]; [auto|]. injection H as H _. easy. }
  - exists [], s. split; auto. split; [constructor|]. intros u' r' E S. now rewrite (H u' r' E S).
  - exists ("("%char :: a ++ [")"%char]), b. split; [cbn [app]; now rewrite <- app_assoc|]. split; [constructor; now apply W|]. intros u' r' E S. destruct S as [|t T]; [cbn; lia|].
    cbn [app] in E. injection E as E. rewrite <- app_assoc in E. destruct (cut is_word a t ([")"%char] ++ r') (")"%char :: b)) as (m & -> & Em); [auto|now apply W|reflexivity|auto|]. cbn [length]. rewrite !app_length. cbn [length]. lia.
Qed.
Lemma app_split {A} (a : list A) : forall b c d, a ++ b = c ++ d -> length a = length c -> a = c /\ b = d.
Proof. induction a as [|x a IH]; intros b [|y c] d E L; try discriminate; [auto|]. cbn [app] in E. injection E as -> E. destruct (IH b c d) as [-> ->]; auto. Qed.
Definition longest_core (sg : bool) (s u : str) : Prop := exists r, s = u ++ r /\ forall u' r' f', s = u' ++ r' -> core sg u' f' -> (length u' <= length u)%nat.
Lemma zero_x x u s : s = "0"%char :: x :: u -> x = "x"%char \/ x = "X"%char -> begins w_inf s = false /\ begins w_nan s = false.
Proof. intros -> H. split; reflexivity. Qed.
Lemma dec_prefix_zero_x x s u r ip fp e : x = "x"%char \/ x = "X"%char -> "0"%char :: x :: s = u ++ r -> gtext is_digit is_e u ip fp e -> (length u <= 1)%nat.
Proof.
  intros X E G. apply dec_head in G as (c & q & -> & _ & H2). destruct q as [|y q]; [cbn; lia|]. exfalso. cbn [app] in E. injection E as _ <- _. destruct X as [-> | ->]; destruct H2 as [H2|[H2|H2]]; discriminate.
Qed.
Lemma strtod_longest sg s f : strtod_unsigned sg s = Some f -> exists u, longest_core sg s u /\ core sg u f.
Proof.
  unfold strtod_unsigned, longest_core. destruct (begins w_inf s) eqn:I1.
  { intros H. injection H as <-. destruct (begins w_infinity s) eqn:I2.
    - apply begins_spelled in I2 as (t & r & E & S); [|exact small_infinity]. exists t. split; [|constructor; auto]. exists r. split; auto. intros u' r' f' E' C. destruct (core_prefix_i sg s u' r' f' E' C I1) as [H|H]; rewrite (spelled_len _ _ H), (spelled_len _ _ S); cbn; lia.
    - pose proof I1 as I3. apply begins_spelled in I3 as (t & r & E & S); [|exact small_inf]. exists t. split; [|constructor; auto]. exists r. split; auto. intros u' r' f' E' C. destruct (core_prefix_i sg s u' r' f' E' C I1) as [H|H]; [rewrite (spelled_len _ _ H), (spelled_len _ _ S); cbn; lia|].
      exfalso. apply not_true_iff_false in I2. apply I2. apply begins_spelled; [exact small_infinity|eauto]. }
  destruct (begins w_nan s) eqn:I2.
  { intros H. injection H as <-. pose proof I2 as I3. apply begins_spelled in I3 as (t & r & E & S); [|exact small_nan]. destruct (suffix_longest r) as (v & r2 & Er & Sv & Mx). exists (t ++ v). split; [|now constructor].
    exists r2. split; [now rewrite E, Er, app_assoc|]. intros u' r' f' E' C. destruct (core_prefix_n sg s u' r' f' E' C I2) as (t' & v' & -> & S' & Sv').
    assert (t' = t /\ v' ++ r' = r) as [-> Ev]. { apply app_split; [rewrite app_assoc; congruence|]. now rewrite (spelled_len _ _ S), (spelled_len _ _ S'). }
    rewrite !app_length. specialize (Mx v' r' (eq_sym Ev) Sv'). lia. }
  set (h := match s with z :: x :: s2 => if Ascii.eqb z ch_0 && (Ascii.eqb x "x"%char || Ascii.eqb x "X"%char) then mantissa is_hex is_p s2 else None | _ => None end).
  assert ((exists x s2, s = "0"%char :: x :: s2 /\ (x = "x"%char \/ x = "X"%char) /\ h = mantissa is_hex is_p s2) \/ (h = None /\ forall x s2, s = "0"%char :: x :: s2 -> ~ (x = "x"%char \/ x = "X"%char))) as K.
  { unfold h. destruct s as [|z [|x s2]]; [right; split; [auto|discriminate]..|]. destruct (Ascii.eqb_spec z ch_0) as [-> |N]; cbn [andb].
    - destruct (Ascii.eqb_spec x "x"%char) as [-> |N1]; cbn [orb]; [left; eauto 6|]. destruct (Ascii.eqb_spec x "X"%char) as [-> |N2]; cbn [orb]; [left; eauto 6|]. right. split; auto. intros x' s2' E. injection E as <- <-. tauto.
    - right. split; auto. intros x' s2' E. injection E as -> _. easy. }
  clearbody h. destruct h as [[[ip fp] e]|].
  - intros H. injection H as <-. destruct K as [(x & s2 & -> & X & M)|[K _]]; [|discriminate]. destruct (hex_some _ _ _ _ (eq_sym M)) as (u & r & -> & G & Mx).
    exists ("0"%char :: x :: u). split; [|now constructor]. exists r. split; auto. intros u' r' f' E' C. destruct (core_prefix_dec sg _ u' r' f' E' C I1 I2) as [(ip' & fp' & e' & G')|(x' & u'' & ip' & fp' & e' & -> & X' & G')].
    + pose proof (dec_prefix_zero_x x _ _ _ _ _ _ X E' G'). cbn [length]. lia.
    + cbn [app] in E'. injection E' as <- E'. specialize (Mx u'' r' ip' fp' e' E' G'). cbn [length]. lia.
  - destruct (mantissa is_digit is_e s) as [[[ip fp] e]|] eqn:M; [|discriminate]. intros H. injection H as <-. destruct (dec_some _ _ _ _ M) as (u & r & Es & G & Mx). exists u. split; [|now constructor]. exists r. split; auto.
    intros u' r' f' E' C. destruct (core_prefix_dec sg _ u' r' f' E' C I1 I2) as [(ip' & fp' & e' & G')|(x' & u'' & ip' & fp' & e' & -> & X' & G')]; [eauto|].
    exfalso. destruct K as [(x & s2 & -> & X & M')|[_ K]]; [|eapply K; [exact E'|exact X']]. cbn [app] in E'. injection E' as _ E'. exact (hex_none _ (eq_sym M') _ _ _ _ _ E' G').
Qed.
Lemma strtod_no_core sg s : strtod_unsigned sg s = None -> forall u r f, s = u ++ r -> ~ core sg u f.
Proof.
  intros H u r f E C. unfold strtod_unsigned in H. destruct (begins w_inf s) eqn:I1; [discriminate|]. destruct (begins w_nan s) eqn:I2; [discriminate|].
  destruct (core_prefix_dec sg _ u r f E C I1 I2) as [(ip' & fp' & e' & G')|(x' & u'' & ip' & fp' & e' & -> & X' & G')].
  - destruct (mantissa is_digit is_e s) as [[[ip fp] e]|] eqn:M; [|exact (dec_none _ M _ _ _ _ _ E G')]. destruct (match s with z :: x :: s2 => _ | _ => _ end) as [[[? ?] ?]|]; discriminate.
  - subst s. cbn [app] in H. assert (Ascii.eqb "0"%char ch_0 && (Ascii.eqb x' "x"%char || Ascii.eqb x' "X"%char) = true) as X by (destruct X' as [-> | ->]; reflexivity). rewrite X in H.
    destruct (mantissa is_hex is_p (u'' ++ r)) as [[[? ?] ?]|] eqn:M; [discriminate|]. exact (hex_none _ M _ _ _ _ _ eq_refl G').
Qed.

(** ** With the sign *)
Definition means (f : found) (v : reading) : Prop :=
  match f, v with
  | Power s n k e, Number neg q => s = neg /\ 0 <= n /\ (k = 10 \/ k = 2) /\ (q == inject_Z n * (inject_Z k) ^ e)%Q
  | Infinity s, Infinite neg => s = neg
  | Nan, NotANumber => True
  | _, _ => False
  end.

Lemma digit_isdig t : all is_digit t <-> Forall isdig t.
Proof. unfold all. rewrite !Forall_forall. split; intros H x I'; specialize (H x I'); [apply isdig_bounds, digit_code, H|apply digit_code, isdig_bounds, H]. Qed.
Lemma horner_numval t : horner 10 dec_val t = numval 0 t.
Proof. reflexivity. Qed.
Lemma hex_digits_spec t ds : hex_digits t ds <-> all is_hex t /\ ds = map hexa t.
Proof.
  assert (forall c d, hex_digit c d <-> is_hex c = true /\ d = hexa c) as K.
  { intros c d. rewrite hex_code. unfold hex_digit, hexa, hex_val. cbv zeta.
    destruct ((48 <=? N_of_ascii c) && (N_of_ascii c <=? 57))%N eqn:A; [apply andb_true_iff in A; rewrite !N.leb_le in A; lia|].
    destruct ((65 <=? N_of_ascii c) && (N_of_ascii c <=? 70))%N eqn:B; [apply andb_true_iff in B; rewrite !N.leb_le in B; lia|].
    destruct ((97 <=? N_of_ascii c) && (N_of_ascii c <=? 102))%N eqn:C; [apply andb_true_iff in C; rewrite !N.leb_le in C; lia|].
    apply andb_false_iff in A, B, C. rewrite !N.leb_gt in *. lia. }
  split.
  - induction 1 as [|c d t ds H _ [IH1 IH2]]; [repeat constructor|]. apply K in H as [H ->]. split; [now constructor|]. cbn [map]. now rewrite <- IH2.
  - intros [F ->]. induction F as [|c t D _ IH]; constructor; auto. now apply K.
Qed.
Lemma horner_lin k val ds : forall v, fold_left (fun v c => k * v + val c) ds v = v * k ^ Z.of_nat (length ds) + horner k val ds.
Proof.
  unfold horner. induction ds as [|c ds IH]; intros v; cbn [fold_left length]; [cbn; lia|]. rewrite IH, (IH (k * 0 + val c)), Nat2Z.inj_succ, Z.pow_succ_r by lia. ring.
Qed.
Lemma positional_horner t : positional16 (map hexa t) = horner 16 hexa t.
Proof. induction t as [|c t IH]; [reflexivity|]. cbn [map positional16]. rewrite IH, map_length. unfold horner at 2. cbn [fold_left]. rewrite horner_lin. lia. Qed.
Lemma horner_nonneg k val ds : 0 <= k -> (forall c, 0 <= val c) -> 0 <= horner k val ds.
Proof.
  intros K V. unfold horner. assert (forall v, 0 <= v -> 0 <= fold_left (fun v c => k * v + val c) ds v) as H; [|apply H; lia].
  induction ds as [|c ds IH]; intros v H; cbn [fold_left]; [auto|]. apply IH. specialize (V c). nia.
Qed.
Lemma dec_val_nonneg c : 0 <= dec_val c.
Proof. unfold dec_val. destruct (char_digit c) as [d|] eqn:E; [|lia]. assert (isdig c) as D by congruence. destruct (dig_code c D) as [_ B]. unfold dig in B. rewrite E in B. lia. Qed.
Lemma hexa_nonneg c : 0 <= hexa c.
Proof.
  unfold hexa, hex_val. cbv zeta.
  destruct ((48 <=? N_of_ascii c) && (N_of_ascii c <=? 57))%N eqn:A; [apply andb_true_iff in A; rewrite !N.leb_le in A; lia|].
  destruct ((65 <=? N_of_ascii c) && (N_of_ascii c <=? 70))%N eqn:B; [apply andb_true_iff in B; rewrite !N.leb_le in B; lia|].
  destruct ((97 <=? N_of_ascii c) && (N_of_ascii c <=? 102))%N eqn:C; [apply andb_true_iff in C; rewrite !N.leb_le in C; lia|]. lia.
Qed.
Lemma gexp_decimal et e : gexp is_e et e <-> exponent_text et e.
Proof.
  split.
  - intros [|c st neg D C S N A]; constructor; auto.
    + apply e_code in C. rewrite !char_code. cbn. tauto.
    + apply nat_text_spec. apply digit_isdig in A. auto.
  - intros [|c st neg D n C S N]; [constructor|]. apply nat_text_spec in N as (A' & N' & ->). apply (ge_some is_e c st neg D); auto; [|now apply digit_isdig]. unfold is_e. destruct C as [-> | ->]; reflexivity.
Qed.
Lemma gexp_binary et e : gexp is_p et e <-> binary_exponent et e.
Proof.
  split.
  - intros [|c st neg D C S N A]; constructor; auto.
    + apply p_code in C. rewrite !char_code. cbn. tauto.
    + apply nat_text_spec. apply digit_isdig in A. auto.
  - intros [|c st neg D n C S N]; [constructor|]. apply nat_text_spec in N as (A' & N' & ->). apply (ge_some is_p c st neg D); auto; [|now apply digit_isdig]. unfold is_p. destruct C as [-> | ->]; reflexivity.
Qed.
Lemma number_core t v : number_text t v -> exists st sg u f, t = st ++ u /\ sign_text st sg /\ core sg u f /\ means f v.
Proof.
  intros [t' neg q D|t' neg q H|st neg t' S W|st neg t' u S W U].
  - apply decimal_inv in D as (s & ip & d & et & e & -> & S & A & B & N & X & Q). apply digit_isdig in A, B. apply gexp_decimal in X.
    exists s, neg, (ip ++ fracstr d ++ et), (Power neg (horner 10 dec_val (ip ++ fracdigs d)) 10 (e - Z.of_nat (length (fracdigs d)))). split; [auto|]. split; [auto|]. split; [constructor; exists d, et; auto 10|]. cbn [means].
    split; [auto|]. split; [apply horner_nonneg; [lia|exact dec_val_nonneg]|]. split; [auto|]. exact Q.
  - destruct H as (s & x & it & ids & ft & fds & et & e & -> & S & X & I' & F & E & N & Q). apply hex_digits_spec in I' as [I' ->]. apply gexp_binary in E.
    assert (exists d, ft = fracstr d /\ all is_hex (fracdigs d) /\ fds = map hexa (fracdigs d)) as (d & -> & Ad & ->).
    { destruct F as [|t' ds D]; [exists None; repeat constructor|]. apply hex_digits_spec in D as [D ->]. exists (Some t'). auto. }
    rewrite <- map_app in *. rewrite positional_horner, map_length in Q.
    exists s, neg, ("0"%char :: x :: it ++ fracstr d ++ et), (Power neg (horner 16 hexa (it ++ fracdigs d)) 2 (e - 4 * Z.of_nat (length (fracdigs d)))). split; [auto|]. split; [auto|]. split.
    + constructor; auto. exists d, et. repeat split; auto. intros Z. apply N. now rewrite Z.
    + cbn [means]. split; [auto|]. split; [apply horner_nonneg; [lia|exact hexa_nonneg]|]. split; [auto|]. exact Q.
  - exists st, neg, t', (Infinity neg). repeat split; auto. now constructor.
  - exists st, neg, (t' ++ u), Nan. repeat split; auto. now constructor.
Qed.
Lemma core_number st sg u f : sign_text st sg -> core sg u f -> exists v, number_text (st ++ u) v /\ means f v.
Proof.
  intros S [u' ip fp e G|x u' ip fp e X G|u' W|t u' W U].
  - destruct G as (d & et & -> & -> & A & B & N & E). apply digit_isdig in A, B. apply gexp_decimal in E. eexists. split; [apply decimal_number; apply (decimal_make st sg ip d et e); auto|]. cbn [means].
    split; [auto|]. split; [apply horner_nonneg; [lia|exact dec_val_nonneg]|]. split; [auto|]. reflexivity.
  - destruct G as (d & et & -> & -> & A & B & N & E). apply gexp_binary in E. exists (Number sg (inject_Z (horner 16 hexa (ip ++ fracdigs d)) * (2#1) ^ (e - 4 * Z.of_nat (length (fracdigs d))))). split.
    + apply hex_number. exists st, x, ip, (map hexa ip), (fracstr d), (map hexa (fracdigs d)), et, e. rewrite <- map_app, positional_horner, map_length. split; [auto|]. split; [auto|]. split; [auto|]. split; [now apply hex_digits_spec|].
      split. { destruct d; constructor. now apply hex_digits_spec. } split; [auto|]. split; [|reflexivity]. intros Z. apply N. now destruct (ip ++ fracdigs d).
    + cbn [means]. split; [auto|]. split; [apply horner_nonneg; [lia|exact hexa_nonneg]|]. split; [auto|]. reflexivity.
  - exists (Infinite sg). split; [now apply inf_number|reflexivity].
  - exists NotANumber. split; [now apply nan_number with sg|exact Logic.I].
Qed.
Lemma core_no_sign sg u f r : core sg u f -> no_sign_head (u ++ r).
Proof.
  intros C. apply core_head in C. destruct u as [|c u]; [easy|]. cbn [app no_sign_head]. split; intros ->; destruct C as [C|[C|[C|C]]]; try discriminate; apply letter_code in C; cbn in C; lia.
Qed.
Lemma strtod_reads t v : number_text t v -> exists f, means f v /\ forall s, longest_number s t -> strtod s = Some f.
Proof.
  intros Nt. destruct (number_core t v Nt) as (st & sg & u & f & -> & S & C & M). exists f. split; [exact M|]. intros s (r & -> & A & Mx).
  unfold strtod. rewrite <- app_assoc, (scan_sign_text st sg) by (auto; now apply core_no_sign with sg f).
  destruct (strtod_unsigned sg (u ++ r)) as [f'|] eqn:E; [|exfalso; exact (strtod_no_core sg _ E _ _ _ eq_refl C)].
  apply strtod_longest in E as (u0 & (r0 & E0 & L) & C0). specialize (L u r f eq_refl C).
  assert (exists m, u0 = u ++ m /\ r = m ++ r0) as (m & -> & ->). { clear - E0 L. revert u0 E0 L. induction u as [|x u IH]; intros u0 E L; [exists u0; auto|]. destruct u0 as [|y u0]; [cbn in L; lia|]. cbn [app] in E. injection E as -> E. cbn [length] in L. destruct (IH u0 E ltac:(lia)) as (m & -> & ->). exists m. auto. }
  assert (m = []) as ->. { apply (Mx m r0 eq_refl). destruct (core_number st sg _ _ S C0) as (v' & N' & _). exists v'. now rewrite <- app_assoc. }
  rewrite app_nil_r in C0. apply core_strtod in C, C0. congruence.
Qed.
Lemma strtod_refuses s : no_number s -> strtod s = None.
Proof.
  intros N. unfold strtod. destruct (scan_sign s) as [sg u] eqn:E. apply scan_sign_inv in E as (st & -> & S & _). destruct (strtod_unsigned sg u) as [f|] eqn:E; auto. exfalso.
  apply strtod_longest in E as (u0 & (r0 & -> & _) & C). destruct (core_number st sg u0 f S C) as (v & Nt & _). apply (N (st ++ u0) r0); [apply app_assoc|now exists v].
Qed.
Lemma strtod_cases s : (exists t v, longest_number s t /\ number_text t v) \/ no_number s.
Proof.
  destruct (scan_sign s) as [sg u] eqn:E. pose proof E as Sc. apply scan_sign_inv in E as (st & -> & S & Hs).
  assert (forall t v r, st ++ u = t ++ r -> number_text t v -> exists u' f', t = st ++ u' /\ u = u' ++ r /\ core sg u' f') as K.
  { intros t v r E Nt. destruct (number_core t v Nt) as (st' & sg' & u' & f' & -> & S' & C' & _). rewrite E, <- app_assoc in Sc. rewrite (scan_sign_text st' sg') in Sc by (auto; now apply core_no_sign with sg' f'). injection Sc as -> <-. rewrite <- app_assoc in E. exists u', f'. apply app_inv_tail in E. subst st'. auto. }
  destruct (strtod_unsigned sg u) as [f|] eqn:E.
  - left. apply strtod_longest in E as (u0 & (r0 & -> & L) & C). destruct (core_number st sg u0 f S C) as (v & Nt & _). exists (st ++ u0), v. split; auto. exists r0. split; [apply app_assoc|]. split; [now exists v|].
    intros a r' -> [v' N']. destruct (K ((st ++ u0) ++ a) v' r') as (u' & f' & E1 & E2 & C'); auto; [now rewrite !app_assoc|]. specialize (L u' r' f' E2 C'). apply (f_equal (@length ascii)) in E1. rewrite !app_length in E1. destruct a; auto. cbn [length] in E1. lia.
  - right. intros t r Et [v Nt]. destruct (K t v r Et Nt) as (u' & f' & _ & E2 & C'). exact (strtod_no_core sg u E u' r f' E2 C').
Qed.

Lemma sign_chars st neg : sign_text st neg -> Forall number_char st.
Proof. intros []; [apply Forall_nil|apply Forall_cons; [unfold number_char; auto 10|apply Forall_nil]..]. Qed.
Lemma gtext_chars isd ise t ip fp e : (forall c, isd c = true -> word_char c) -> (forall c, ise c = true -> word_char c) -> gtext isd ise t ip fp e -> Forall number_char t.
Proof.
  intros H1 H2 (d & et & -> & -> & A & B & N & G). assert (forall u, all isd u -> Forall number_char u) as K by (intros u; apply Forall_impl; intros c C; left; auto).
  apply Forall_app. split; auto. apply Forall_app. split.
  - destruct d; cbn [fracstr fracdigs] in *; constructor; auto. unfold number_char. auto 10.
  - destruct G as [|c st neg D C S ND AD]; constructor; [left; auto|]. apply Forall_app. split; [eapply sign_chars; eauto|]. revert AD. apply Forall_impl. intros x X. left. apply digit_code in X. unfold word_char. lia.
Qed.
Lemma spelled_chars w t : Forall small w -> spelled w t -> Forall number_char t.
Proof.
  intros W S. induction S as [|a c w t L S IH]; constructor; inversion W; subst; auto. left. apply letter_code in L. unfold small, word_char in *. lia.
Qed.
Lemma number_chars t v : number_text t v -> Forall number_char t.
Proof.
  intros N. destruct (number_core t v N) as (st & sg & u & f & -> & S & C & _). apply Forall_app. split; [eapply sign_chars; eauto|].
  assert (forall c, is_digit c = true -> word_char c) as D by (intros c X; apply digit_code in X; unfold word_char; lia).
  assert (forall c, is_hex c = true -> word_char c) as H by (intros c X; apply hex_code in X; unfold word_char; lia).
  assert (forall c, is_e c = true -> word_char c) as E by (intros c X; apply e_code in X; unfold word_char; lia).
  assert (forall c, is_p c = true -> word_char c) as P by (intros c X; apply p_code in X; unfold word_char; lia).
  destruct C as [u' ip fp e G|x u' ip fp e X G|u' [W|W]|t u' W U].
  - exact (gtext_chars _ _ _ _ _ _ D E G).
  - constructor; [left; unfold word_char; cbn; lia|]. constructor; [left; unfold word_char; destruct X as [-> | ->]; cbn; lia|]. exact (gtext_chars _ _ _ _ _ _ H P G).
  - exact (spelled_chars _ _ small_inf W).
  - exact (spelled_chars _ _ small_infinity W).
  - apply Forall_app. split; [exact (spelled_chars _ _ small_nan W)|]. destruct U as [|t' T]; constructor; [unfold number_char; auto 10|]. apply Forall_app. split; [|constructor; unfold number_char; auto 10]. revert T. apply Forall_impl. intros c C. now left.
Qed.
