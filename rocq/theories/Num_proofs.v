(** * Num_proofs: the scanner of Decimal against the grammar of Spec_num. *)
From Verif Require Import Base Dbl Decimal Round_proofs Rn_proofs Scan_proofs Spec_text Spec_num Nearest_proofs.
From Coq Require Import QArith Qpower Qabs Lqa.
Open Scope Z_scope.

(** ** digits *)
Lemma isdig_code c : isdig c <-> (48 <= Z.of_N (N_of_ascii c) <= 57).
Proof. rewrite isdig_bounds. lia. Qed.
Lemma dig_code c : isdig c -> Z.of_N (N_of_ascii c) = 48 + dig c /\ 0 <= dig c <= 9.
Proof.
  intros D. pose proof (proj1 (isdig_code c) D) as B. unfold dig, char_digit.
  replace ((48 <=? N_of_ascii c)%N && (N_of_ascii c <=? 57)%N) with true by (symmetry; apply andb_true_iff; split; apply N.leb_le; lia). lia.
Qed.
Lemma digits_text_spec t ds : digits_text t ds <-> Forall isdig t /\ ds = map dig t.
Proof.
  split.
  - induction 1 as [|c d t ds [B H] _ [IH1 IH2]]; [auto|]. assert (isdig c) as D by (apply isdig_code; lia). split; [now constructor|].
    cbn [map]. destruct (dig_code c D). f_equal; [lia|auto].
  - intros [F ->]. induction F as [|c t D _ IH]; constructor; auto. destruct (dig_code c D). lia.
Qed.
Lemma positional_numval t : positional (map dig t) = numval 0 t.
Proof.
  induction t as [|c t IH]; [reflexivity|]. cbn [map positional]. rewrite IH, map_length. change (c :: t) with ([c] ++ t). rewrite numval_app, (numval_lin t (numval 0 [c])).
  unfold numval at 2. cbn [fold_left]. lia.
Qed.
Lemma nat_text_spec t n : nat_text t n <-> Forall isdig t /\ t <> [] /\ n = numval 0 t.
Proof.
  split.
  - intros (ds & D & N & ->). apply digits_text_spec in D as [F ->]. split; auto. split; [now destruct t|]. apply positional_numval.
  - intros (F & N & ->). exists (map dig t). split; [now apply digits_text_spec|]. split; [now destruct t|]. symmetry. apply positional_numval.
Qed.
Lemma scan_digits_inv s : forall v n v' n' r, scan_digits v n s = (v', n', r) ->
  exists ds, s = ds ++ r /\ Forall isdig ds /\ v' = numval v ds /\ n' = (n + length ds)%nat /\ nodig r.
Proof.
  induction s as [|c s IH]; intros v n v' n' r H; cbn [scan_digits] in H.
  - injection H as <- <- <-. exists []. cbn. repeat split; auto.
  - destruct (char_digit c) as [d|] eqn:E.
    + apply IH in H as (ds & -> & F & -> & -> & N). exists (c :: ds). cbn [app length]. split; auto. split; [constructor; auto; congruence|]. split; [|split; [lia|auto]].
      cbn [numval fold_left]. unfold dig at 2. now rewrite E.
    + injection H as <- <- <-. exists []. cbn. repeat split; auto.
Qed.
Lemma scan_sign_inv s sg r : scan_sign s = (sg, r) -> exists st, s = st ++ r /\ sign_text st sg /\ (st = [] -> match r with [] => True | c :: _ => c <> minus /\ c <> plus end).
Proof.
  unfold scan_sign. destruct s as [|c s]; [intros H; injection H as <- <-; exists []; repeat constructor|].
  destruct (Ascii.eqb_spec c ch_minus) as [->|N1]; [|destruct (Ascii.eqb_spec c ch_plus) as [->|N2]]; intros H; injection H as <- <-.
  - exists [minus]. repeat constructor; discriminate.
  - exists [plus]. repeat constructor; discriminate.
  - exists []. repeat constructor; auto.
Qed.
Definition no_sign_head (s : str) : Prop := match s with [] => True | c :: _ => c <> minus /\ c <> plus end.
Lemma scan_sign_text st sg r : sign_text st sg -> no_sign_head r -> scan_sign (st ++ r) = (sg, r).
Proof.
  intros [] N; cbn [app]; auto. destruct r as [|c r]; [reflexivity|]. destruct N as [N1 N2]. unfold scan_sign.
  destruct (Ascii.eqb_spec c ch_minus); [easy|]. destruct (Ascii.eqb_spec c ch_plus); [easy|]. reflexivity.
Qed.
Lemma isdig_not_sign c : isdig c -> c <> minus /\ c <> plus /\ c <> dot /\ c <> "e"%char /\ c <> "E"%char.
Proof. intros D. repeat split; intros ->; apply D; reflexivity. Qed.
Lemma isdig_zero : isdig "0"%char.
Proof. discriminate. Qed.

(** ** The reading of a decimal, before rounding *)
Definition parse (s : str) : option (bool * Z * Z * str) :=
  let '(sg, s1) := scan_sign s in
  let '(v1, n1, s2) := scan_digits 0 0 s1 in
  let '(v2, n2, s3) := match s2 with
                       | c :: s' => if Ascii.eqb c ch_dot then scan_digits v1 0 s' else (v1, O, s2)
                       | [] => (v1, O, [])
                       end in
  if (n1 + n2 =? 0)%nat then None
  else match s3 with
    | c :: s' =>
      if Ascii.eqb c ch_e || Ascii.eqb c ch_E then
        let '(es, s4) := scan_sign s' in
        let '(ev, en, s5) := scan_digits 0 0 s4 in
        if (en =? 0)%nat then None else Some (sg, v2, (if es then - ev else ev) - Z.of_nat n2, s5)
      else Some (sg, v2, 0 - Z.of_nat n2, s3)
    | [] => Some (sg, v2, 0 - Z.of_nat n2, [])
    end.
Definition finish (p : option (bool * Z * Z * str)) : option (dbl * str) :=
  match p with
  | Some (sg, v, e, r) => match dec_to_dbl sg v e with S754_infinity _ => None | x => Some (x, r) end
  | None => None
  end.
Lemma scan_double_parse s : scan_double s = finish (parse s).
Proof.
  unfold scan_double, parse. destruct (scan_sign s) as [sg s1]. destruct (scan_digits 0 0 s1) as [[v1 n1] s2].
  destruct (match s2 with [] => (v1, 0%nat, []) | c :: s' => if Ascii.eqb c ch_dot then scan_digits v1 0 s' else (v1, 0%nat, s2) end) as [[v2 n2] s3].
  destruct (n1 + n2 =? 0)%nat; [reflexivity|]. destruct s3 as [|c s3]; [reflexivity|]. destruct (Ascii.eqb c ch_e || Ascii.eqb c ch_E); [|reflexivity].
  destruct (scan_sign s3) as [es s4]. destruct (scan_digits 0 0 s4) as [[ev en] s5]. destruct (en =? 0)%nat; reflexivity.
Qed.

(** ** A finite automaton for the grammar *)
Inductive st := Q0 | QS | QI | QD | QF | QE | QX | QN | Dead.
Definition step (q : st) (c : ascii) : st :=
  match char_digit c with
  | Some _ => match q with Q0 | QS | QI => QI | QD | QF => QF | QE | QX | QN => QN | Dead => Dead end
  | None => if Ascii.eqb c minus || Ascii.eqb c plus then match q with Q0 => QS | QE => QX | _ => Dead end
            else if Ascii.eqb c dot then match q with Q0 | QS => QD | QI => QF | _ => Dead end
            else if Ascii.eqb c "e" || Ascii.eqb c "E" then match q with QI | QF => QE | _ => Dead end
            else Dead
  end.
Definition run (q : st) (t : str) : st := fold_left step t q.
Definition accepting (q : st) : bool := match q with QI | QF | QN => true | _ => false end.
Lemma run_app q a b : run q (a ++ b) = run (run q a) b.
Proof. apply fold_left_app. Qed.
Lemma run_dead t : run Dead t = Dead.
Proof. induction t as [|c t IH]; [reflexivity|]. cbn. assert (step Dead c = Dead) as ->; [|exact IH]. unfold step. destruct (char_digit c), (Ascii.eqb c minus || Ascii.eqb c plus), (Ascii.eqb c dot), (Ascii.eqb c "e" || Ascii.eqb c "E"); reflexivity. Qed.
Definition digst (q : st) : st := match q with Q0 | QS | QI => QI | QD | QF => QF | QE | QX | QN => QN | Dead => Dead end.
Lemma step_dig q c : isdig c -> step q c = digst q.
Proof. intros D. unfold step. destruct (char_digit c) eqn:E; [destruct q; reflexivity|easy]. Qed.
Lemma run_digits q t : Forall isdig t -> run q t = match t with [] => q | _ => digst q end.
Proof.
  intros F. revert q. induction F as [|c t D F IH]; intros q; [reflexivity|]. cbn [run fold_left]. change (run (step q c) t = digst q). rewrite IH, step_dig by auto. destruct t; auto. destruct q; reflexivity.
Qed.
Lemma run_sign q t s : sign_text t s -> run q t = match t with [] => q | _ => match q with Q0 => QS | QE => QX | _ => Dead end end.
Proof. intros []; reflexivity. Qed.
Lemma run_exponent q t e : exponent_text t e -> q = QI \/ q = QF -> accepting (run q t) = true.
Proof.
  intros [|c s neg u n C S N] Q.
  - destruct Q as [->| ->]; reflexivity.
  - change (c :: s ++ u) with ([c] ++ s ++ u). rewrite !run_app. assert (run q [c] = QE) as -> by (destruct C as [->| ->], Q as [->| ->]; reflexivity).
    apply nat_text_spec in N as (F & NE & _). rewrite (run_sign _ _ _ S), run_digits by auto. destruct u; [easy|]. destruct S; reflexivity.
Qed.
Lemma decimal_accepted t neg q : decimal_text t neg q -> accepting (run Q0 t) = true.
Proof.
  intros (s & it & ids & ft & fds & et & e & -> & S & I & F & X & N & _). rewrite !run_app, (run_sign _ _ _ S).
  apply digits_text_spec in I as [DI ->]. rewrite (run_digits _ it) by auto.
  set (q0 := match s with [] => Q0 | _ => QS end). assert (q0 = Q0 \/ q0 = QS) as Hq by (unfold q0; destruct s; auto).
  destruct F as [|u ds U].
  - destruct it as [|c it]; [now cbn in N|]. cbn [run fold_left]. apply run_exponent with e; auto. left. destruct S; reflexivity.
  - apply digits_text_spec in U as [DU ->]. change (dot :: u) with ([dot] ++ u). rewrite run_app. rewrite (run_digits _ u) by auto. apply run_exponent with e; auto. right.
    destruct it as [|c it], u as [|d u]; try (now cbn in N); destruct S; reflexivity.
Qed.
Lemma viable_run t : viable a_decimal t -> run Q0 t <> Dead.
Proof. intros (u & neg & q & D) E. apply decimal_accepted in D. rewrite run_app, E, run_dead in D. discriminate. Qed.

(** building decimals *)
Definition fracstr (d : option str) : str := match d with None => [] | Some f => dot :: f end.
Definition fracdigs (d : option str) : str := match d with None => [] | Some f => f end.
Lemma decimal_make s neg I d et e : sign_text s neg -> Forall isdig I -> Forall isdig (fracdigs d) -> I ++ fracdigs d <> [] -> exponent_text et e ->
  decimal_text (s ++ I ++ fracstr d ++ et) neg (inject_Z (numval 0 (I ++ fracdigs d)) * (10#1) ^ (e - Z.of_nat (length (fracdigs d)))).
Proof.
  intros S DI DF N X. exists s, I, (map dig I), (fracstr d), (map dig (fracdigs d)), et, e. split; auto. split; auto. split; [now apply digits_text_spec|].
  split. { destruct d; constructor. now apply digits_text_spec. } split; auto. rewrite <- map_app. split. { intros E. apply N. now destruct (I ++ fracdigs d). }
  rewrite positional_numval, map_length. reflexivity.
Qed.
Lemma decimal_inv t neg q : decimal_text t neg q -> exists s I d et e,
  t = s ++ I ++ fracstr d ++ et /\ sign_text s neg /\ Forall isdig I /\ Forall isdig (fracdigs d) /\ I ++ fracdigs d <> [] /\ exponent_text et e /\
  (q == inject_Z (numval 0 (I ++ fracdigs d)) * (10#1) ^ (e - Z.of_nat (length (fracdigs d))))%Q.
Proof.
  intros (s & I & ids & ft & fds & et & e & -> & S & DI & F & X & N & Q). apply digits_text_spec in DI as [DI ->].
  destruct F as [|u ds U].
  - exists s, I, None, et, e. cbn [fracstr fracdigs length] in *. rewrite app_nil_r in *. rewrite <- positional_numval. split; [auto|]. split; [auto|]. split; [auto|]. split; [auto|]. split; [intros ->; now apply N|]. auto.
  - apply digits_text_spec in U as [DU ->]. exists s, I, (Some u), et, e. cbn [fracstr fracdigs]. rewrite <- positional_numval, map_app. rewrite map_length in Q. split; [auto|]. split; [auto|]. split; [auto|]. split; [auto|].
    split; [|auto]. intros E. apply N. rewrite <- map_app. now rewrite E.
Qed.

(** the three ways a scan ends *)
Inductive scanned (s : str) : option (bool * Z * Z * str) -> str -> str -> Prop :=
| sc_none t r : ~ a_decimal t -> scanned s None t r
| sc_some neg v e t r : decimal_text t neg (inject_Z v * (10#1) ^ e) -> 0 <= v -> scanned s (Some (neg, v, e, r)) t r.

Lemma not_decimal t : accepting (run Q0 t) = false -> ~ a_decimal t.
Proof. intros A (neg & q & D). apply decimal_accepted in D. congruence. Qed.
Lemma consumed_intro s t r : s = t ++ r -> viable a_decimal t -> (forall c r', r = c :: r' -> step (run Q0 t) c = Dead) -> consumed a_decimal s t r.
Proof.
  intros E V H. split; auto. split; auto. intros c r' R W. apply viable_run in W. rewrite run_app in W. apply W. cbn. now apply H with r'.
Qed.
Lemma numval_nonneg t : Forall isdig t -> 0 <= numval 0 t.
Proof.
  intros F. rewrite <- positional_numval. induction F as [|c t D F IH]; cbn [map positional]; [lia|]. destruct (dig_code c D). assert (0 <= 10 ^ Z.of_nat (length (map dig t))) by (apply Z.pow_nonneg; lia). nia.
Qed.

Lemma step_after_exp q c r : q = QE \/ q = QX \/ q = QN -> nodig (c :: r) -> (q = QE -> c <> minus /\ c <> plus) -> step q c = Dead.
Proof.
  intros Q N H. cbn [nodig] in N. unfold step. rewrite N. destruct (Ascii.eqb_spec c minus) as [E1|N1]; [|destruct (Ascii.eqb_spec c plus) as [E2|N2]]; cbn [orb].
  - destruct Q as [->|[->| ->]]; auto. now destruct (H eq_refl).
  - destruct Q as [->|[->| ->]]; auto. now destruct (H eq_refl).
  - destruct (Ascii.eqb c dot), (Ascii.eqb c "e" || Ascii.eqb c "E"), Q as [->|[->| ->]]; reflexivity.
Qed.
Lemma exp_case sg0 sg I d c s3 : sign_text sg0 sg -> Forall isdig I -> Forall isdig (fracdigs d) -> I ++ fracdigs d <> [] ->
  run Q0 (sg0 ++ I ++ fracstr d) = QI \/ run Q0 (sg0 ++ I ++ fracstr d) = QF -> (c = "e"%char \/ c = "E"%char) -> 0 <= numval 0 (I ++ fracdigs d) ->
  exists t r, consumed a_decimal (sg0 ++ I ++ fracstr d ++ c :: s3) t r /\
    scanned (sg0 ++ I ++ fracstr d ++ c :: s3)
      (let '(es, s4) := scan_sign s3 in let '(ev, en, s5) := scan_digits 0 0 s4 in
       if (en =? 0)%nat then None else Some (sg, numval 0 (I ++ fracdigs d), (if es then - ev else ev) - Z.of_nat (length (fracdigs d)), s5)) t r.
Proof.
  intros S DI DF NE Hq Cc Vp. set (P := sg0 ++ I ++ fracstr d) in *.
  assert (forall w, sg0 ++ I ++ fracstr d ++ w = P ++ w) as EP by (intros w; unfold P; now rewrite <- !app_assoc). rewrite EP.
  destruct (scan_sign s3) as [es s4] eqn:E4. apply scan_sign_inv in E4 as (eg & -> & SE & She).
  destruct (scan_digits 0 0 s4) as [[ev en] s5] eqn:E5. apply scan_digits_inv in E5 as (X & -> & DX & -> & -> & N5).
  assert (run Q0 (P ++ c :: eg ++ X) = match X with [] => match eg with [] => QE | _ => QX end | _ => QN end) as RX.
  { change (c :: eg ++ X) with ([c] ++ eg ++ X). rewrite !run_app, (run_sign _ _ _ SE), (run_digits _ X) by auto.
    assert (run (run Q0 P) [c] = QE) as -> by (destruct Cc as [->| ->], Hq as [-> | ->]; reflexivity). destruct X, SE; reflexivity. }
  destruct (Nat.eqb_spec (0 + length X) 0) as [Z|NX].
  - assert (X = []) as -> by (destruct X; [auto|cbn in Z; lia]). cbn [app] in *. rewrite app_nil_r in RX. exists (P ++ c :: eg), s5. split.
    + apply consumed_intro.
      * rewrite <- !app_assoc. reflexivity.
      * exists ["0"%char]. eexists sg, _.
        assert (nat_text ["0"%char] 0) as NT by (apply nat_text_spec; split; [repeat constructor; exact isdig_zero|split; [discriminate|reflexivity]]).
        pose proof (decimal_make sg0 sg I d (c :: eg ++ ["0"%char]) _ S DI DF NE (exponent c eg es ["0"%char] 0 Cc SE NT)) as M.
        rewrite EP in M. rewrite <- app_assoc. exact M.
      * intros c' r' ->. rewrite RX. apply step_after_exp with r'; [destruct eg; auto|exact N5|]. destruct eg; [|discriminate]. intros _. now apply She.
    + constructor. apply not_decimal. rewrite RX. destruct eg; reflexivity.
  - assert (X <> []) as NX' by (intros ->; apply NX; reflexivity).
    assert (nat_text X (numval 0 X)) as NT by (apply nat_text_spec; auto).
    pose proof (decimal_make sg0 sg I d (c :: eg ++ X) _ S DI DF NE (exponent c eg es X _ Cc SE NT)) as M. rewrite EP in M.
    exists (P ++ c :: eg ++ X), s5. split; [|constructor; auto]. apply consumed_intro.
    + rewrite <- !app_assoc. cbn [app]. rewrite <- !app_assoc. reflexivity.
    + exists []. rewrite app_nil_r. eexists _, _. exact M.
    + intros c' r' ->. rewrite RX. destruct X; [easy|]. apply step_after_exp with r'; auto. discriminate.
Qed.
Lemma parse_correct s : exists t r, consumed a_decimal s t r /\ scanned s (parse s) t r.
Proof.
  unfold parse. destruct (scan_sign s) as [sg s1] eqn:E1. apply scan_sign_inv in E1 as (sg0 & -> & S & Sh).
  destruct (scan_digits 0 0 s1) as [[v1 n1] s2] eqn:E2. apply scan_digits_inv in E2 as (I & -> & DI & -> & -> & N2).
  (* the optional fraction *)
  assert (exists d s3, s2 = fracstr d ++ s3 /\ Forall isdig (fracdigs d) /\ nodig s3 /\ (d = None -> match s3 with c :: _ => c <> dot | [] => True end) /\
    (match s2 with [] => (numval 0 I, 0%nat, []) | c :: s' => if Ascii.eqb c ch_dot then scan_digits (numval 0 I) 0 s' else (numval 0 I, 0%nat, s2) end) = (numval 0 (I ++ fracdigs d), length (fracdigs d), s3)) as (d & s3 & -> & DF & N3 & Hd & Ef).
  { destruct s2 as [|c s2].
    - exists None, []. cbn [fracstr fracdigs app length]. rewrite app_nil_r. repeat (split; [auto|]). reflexivity.
    - destruct (Ascii.eqb_spec c ch_dot) as [->|Nc].
      + destruct (scan_digits (numval 0 I) 0 s2) as [[v2 n2] s3] eqn:E3. apply scan_digits_inv in E3 as (F & -> & DF & -> & -> & N3).
        exists (Some F), s3. cbn [fracstr fracdigs app]. rewrite numval_app. split; [reflexivity|]. split; [auto|]. split; [auto|]. split; [discriminate|reflexivity].
      + exists None, (c :: s2). cbn [fracstr fracdigs app length]. rewrite app_nil_r. split; [reflexivity|]. split; [auto|]. split; [auto|]. split; [auto|reflexivity]. }
  rewrite Ef. clear Ef.
  set (q0 := run Q0 (sg0 ++ I ++ fracstr d)).
  assert (I ++ fracdigs d <> [] -> q0 = QI /\ d = None \/ q0 = QF /\ d <> None) as Hq.
  { intros N. unfold q0. rewrite !run_app, (run_sign _ _ _ S), (run_digits _ I) by auto. destruct d as [F|]; cbn [fracstr fracdigs] in *.
    - right. split; [|discriminate]. change (dot :: F) with ([dot] ++ F). rewrite run_app, (run_digits _ F) by auto. destruct I as [|c I], F as [|c' F]; try (now cbn in N); destruct S; reflexivity.
    - left. split; auto. cbn [run fold_left]. destruct I as [|c I]; [now cbn in N|]. destruct S; reflexivity. }
  destruct (Nat.eqb_spec (0 + length I + length (fracdigs d)) 0) as [Z|NZ].
  { (* no digit at all *)
    assert (I = []) as -> by (destruct I; [auto|cbn in Z; lia]). assert (fracdigs d = []) as Fd by (destruct (fracdigs d); [auto|cbn in Z; lia]).
    cbn [app] in *. exists (sg0 ++ fracstr d), s3. rewrite app_assoc. split.
    - apply consumed_intro; auto.
      + exists ["0"%char]. destruct d as [F|]; cbn [fracdigs fracstr] in *.
        * subst F. exists sg, (inject_Z (numval 0 (([] : str) ++ ["0"%char])) * (10#1) ^ (0 - 1))%Q.
          pose proof (decimal_make sg0 sg [] (Some ["0"%char]) [] 0 S ltac:(constructor) ltac:(repeat constructor; exact isdig_zero) ltac:(discriminate) no_exponent) as M.
          cbn [fracstr fracdigs app length] in M. rewrite <- app_assoc. exact M.
        * exists sg, (inject_Z (numval 0 (["0"%char] ++ [])) * (10#1) ^ (0 - 0))%Q.
          pose proof (decimal_make sg0 sg ["0"%char] None [] 0 S ltac:(repeat constructor; exact isdig_zero) ltac:(constructor) ltac:(discriminate) no_exponent) as M.
          cbn [fracstr fracdigs app length] in M. rewrite app_nil_r. exact M.
      + intros c r' ->. cbn [nodig] in N3. fold q0. unfold step. rewrite N3.
        assert (q0 = match d with Some _ => QD | None => match sg0 with [] => Q0 | _ => QS end end) as ->.
        { unfold q0. cbn [app]. rewrite run_app, (run_sign _ _ _ S). destruct d as [F|]; cbn [fracdigs fracstr] in *; [subst F|]; destruct S; reflexivity. }
        destruct d as [F|].
        * destruct (Ascii.eqb c minus || Ascii.eqb c plus), (Ascii.eqb c dot), (Ascii.eqb c "e" || Ascii.eqb c "E"); reflexivity.
        * specialize (Hd eq_refl). cbn in Hd. destruct (Ascii.eqb_spec c dot); [easy|].
          destruct S; cbn [fracstr app] in Sh; [destruct (Sh eq_refl) as [A B]; destruct (Ascii.eqb_spec c minus), (Ascii.eqb_spec c plus); try easy| | ];
          destruct (Ascii.eqb c minus || Ascii.eqb c plus), (Ascii.eqb c "e" || Ascii.eqb c "E"); reflexivity.
    - constructor. apply not_decimal. rewrite run_app, (run_sign _ _ _ S). destruct d as [F|]; cbn [fracdigs fracstr] in *; [subst F|]; destruct S; reflexivity. }
  assert (I ++ fracdigs d <> []) as NE. { intros E. apply NZ. assert (length (I ++ fracdigs d) = 0%nat) as L by now rewrite E. rewrite app_length in L. lia. }
  specialize (Hq NE).
  assert (0 <= numval 0 (I ++ fracdigs d)) as Vp by (apply numval_nonneg, Forall_app; auto).
  (* without exponent *)
  assert (forall r, s3 = r -> (forall c r', r = c :: r' -> c <> "e"%char /\ c <> "E"%char) ->
     exists t r, consumed a_decimal (sg0 ++ I ++ fracstr d ++ s3) t r /\ scanned (sg0 ++ I ++ fracstr d ++ s3) (Some (sg, numval 0 (I ++ fracdigs d), 0 - Z.of_nat (length (fracdigs d)), s3)) t r) as Plain.
  { intros r <- He. pose proof (decimal_make sg0 sg I d [] 0 S DI DF NE no_exponent) as M. rewrite app_nil_r in M.
    exists (sg0 ++ I ++ fracstr d), s3. split; [|constructor; auto]. apply consumed_intro.
    - now rewrite <- !app_assoc.
    - exists []. rewrite app_nil_r. eexists _, _. exact M.
    - intros c r' E. destruct (He c r' E) as [He1 He2]. fold q0. subst s3. cbn [nodig] in N3. unfold step. rewrite N3.
      destruct (Ascii.eqb_spec c "e"); [easy|]. destruct (Ascii.eqb_spec c "E"); [easy|]. cbn [orb].
      destruct Hq as [[-> Dn]|[-> Dn]].
      + specialize (Hd Dn). destruct (Ascii.eqb_spec c dot); [easy|]. destruct (Ascii.eqb c minus || Ascii.eqb c plus); reflexivity.
      + destruct (Ascii.eqb c minus || Ascii.eqb c plus), (Ascii.eqb c dot); reflexivity. }
  destruct s3 as [|c s3]; [apply (Plain []); auto; discriminate|].
  destruct (Ascii.eqb_spec c ch_e) as [Ec|Nc1]; [|destruct (Ascii.eqb_spec c ch_E) as [Ec|Nc2]]; cbn [orb]; [| |apply (Plain (c :: s3)); auto; intros c' r' E; injection E as <- <-; auto].
  1,2: apply exp_case; auto; destruct Hq as [[Hq _]|[Hq _]]; auto.
Qed.

(** ** determinism of the grammar *)
Lemma viable_prefix L a b : viable L (a ++ b) -> viable L a.
Proof. intros [u U]. exists (b ++ u). now rewrite app_assoc. Qed.
Lemma consumed_unique L s t r t' r' : consumed L s t r -> consumed L s t' r' -> t = t' /\ r = r'.
Proof.
  assert (forall t r t' r', consumed L s t r -> consumed L s t' r' -> (length t <= length t')%nat -> t = t' /\ r = r') as A.
  { clear. intros t r t' r' (E & V & M) (E' & V' & M') Le. assert (exists w, t' = t ++ w /\ r = w ++ r') as (w & -> & ->).
    { clear V V' M M'. revert s t' E E' Le. induction t as [|c t IH]; intros s t' -> E Le; [exists t'; auto|]. destruct t' as [|c' t']; [cbn in Le; lia|].
      cbn [app] in E. injection E as <- E. destruct (IH _ t' eq_refl E ltac:(cbn in Le; lia)) as (w & -> & ->). exists w. auto. }
    destruct w as [|c w]; [now rewrite app_nil_r|]. exfalso. apply (M c (w ++ r')); auto. apply viable_prefix with w. now rewrite <- app_assoc. }
  intros C C'. destruct (Nat.le_ge_cases (length t) (length t')); [now apply A|]. destruct (A _ _ _ _ C' C); auto.
Qed.
Lemma digits_no_sign t u : Forall isdig t -> (t = [] -> no_sign_head u) -> no_sign_head (t ++ u).
Proof. intros F H. destruct F as [|c t D F]; [now apply H|]. cbn. destruct (isdig_not_sign c D); tauto. Qed.
Lemma exponent_head et e : exponent_text et e -> nodig et /\ no_sign_head et /\ match et with c :: _ => c <> dot | [] => True end.
Proof. intros [|c s neg u n [->| ->] S N]; cbn; repeat split; discriminate. Qed.
Lemma parse_decimal t neg q : decimal_text t neg q -> exists v e, parse t = Some (neg, v, e, []) /\ (q == inject_Z v * (10#1) ^ e)%Q.
Proof.
  intros D. apply decimal_inv in D as (s & I & d & et & e & -> & S & DI & DF & NE & X & Q).
  destruct (exponent_head et e X) as (H1 & H2 & H3).
  exists (numval 0 (I ++ fracdigs d)), (e - Z.of_nat (length (fracdigs d))). split; [|exact Q]. unfold parse.
  assert (no_sign_head (I ++ fracstr d ++ et)) as Hn by (apply digits_no_sign; [auto|]; intros _; destruct d; [cbn; split; discriminate|exact H2]).
  rewrite (scan_sign_text s neg) by auto.
  assert (nodig (fracstr d ++ et)) as Hn' by (destruct d; [reflexivity|exact H1]).
  rewrite (scan_digits_app I 0 0 (fracstr d ++ et)) by auto. cbv beta iota.
  match goal with |- match ?X with _ => _ end = _ => assert (X = (numval 0 (I ++ fracdigs d), length (fracdigs d), et)) as -> end.
  { destruct d as [F|]; cbn [fracstr fracdigs app].
    - change (Ascii.eqb dot ch_dot) with true. cbv iota. rewrite scan_digits_app by auto. now rewrite numval_app.
    - rewrite app_nil_r. destruct et as [|c et]; [reflexivity|]. destruct (Ascii.eqb_spec c ch_dot); [easy|reflexivity]. }
  replace (0 + length I + length (fracdigs d) =? 0)%nat with false.
  2:{ symmetry. apply Nat.eqb_neq. intros L. apply NE. destruct I; [|cbn in L; lia]. destruct (fracdigs d); [auto|cbn in L; lia]. }
  destruct X as [|c eg es u n C SE N]; [reflexivity|].
  replace (Ascii.eqb c ch_e || Ascii.eqb c ch_E) with true by (destruct C as [->| ->]; reflexivity).
  apply nat_text_spec in N as (DU & NU & ->). assert (no_sign_head u) as Hu by (rewrite <- (app_nil_r u); apply digits_no_sign; [auto|intros ->; easy]).
  rewrite (scan_sign_text eg es) by auto.
  assert (scan_digits 0 0 u = (numval 0 u, (0 + length u)%nat, [])) as ->. { rewrite <- (app_nil_r u) at 1. apply scan_digits_app; auto. reflexivity. }
  replace (0 + length u =? 0)%nat with false; [reflexivity|]. symmetry. apply Nat.eqb_neq. destruct u; [easy|cbn; lia].
Qed.
Lemma decimal_unique t neg q neg' q' : decimal_text t neg q -> decimal_text t neg' q' -> neg = neg' /\ (q == q')%Q.
Proof.
  intros D D'. apply parse_decimal in D as (v & e & P & Q). apply parse_decimal in D' as (v' & e' & P' & Q'). rewrite P in P'. injection P' as -> -> ->. split; auto. now rewrite Q, Q'.
Qed.

(** ** unique rounding *)
Lemma rn64_value s m e : dvalid (S754_finite s m e) = true -> exists a b, (0 < a) /\ (0 < b) /\ (rat a b == Qabs (dval (S754_finite s m e)))%Q /\ rn64 s a b = S754_finite s m e.
Proof.
  intros V. pose proof (frac_rat m e) as F. destruct (frac m e) as [a b]. destruct F as (A & B & R). exists a, b. split; auto. split; auto. split.
  - rewrite dval_finite, R. rewrite Qabs_Qmult. assert (Qabs (if s then -1 else 1) == 1)%Q as -> by (destruct s; reflexivity). rewrite Qabs_pos; [ring|].
    pose proof (pw_pos 2 e ltac:(lia)). pose proof (qz_pos (Zpos m) ltac:(lia)). nra.
  - apply rn64_exact; auto.
Qed.
Lemma dval_zero x : real_double x -> (dval x == 0)%Q -> x = S754_zero (negative x).
Proof.
  intros [V F] E. destruct x as [s|s| |s m e]; try discriminate; [reflexivity|]. exfalso. rewrite dval_finite in E.
  pose proof (pw_pos 2 e ltac:(lia)). pose proof (qz_pos (Zpos m) ltac:(lia)). destruct s; nra.
Qed.
Lemma dval_inj x y : real_double x -> real_double y -> negative x = negative y -> (dval x == dval y)%Q -> x = y.
Proof.
  intros X Y N E. destruct (Qeq_dec (dval x) 0) as [Z|Z].
  - rewrite (dval_zero x X Z), (dval_zero y Y) by (rewrite <- E; exact Z). now rewrite N.
  - destruct X as [VX FX], Y as [VY FY]. destruct x as [s|s| |s m e]; try discriminate; [now destruct Z|]. destruct y as [s'|s'| |s' m' e']; try discriminate; [exfalso; apply Z; rewrite E; reflexivity|].
    cbn [negative] in N. subst s'. destruct (rn64_value s m e VX) as (a & b & A & B & R & <-). destruct (rn64_value s m' e' VY) as (a' & b' & A' & B' & R' & <-).
    apply rn64_ext; auto. rewrite R, R'. now rewrite E.
Qed.
Lemma nearest_rn64 v x a b : (0 < a) -> (0 < b) -> (v == rat a b)%Q -> nearest_double v x -> (dval x == dval (rn64 false a b))%Q \/ (inject_Z (2 ^ 1024 - 2 ^ 970) <= v)%Q.
Proof.
  intros A B Ev [R H]. destruct (Qlt_le_dec (rat a b) (inject_Z (2 ^ 1024 - 2 ^ 970))) as [L|L]; [left|right; now rewrite Ev].
  destruct (rn64_nearest a b A B) as (M & ex0 & Ex & HM & E & Err & Tie & Ovf).
  destruct (rn64_correct false a b A B) as [C _]. destruct (C L) as [[R0 H0] _]. cbn [signed] in H0. clear C.
  destruct (H _ R0) as [G1 G2]. destruct (H0 _ R) as [K1 K2]. rewrite Ev in G1, G2.
  destruct (Qeq_dec (dval x) (dval (rn64 false a b))) as [Q|Q]; [auto|exfalso].
  assert (Qabs (dval x - rat a b) == Qabs (dval (rn64 false a b) - rat a b))%Q as T by lra.
  specialize (G2 T Q). specialize (K2 (Qeq_sym _ _ T) ltac:(intros X; apply Q; now rewrite X)).
  set (v0 := rat a b) in *. set (w := dval (rn64 false a b)) in *. pose proof (pw_pos 2 ex0 ltac:(lia)) as Hp.
  assert (w == qz M * pw 2 ex0)%Q as Ew.
  { unfold w. rewrite E. destruct (Z.eqb_spec M (2 ^ 53)) as [EM|EM].
    - assert (dfinite (rn64 false a b) = true) as Fin by apply R0. rewrite E in Fin. replace (M =? 2 ^ 53) with true in Fin by lia.
      unfold sf_of in *. change (2 ^ 52) with (Zpos 4503599627370496) in *. destruct (ex0 + 1 <=? 971); [|discriminate]. rewrite dval_finite, EM. rewrite pw_add by lia. rewrite pw_1. change (2 ^ 53)%Z with (4503599627370496 * 2)%Z. rewrite qz_mul. ring.
    - assert (dfinite (rn64 false a b) = true) as Fin by apply R0. rewrite E in Fin. replace (M =? 2 ^ 53) with false in Fin by lia.
      unfold sf_of in *. destruct M as [|p|p]; [cbn [dval]; change (qz 0) with 0%Q; ring| |lia]. destruct (ex0 <=? 971); [|discriminate]. rewrite dval_finite. ring. }
  pose proof (flog2_spec a b A B) as [Hlo Hhi]. fold v0 in Hlo, Hhi.
  destruct (double_on_grid x ex0 R) as [[k K]|[K Nex]].
  - destruct (grid_nearest v0 (pw 2 ex0) M Hp Err k) as [_ N2]. rewrite K, Ew in T. assert (M <> k) as Nk by (intros <-; apply Q; now rewrite K, Ew).
    specialize (N2 (Qeq_sym _ _ T) Nk). specialize (Tie N2).
    (* k is a neighbour of M, so it is odd *)
    assert (Z.abs (k - M) = 1) as Adj.
    { assert (Qabs (qz k * pw 2 ex0 - qz M * pw 2 ex0) <= pw 2 ex0)%Q as Le.
      { pose proof (Qabs_triangle (qz k * pw 2 ex0 - v0) (v0 - qz M * pw 2 ex0)) as Tr. setoid_replace (qz k * pw 2 ex0 - v0 + (v0 - qz M * pw 2 ex0))%Q with (qz k * pw 2 ex0 - qz M * pw 2 ex0)%Q in Tr by ring.
        rewrite N2, T, (Qabs_Qminus (qz M * pw 2 ex0)), N2 in Tr. lra. }
      setoid_replace (qz k * pw 2 ex0 - qz M * pw 2 ex0)%Q with (qz (k - M) * pw 2 ex0)%Q in Le by (rewrite qz_sub; ring). rewrite Qabs_Qmult, (Qabs_pos (pw 2 ex0)) in Le by lra.
      setoid_replace (pw 2 ex0) with (1 * pw 2 ex0)%Q in Le at 2 by ring. apply Qmult_le_r in Le; [|auto]. change (Qabs (qz (k - M))) with (qz (Z.abs (k - M))) in Le. change 1%Q with (qz 1) in Le. apply qz_le in Le. lia. }
    assert (Z.even k = false) as Odd.
    { assert (k = M + 1 \/ k = M - 1) as [-> | ->] by lia.
      - now rewrite Z.add_1_r, Z.even_succ, <- Z.negb_even, Tie.
      - rewrite Z.sub_1_r, Z.even_pred, <- Z.negb_even, Tie. reflexivity. }
    destruct R as [VR FR]. destruct x as [s|s| |s n f]; try discriminate.
    + cbn [dval] in K. assert (k = 0) as ->; [|discriminate]. apply qz_eq. change (qz 0) with 0%Q. nra.
    + cbn [even_mantissa] in G2. rewrite dval_finite in K. apply dvalid_bounds in VR as (V1 & V2 & V3).
      assert (ex0 <= f) as Lf.
      { destruct (Z.le_gt_cases ex0 f) as [|Lt]; [auto|exfalso]. pose proof (pw_mult 2 f ex0 k ltac:(lia) ltac:(lia)) as P. rewrite P in K.
        assert (qz ((if s then -1 else 1) * Zpos n) * pw 2 f == qz (k * 2 ^ (ex0 - f)) * pw 2 f)%Q as K' by (rewrite <- K, qz_mul; destruct s; [change (qz (-1)) with (-1)%Q|change (qz 1) with 1%Q]; ring).
        apply Qmult_inj_r in K'; [|pose proof (pw_pos 2 f ltac:(lia)); lra]. apply qz_eq in K'.
        (* then the double is below 2^52 units: both v and M are at least that *)
        assert (2 ^ 52 <= M) as M52.
        { destruct (Z.le_gt_cases (2 ^ 52) M) as [|Lm]; [auto|exfalso].
          assert (pw 2 (flog2 a b) == qz (2 ^ 52) * pw 2 ex0)%Q as E5 by (rewrite <- (pw_Z 2 52), <- pw_add by lia; replace (52 + ex0)%Z with (flog2 a b) by lia; reflexivity).
          rewrite E5 in Hlo. destruct (grid_nearest v0 (pw 2 ex0) M Hp Err (2 ^ 52)) as [N3 _].
          assert (qz M <= qz (2 ^ 52) - 1)%Q as Q1. { assert (M <= 2 ^ 52 - 1) as Q0 by lia. apply qz_le in Q0. rewrite qz_sub in Q0. exact Q0. }
          assert (qz M * pw 2 ex0 <= (qz (2 ^ 52) - 1) * pw 2 ex0)%Q as Q2 by (apply Qmult_le_r; auto).
          rewrite (Qabs_neg (qz M * pw 2 ex0 - v0)) in N3 by lra. rewrite (Qabs_neg (qz (2 ^ 52) * pw 2 ex0 - v0)) in N3 by lra. lra. }
        assert (2 <= 2 ^ (ex0 - f)) as P2 by (replace (ex0 - f) with (Z.succ (ex0 - f - 1)) by lia; rewrite Z.pow_succ_r by lia; assert (0 < 2 ^ (ex0 - f - 1)) by (apply Z.pow_pos_nonneg; lia); lia).
        assert (Zpos n = k * 2 ^ (ex0 - f)) as K2' by (destruct s; nia).
        assert (k = 2 ^ 52 - 1 \/ 2 ^ 52 <= k) as [Ek|Ek] by lia; [|nia].
        (* k below 2^52: v lies between, but v is at least 2^52 units *)
        assert (M = 2 ^ 52) as EM by lia. assert (pw 2 (flog2 a b) == qz (2 ^ 52) * pw 2 ex0)%Q as E5 by (rewrite <- (pw_Z 2 52), <- pw_add by lia; replace (52 + ex0)%Z with (flog2 a b) by lia; reflexivity).
        rewrite E5 in Hlo. rewrite EM, Ek in T. assert (qz (2 ^ 52 - 1) == qz (2 ^ 52) - 1)%Q as S1 by (rewrite qz_sub; reflexivity). rewrite S1 in T.
        assert ((qz (2 ^ 52) - 1) * pw 2 ex0 == qz (2 ^ 52) * pw 2 ex0 - pw 2 ex0)%Q as S2 by ring. rewrite S2 in T.
        rewrite (Qabs_neg (qz (2 ^ 52) * pw 2 ex0 - v0)) in T by lra. rewrite Qabs_neg in T by lra. lra. }
      pose proof (pw_mult 2 ex0 f (Zpos n) ltac:(lia) Lf) as P. rewrite P in K.
      assert (qz ((if s then -1 else 1) * (Zpos n * 2 ^ (f - ex0))) * pw 2 ex0 == qz k * pw 2 ex0)%Q as K' by (rewrite <- K, (qz_mul (if s then -1 else 1)); destruct s; [change (qz (-1)) with (-1)%Q|change (qz 1) with 1%Q]; ring).
      apply Qmult_inj_r in K'; [|lra]. apply qz_eq in K'. rewrite <- K' in Odd. rewrite !Z.even_mul, G2 in Odd. rewrite orb_true_r in Odd. discriminate.
  - assert (Qabs (qz M * pw 2 ex0 - v0) < Qabs (dval x - v0))%Q as F.
    { apply far_below with (k := (2 ^ 52)%Z); auto. assert (pw 2 (flog2 a b) == qz (2 ^ 52) * pw 2 ex0)%Q as <-; [|auto].
      rewrite <- (pw_Z 2 52), <- pw_add by lia. replace (52 + ex0)%Z with (flog2 a b) by lia. reflexivity. }
    rewrite Ew in T. lra.
Qed.
Lemma nearest_ext q q' x : (q == q')%Q -> nearest_double q x -> nearest_double q' x.
Proof. intros E [R H]. split; auto. intros y Y. specialize (H y Y). rewrite E in H. exact H. Qed.
Lemma nearest_unique q x y : in_range q -> nearest_double q x -> nearest_double q y -> negative x = negative y -> x = y.
Proof.
  intros G X Y N. apply dval_inj; auto; try apply X; try apply Y. unfold in_range in G.
  assert (forall q x y, (0 < q)%Q -> (q < inject_Z (2 ^ 1024 - 2 ^ 970))%Q -> nearest_double q x -> nearest_double q y -> (dval x == dval y)%Q) as Pos.
  { clear. intros q x y P G X Y. destruct q as [n d]. assert (0 < n) as Np by (unfold Qlt in P; cbn in P; lia).
    assert (n # d == rat n (Zpos d))%Q as E by (unfold rat, qz; apply Qmake_Qdiv).
    destruct (nearest_rn64 _ x n (Zpos d) Np ltac:(lia) E X) as [A|A]; [|exfalso; lra]. destruct (nearest_rn64 _ y n (Zpos d) Np ltac:(lia) E Y) as [B|B]; [|exfalso; lra]. now rewrite A, B. }
  destruct (Qlt_le_dec 0 q) as [P|P]; [|apply Qle_lt_or_eq in P as [P|P]].
  - rewrite Qabs_pos in G by lra. eauto.
  - rewrite Qabs_neg in G by lra. assert (dval (dopp x) == dval (dopp y))%Q as E by (apply (Pos (- q)%Q); [lra|auto|now apply nearest_opp|now apply nearest_opp]). rewrite !dval_opp in E. lra.
  - assert (forall z, nearest_double q z -> (dval z == 0)%Q) as Z.
    { intros z [Rz Hz]. destruct (Hz (S754_zero false)) as [H _]; [split; reflexivity|]. cbn [dval] in H. rewrite P in H. change (Qabs (0 - 0)) with 0%Q in H. pose proof (Qabs_nonneg (dval z - 0)) as W.
      pose proof (Qle_Qabs (dval z - 0)). pose proof (Qle_Qabs (- (dval z - 0))). rewrite Qabs_opp in H1. lra. }
    rewrite (Z x), (Z y); auto. reflexivity.
Qed.

(** ** reading one double *)
Lemma dec_to_dbl_correct s v e : 0 <= v -> let q := (inject_Z v * (10#1) ^ e)%Q in
  (in_range q -> nearest_double (signed s q) (dec_to_dbl s v e) /\ negative (dec_to_dbl s v e) = s) /\
  (~ in_range q -> dec_to_dbl s v e = S754_infinity s).
Proof.
  intros V q. pose proof (pw_pos 10 e ltac:(lia)) as P10. destruct (Z.eq_dec v 0) as [->|N].
  - assert (q == 0)%Q as Z by (unfold q; change (inject_Z 0) with 0%Q; ring). unfold dec_to_dbl. rewrite Z.eqb_refl. split.
    + intros _. split; [|reflexivity]. split; [split; reflexivity|]. intros y Y. assert (signed s q == 0)%Q as -> by (destruct s; cbn [signed]; lra). cbn [dval even_mantissa]. split; [|auto]. change (Qabs (0 - 0)) with 0%Q. apply Qabs_nonneg.
    + intros H. exfalso. apply H. unfold in_range. rewrite Z. reflexivity.
  - rewrite dec_to_dbl_frac by auto. pose proof (dfrac_rat v e ltac:(lia)) as D. destruct (dfrac v e) as [a b]. destruct D as (A & B & R).
    assert (rat a b == q)%Q as Rq by exact R. pose proof (rat_pos a b A B) as Rp.
    destruct (rn64_correct s a b A B) as [C1 C2]. assert (Qabs q == rat a b)%Q as Aq by (rewrite Qabs_pos; lra). unfold in_range. split.
    + intros H. rewrite Aq in H. destruct (C1 H) as [N1 N2]. split; [|auto]. eapply nearest_ext; [|exact N1]. destruct s; cbn [signed]; lra.
    + intros H. apply C2. rewrite Aq in H. lra.
Qed.
Lemma in_range_ext q q' : (q == q')%Q -> in_range q -> in_range q'.
Proof. unfold in_range. intros E H. now rewrite <- E. Qed.
Lemma in_range_dec q : {in_range q} + {~ in_range q}.
Proof. unfold in_range. destruct (Qlt_le_dec (Qabs q) (inject_Z (2 ^ 1024 - 2 ^ 970))) as [H|H]; [left; auto|right; intros K; lra]. Qed.
Lemma finite_not_inf x : real_double x -> forall s : bool, x <> S754_infinity s.
Proof. intros [_ F] s ->. discriminate. Qed.
Lemma in_range_signed s q : in_range q -> in_range (signed s q).
Proof. unfold in_range. destruct s; cbn [signed]; auto. now rewrite Qabs_opp. Qed.
Theorem scan_double_correct s x r : scan_double s = Some (x, r) <-> takes_double s x r.
Proof.
  rewrite scan_double_parse. destruct (parse_correct s) as (t & r0 & C & Sc). split.
  - intros H. destruct (parse s) as [[[[sg v] e] r1]|]; [|discriminate]. inversion Sc; subst. cbn [finish] in H.
    match goal with D : decimal_text _ _ _, V : 0 <= v |- _ => destruct (dec_to_dbl_correct sg v e V) as [K1 K2]; destruct (in_range_dec (inject_Z v * (10#1) ^ e)) as [G|G]; [destruct (K1 G) as [N1 N2]|rewrite (K2 G) in H; discriminate]; 
      exists t, sg, (inject_Z v * (10#1) ^ e)%Q; assert (x = dec_to_dbl sg v e /\ r = r0) as [-> ->] by (destruct (dec_to_dbl sg v e); try discriminate; injection H as <- <-; auto); repeat (split; [assumption|]); assumption end.
  - intros (t' & neg & q & C' & D & G & N & Sg). destruct (consumed_unique _ _ _ _ _ _ C C') as [<- <-]. revert N Sg.
    inversion Sc as [? ? ND E1|sg v e ? ? D' V E1]; subst; intros N Sg; [exfalso; apply ND; eexists _, _; eauto|].
    destruct (decimal_unique _ _ _ _ _ D D') as [-> Q]. apply (in_range_ext _ _ Q) in G. destruct (dec_to_dbl_correct sg v e V) as [K1 _]. destruct (K1 G) as [N1 N2].
    assert (x = dec_to_dbl sg v e) as ->.
    { apply nearest_unique with (signed sg (inject_Z v * (10#1) ^ e)%Q); [now apply in_range_signed| |auto|congruence].
      eapply nearest_ext; [|exact N]. destruct sg; cbn [signed]; now rewrite Q. }
    cbn [finish]. pose proof (finite_not_inf _ (proj1 N1)) as NI. destruct (dec_to_dbl sg v e) as [|s0| |]; auto. now destruct (NI s0).
Qed.

(** ** reading one size_t *)
Lemma viable_integer t : viable an_integer t -> exists st neg d, t = st ++ d /\ sign_text st neg /\ Forall isdig d.
Proof.
  intros (u & neg & n & st0 & w & E & S & N). apply nat_text_spec in N as (F & _ & _).
  destruct (Nat.le_ge_cases (length t) (length st0)) as [L|L].
  - assert (exists k, st0 = t ++ k) as [k K].
    { clear -E L. revert st0 E L. induction t as [|c t IH]; intros st0 E L; [exists st0; auto|]. destruct st0 as [|c' st0]; [cbn in L; lia|]. cbn [app] in E. injection E as <- E. destruct (IH _ E ltac:(cbn in L; lia)) as [k ->]. exists k. auto. }
    destruct t as [|c t]; [exists [], false, []; repeat constructor|]. destruct S; try discriminate; injection K as <- K; destruct t; try discriminate; [exists [plus], false, []|exists [minus], true, []]; repeat constructor.
  - assert (exists d k, t = st0 ++ d /\ w = d ++ k) as (d & k & -> & ->).
    { clear -E L. revert t E L. induction st0 as [|c st0 IH]; intros t E L; [exists t, u; auto|]. destruct t as [|c' t]; [cbn in L; lia|]. cbn [app] in E. injection E as <- E. destruct (IH _ E ltac:(cbn in L; lia)) as (d & k & -> & ->). exists d, k. auto. }
    exists st0, neg, d. apply Forall_app in F as [F _]. auto.
Qed.
Lemma integer_unique t neg n neg' n' : integer_text t neg n -> integer_text t neg' n' -> neg = neg' /\ n = n'.
Proof.
  intros (s & u & -> & S & N) (s' & u' & E & S' & N'). apply nat_text_spec in N as (F & NE & ->). apply nat_text_spec in N' as (F' & NE' & ->).
  destruct u as [|c u]; [easy|]. destruct u' as [|c' u']; [easy|]. inversion F as [|? ? D _]; subst. inversion F' as [|? ? D' _]; subst. apply isdig_not_sign in D, D'.
  destruct S, S'; cbn [app] in E; injection E as E1 E2; subst; try tauto; auto; try (destruct D as (D1 & D2 & _); easy); try (destruct D' as (D1 & D2 & _); easy).
Qed.
Lemma scan_size_shape s : exists st sg ds r, s = st ++ ds ++ r /\ sign_text st sg /\ Forall isdig ds /\ nodig r /\ consumed an_integer s (st ++ ds) r /\
  scan_sign s = (sg, ds ++ r) /\ scan_digits 0 0 (ds ++ r) = (numval 0 ds, length ds, r).
Proof.
  destruct (scan_sign s) as [sg s1] eqn:E1. pose proof E1 as E1'. apply scan_sign_inv in E1 as (st & -> & S & Sh). destruct (scan_digits 0 0 s1) as [[v n] r] eqn:E2. pose proof E2 as E2'. apply scan_digits_inv in E2 as (ds & -> & D & -> & -> & N).
  exists st, sg, ds, r. split; [auto|]. split; [auto|]. split; [auto|]. split; [auto|]. split; [|auto]. split; [apply app_assoc|]. split.
  - exists ["0"%char], sg, (numval 0 (ds ++ ["0"%char])), st, (ds ++ ["0"%char]). split; [symmetry; apply app_assoc|]. split; auto. apply nat_text_spec. split; [apply Forall_app; split; auto; repeat constructor; apply isdig_zero|]. split; [now destruct ds|auto].
  - intros c r' -> V. apply viable_integer in V as (st' & neg & d & E & S' & D'). cbn [nodig] in N.
    destruct d as [|c0 d] using rev_ind.
    + rewrite app_nil_r in E. destruct ds as [|c0 ds].
      * rewrite app_nil_r in E. destruct S; [|destruct S'; discriminate|destruct S'; discriminate]. destruct (Sh eq_refl) as [A B]. cbn in E. destruct S'; [discriminate| |]; injection E as ->; easy.
      * exfalso. assert (length ((st ++ c0 :: ds) ++ [c]) = length st') as L by now rewrite E. rewrite !app_length in L. cbn in L. destruct S'; cbn in L; lia.
    + rewrite app_assoc in E. apply app_inj_tail in E as [_ ->]. apply Forall_app in D' as [_ D']. inversion D' as [|? ? D0 _]; subst. apply D0. exact N.
Qed.
Lemma mod_zero_intro a b k : 0 < b -> a = k * b -> a mod b = 0.
Proof. intros B ->. apply Z.mod_mul. lia. Qed.
Theorem scan_size_correct s n r : scan_size s = Some (n, r) <-> takes_size s n r.
Proof.
  destruct (scan_size_shape s) as (st & sg & ds & r0 & Es & S & D & N & C & E1 & E2).
  unfold scan_size. rewrite E1, E2. change (Z.of_N two64) with (2 ^ 64).
  assert (ds <> [] -> integer_text (st ++ ds) sg (numval 0 ds)) as T by (intros Ne; exists st, ds; split; auto; split; auto; apply nat_text_spec; auto).
  pose proof (numval_nonneg ds D) as Vp.
  split.
  - destruct (Nat.eqb_spec (length ds) 0) as [Z|Nz]; [discriminate|]. destruct (Z.leb_spec (2 ^ 64) (numval 0 ds)) as [|L]; [discriminate|]. intros H. assert (ds <> []) as Ne by (destruct ds; [now cbn in Nz|discriminate]).
    assert (n = (if sg then wrap64 (two64 - Z.to_N (numval 0 ds)) else Z.to_N (numval 0 ds)) /\ r = r0) as [-> ->] by (injection H; auto). clear H.
    exists (st ++ ds), sg, (numval 0 ds). split; auto. split; auto. split; auto. set (v := numval 0 ds) in *. change (2 ^ 64) with (Z.of_N two64) in *.
    destruct sg.
    + unfold wrap64. destruct (Z.eq_dec v 0) as [->|Nv].
      * rewrite N.sub_0_r, N.mod_same by discriminate. split; [reflexivity|]. reflexivity.
      * rewrite N.mod_small by (unfold two64 in *; lia). split; [unfold two64 in *; lia|]. apply (mod_zero_intro _ _ 1); [reflexivity|]. unfold two64 in *; lia.
    + split; [lia|]. apply (mod_zero_intro _ _ 0); [reflexivity|]. lia.
  - intros (t & neg & v & C' & I & L & Ln & M). destruct (consumed_unique _ _ _ _ _ _ C C') as [<- <-].
    assert (ds <> []) as Ne.
    { intros ->. rewrite app_nil_r in I. destruct I as (s' & u & E & S' & Nu). apply nat_text_spec in Nu as (F & NE & _). destruct u as [|c u]; [easy|]. inversion_clear F as [|? ? D0 _]. apply isdig_not_sign in D0. clear - E S S' D0.
      destruct S, S'; cbn [app] in E; try discriminate; injection E as E' E''; subst; try discriminate; destruct D0 as (A & B & _); congruence. }
    destruct (integer_unique _ _ _ _ _ (T Ne) I) as [-> <-]. destruct (Nat.eqb_spec (length ds) 0) as [Z|Nz]; [destruct ds; [easy|discriminate]|].
    destruct (Z.leb_spec (2 ^ 64) (numval 0 ds)) as [|_]; [lia|]. set (v := numval 0 ds) in *. f_equal. f_equal.
    apply Z.mod_divide in M as [k K]; [|lia]. change (2 ^ 64) with (Z.of_N two64) in *. unfold wrap64. unfold two64 in *. destruct neg.
    + destruct (Z.eq_dec v 0) as [->|Nv]; [|rewrite N.mod_small by lia; lia]. change ((18446744073709551616 - Z.to_N 0) mod 18446744073709551616)%N with 0%N. lia.
    + lia.
Qed.

(** ** lists *)
Lemma is_space_codes c : is_space c = true <-> In (N_of_ascii c) [32; 9; 10; 11; 12; 13]%N.
Proof.
  unfold is_space. rewrite orb_true_iff, andb_true_iff, N.eqb_eq, !N.leb_le. cbn [In]. lia.
Qed.
Lemma skip_ws_split s : exists b, s = b ++ skip_ws s /\ all_blank b /\ (skip_ws s <> [] -> no_blank_head (skip_ws s)).
Proof.
  induction s as [|c s IH]; [exists []; split; [auto|split; [intros ? []|easy]]|]. cbn [skip_ws]. destruct (is_space c) eqn:E.
  - destruct IH as (b & Hb & B & H). exists (c :: b). split; [cbn [app]; now f_equal|]. split; [|auto]. intros c' [<-|I]; [now apply is_space_codes|auto].
  - exists []. split; [auto|]. split; [intros ? []|]. intros _. cbn [no_blank_head]. intros I. apply is_space_codes in I. congruence.
Qed.
Lemma all_blank_cons c b : all_blank (c :: b) <-> In (N_of_ascii c) [32; 9; 10; 11; 12; 13]%N /\ all_blank b.
Proof. unfold all_blank. split; [intros H; split; [apply H; now left|intros c' I; apply H; now right]|intros [A B] c' [<-|I]; auto]. Qed.
Lemma blank_split_unique b s b' s' : b ++ s = b' ++ s' -> all_blank b -> all_blank b' -> no_blank_head s -> no_blank_head s' -> b = b' /\ s = s'.
Proof.
  revert b'. induction b as [|c b IH]; intros [|c' b'] E B B' N N'; cbn [app] in E; auto.
  - subst s. apply all_blank_cons in B' as [H _]. now destruct N.
  - subst s'. apply all_blank_cons in B as [H _]. now destruct N'.
  - injection E as <- E. apply all_blank_cons in B as [_ B]. apply all_blank_cons in B' as [_ B']. destruct (IH b' E B B' N N') as [-> ->]. auto.
Qed.
Section Lists.
Context {A : Type} (scan : str -> option (A * str)) (one : str -> A -> str -> Prop).
Hypothesis scan_one : forall s a r, scan s = Some (a, r) <-> one s a r.
Hypothesis one_shorter : forall s a r, no_blank_head s -> one s a r -> (length r < length s)%nat.
Lemma scan_list_correct f : forall s, (length s <= f)%nat -> extracts one s (scan_list scan f s).
Proof.
  induction f as [|f IH]; intros s L.
  - destruct s; [|cbn in L; lia]. constructor. intros ? [].
  - cbn [scan_list]. destruct (skip_ws_split s) as (b & E & B & H). destruct (skip_ws s) as [|c s'] eqn:Es.
    + rewrite app_nil_r in E. subst s. now constructor.
    + specialize (H ltac:(discriminate)). rewrite E at 1. destruct (scan (c :: s')) as [[a r]|] eqn:Sc.
      * apply scan_one in Sc. apply ex_one with r; auto. apply IH. pose proof (one_shorter _ _ _ H Sc) as K. assert (length s = (length b + length (c :: s'))%nat) as Ls by (rewrite E at 1; apply app_length). lia.
      * apply ex_fail; auto. intros a r O. apply scan_one in O. congruence.
Qed.
Lemma one_unique s a r a' r' : one s a r -> one s a' r' -> a = a' /\ r = r'.
Proof. intros H H'. apply scan_one in H, H'. rewrite H in H'. injection H'. auto. Qed.
Lemma extracts_unique s l : extracts one s l -> forall l', extracts one s l' -> l = l'.
Proof.
  assert (forall b s, all_blank (b ++ s) -> no_blank_head s -> False) as X.
  { intros b s0 H N. destruct s0 as [|c s0]; [easy|]. apply N. apply H. apply in_or_app. right. now left. }
  induction 1 as [s B|b s B N F|b s a r l B N O E IH]; intros l' H'; inversion H' as [s0 B0|b0 s0 B0 N0 F0 E0|b0 s0 a0 r0 l0 B0 N0 O0 H0 E0]; subst; try reflexivity; try (exfalso; eapply X; eassumption).
  - destruct (blank_split_unique b0 s0 b s) as [-> ->]; auto. exfalso. now apply (F a0 r0).
  - destruct (blank_split_unique b0 s0 b s) as [-> ->]; auto. exfalso. now apply (F0 a r).
  - destruct (blank_split_unique b0 s0 b s) as [-> ->]; auto. destruct (one_unique _ _ _ _ _ O O0) as [-> ->]. f_equal. auto.
Qed.
Theorem scan_list_spec s l : scan_list scan (length s) s = l <-> extracts one s l.
Proof.
  split; [intros <-; now apply scan_list_correct|]. intros H. eapply extracts_unique; [|exact H]. now apply scan_list_correct.
Qed.
End Lists.
Lemma takes_double_shorter s x r : no_blank_head s -> takes_double s x r -> (length r < length s)%nat.
Proof.
  intros _ (t & neg & q & (-> & _) & D & _). apply decimal_accepted in D. destruct t as [|c t]; [discriminate|]. rewrite app_length. cbn. lia.
Qed.
Lemma takes_size_shorter s x r : no_blank_head s -> takes_size s x r -> (length r < length s)%nat.
Proof.
  intros _ (t & neg & v & (-> & _) & (st & u & -> & S & N) & _). apply nat_text_spec in N as (_ & N & _). rewrite !app_length. destruct u; [easy|]. cbn. lia.
Qed.
