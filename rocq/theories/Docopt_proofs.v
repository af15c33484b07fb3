(** * The command line model against the specification of Spec_line. *)
From Coq Require Import Strings.String Lia.
From Verif Require Import Base Dbl Decimal Streams Handlers Raster Spec_io Cli Docopt Spec_line Handlers_proofs.
Import List.
Open Scope nat_scope.

(** ** Texts *)
Lemma prefix_begins a s : prefix_of a s = true <-> begins a s.
Proof.
  revert s. induction a as [|c a IH]; intros s; cbn [prefix_of].
  - split; [intros _; now exists s|reflexivity].
  - destruct s as [|d s]; [split; [discriminate|intros [t E]; discriminate]|]. rewrite Bool.andb_true_iff, IH, Ascii.eqb_eq. split.
    + intros [-> [t ->]]. now exists t.
    + intros [t E]. injection E as -> ->. split; [reflexivity|]. now exists t.
Qed.
Lemma partition_none s : partition_eq s = (s, None) <-> forall c, In c s -> c <> ch_eq.
Proof.
  induction s as [|c s IH]; cbn [partition_eq].
  - split; [intros _ c []|reflexivity].
  - destruct (Ascii.eqb_spec c ch_eq) as [->|N].
    + split; [discriminate|]. intros H. exfalso. apply (H ch_eq); auto. now left.
    + destruct (partition_eq s) as [a v]. split.
      * intros E. injection E as -> ->. intros d [<-|I]; auto. now apply IH.
      * intros H. assert ((a, v) = (s, None)) as E by (apply IH; intros d I; apply H; now right). injection E as -> ->. auto.
Qed.
Lemma partition_some n v : (forall c, In c n -> c <> ch_eq) -> partition_eq (n ++ ch_eq :: v) = (n, Some v).
Proof.
  induction n as [|c n IH]; intros H; cbn [partition_eq app].
  - reflexivity.
  - destruct (Ascii.eqb_spec c ch_eq) as [->|N]; [exfalso; apply (H ch_eq); auto; now left|]. rewrite IH; auto. intros d I. apply H. now right.
Qed.
Lemma partition_inv s n v : partition_eq s = (n, v) -> (forall c, In c n -> c <> ch_eq) /\ s = match v with Some x => n ++ ch_eq :: x | None => n end.
Proof.
  revert n v. induction s as [|c s IH]; intros n v; cbn [partition_eq].
  - intros E. injection E as <- <-. split; [intros c []|reflexivity].
  - destruct (Ascii.eqb_spec c ch_eq) as [->|N].
    + intros E. injection E as <- <-. split; [intros c []|reflexivity].
    + destruct (partition_eq s) as [a x]. intros E. injection E as <- <-. destruct (IH a x eq_refl) as [A B]. split.
      * intros d [<-|I]; auto.
      * destruct x; cbn [app]; now rewrite <- B.
Qed.
Lemma lit_inj a b : lit a = lit b -> a = b.
Proof. intros H. rewrite <- (string_of_list_ascii_of_string a), <- (string_of_list_ascii_of_string b). unfold lit in H. now rewrite H. Qed.

(** ** Options of the table *)
Lemma filter_one {A} (f : A -> bool) (l : list A) x : filter f l = [x] -> In x l /\ f x = true /\ forall y, In y l -> f y = true -> y = x.
Proof.
  intros E. assert (In x (filter f l)) as I by (rewrite E; now left). apply filter_In in I. destruct I as [I F]. split; auto. split; auto.
  intros y Iy Fy. assert (In y (filter f l)) as J by (apply filter_In; auto). rewrite E in J. destruct J as [J|[]]; auto.
Qed.
Lemma one_filter {A} (f : A -> bool) (l : list A) x : NoDup l -> In x l -> f x = true -> (forall y, In y l -> f y = true -> y = x) -> filter f l = [x].
Proof.
  induction l as [|a l IH]; intros N I F U; [destruct I|]. inversion N as [|? ? Na Nl]; subst. cbn [filter]. destruct I as [-> |I].
  - rewrite F. f_equal. destruct (filter f l) as [|b m] eqn:E; auto. exfalso. assert (In b (filter f l)) as J by (rewrite E; now left).
    apply filter_In in J. destruct J as [J Fb]. apply Na. rewrite <- (U b); auto. now right.
  - destruct (f a) eqn:Fa.
    + exfalso. apply Na. rewrite (U a); auto. now left.
    + apply IH; auto. intros y Iy. apply U. now right.
Qed.

Definition tab (T : table) (o : list opt) : Prop := map (fun x => (o_long x, o_takes x)) o = map (fun e => (lit (fst e), snd e)) T.
Definition fine (T : table) : Prop := NoDup (map fst T) /\ forall n, In n (map fst T) -> begins (lit "--") (lit n) /\ (forall c, In c (lit n) -> c <> ch_eq) /\ lit n <> lit "--".

Section TABLE.
Context (T : table) (o : list opt) (HT : tab T o) (FT : fine T) (two : exists n m, In n (map fst T) /\ In m (map fst T) /\ n <> m).

Lemma tab_in n b : In (n, b) T -> exists x, In x o /\ o_long x = lit n /\ o_takes x = b.
Proof.
  intros I. assert (In (lit n, b) (map (fun e => (lit (fst e), snd e)) T)) as J by (apply in_map_iff; exists (n, b); auto).
  rewrite <- HT in J. apply in_map_iff in J. destruct J as (x & E & J). injection E as E1 E2. eauto.
Qed.
Lemma tab_of x : In x o -> exists n, In (n, o_takes x) T /\ o_long x = lit n.
Proof.
  intros I. assert (In (o_long x, o_takes x) (map (fun x => (o_long x, o_takes x)) o)) as J by (apply in_map_iff; eauto).
  rewrite HT in J. apply in_map_iff in J. destruct J as ([n b] & E & J). cbn [fst snd] in E. injection E as E1 E2. exists n. rewrite <- E2. auto.
Qed.
Lemma NoDup_map_inj {A B} (f : A -> B) l : NoDup (map f l) -> NoDup l /\ forall x y, In x l -> In y l -> f x = f y -> x = y.
Proof.
  induction l as [|a l IH]; cbn [map]; intros N.
  - split; [constructor|]. intros x y [].
  - inversion N as [|? ? Na Nl]; subst. destruct (IH Nl) as [M U]. split.
    + constructor; auto. intros I. apply Na. now apply in_map.
    + intros x y [<-|I] [<-|J] E; auto; [exfalso; apply Na; rewrite E; now apply in_map|exfalso; apply Na; rewrite <- E; now apply in_map].
Qed.
Lemma longs : NoDup (map o_long o).
Proof.
  replace (map o_long o) with (map lit (map fst T)).
  - destruct FT as [N _]. clear -N. induction N as [|n l Nn N IH]; cbn [map]; constructor; auto. intros I. apply in_map_iff in I. destruct I as (m & E & I). apply lit_inj in E. now subst.
  - rewrite map_map. transitivity (map fst (map (fun e => (lit (fst e), snd e)) T)); [now rewrite map_map|]. rewrite <- HT, map_map. reflexivity.
Qed.
Lemma same_long x y : In x o -> In y o -> o_long x = o_long y -> x = y.
Proof. apply (proj2 (NoDup_map_inj o_long o longs)). Qed.
Lemma long_not_nil x : In x o -> o_long x <> [].
Proof. intros I E. destruct (tab_of x I) as (n & In' & L). destruct (proj2 FT n) as ([t B] & _); [now apply in_map with (f := fst) in In'|]. rewrite <- L, E in B. discriminate. Qed.
Lemma o_name_long x : In x o -> o_name x = o_long x.
Proof. intros I. unfold o_name. pose proof (long_not_nil x I). destruct (o_long x); congruence. Qed.
Definition similar (s : str) : list opt := match named o s with [] => prefixed o s | l => l end.
(** [s] names exactly one option of the table *)
Lemma similar_one s n b : In (n, b) T -> stands_for T s n -> exists x, similar s = [x] /\ In x o /\ o_long x = lit n /\ o_takes x = b.
Proof.
  intros I H. destruct (tab_in n b I) as (x & Ix & L & K). exists x. split; auto. unfold similar.
  pose proof (proj1 (NoDup_map_inj o_long o longs)) as ND.
  destruct H as [-> |(B & Ne & U)].
  - unfold named. rewrite (one_filter (fun y => str_eqb (o_long y) (lit n)) o x); auto.
    + rewrite L. apply str_eqb_eq. reflexivity.
    + intros y Iy E. apply str_eqb_eq in E. apply same_long; auto. congruence.
  - assert (named o s = []) as ->.
    { unfold named. destruct (filter _ o) as [|y r] eqn:E; auto. exfalso. assert (In y (filter (fun y => str_eqb (o_long y) s) o)) as J by (rewrite E; now left).
      apply filter_In in J. destruct J as [J E']. apply str_eqb_eq in E'. destruct (tab_of y J) as (m & Im & Lm). apply (Ne m); [now apply in_map with (f := fst) in Im|congruence]. }
    unfold prefixed. apply one_filter; auto.
    + pose proof (long_not_nil x Ix) as NN. destruct (o_long x) as [|c l] eqn:E; [congruence|]. apply prefix_begins. now rewrite L.
    + intros y Iy F. destruct (tab_of y Iy) as (m & Im & Lm). pose proof (long_not_nil y Iy) as NN. destruct (o_long y) as [|c l] eqn:E; [congruence|]. apply prefix_begins in F. rewrite Lm in F.
      assert (m = n) as -> by (apply U; auto; now apply in_map with (f := fst) in Im). apply same_long; auto. congruence.
Qed.
Lemma one_similar s x : similar s = [x] -> exists n, In (n, o_takes x) T /\ o_long x = lit n /\ stands_for T s n /\ In x o.
Proof.
  unfold similar. destruct (named o s) as [|y r] eqn:E.
  - intros P. apply filter_one in P. destruct P as (I & F & U). destruct (tab_of x I) as (n & In' & L). exists n. split; auto. split; auto. split; auto. right. split; [|split].
    + pose proof (long_not_nil x I) as NN. rewrite <- L. destruct (o_long x); [congruence|]. now apply prefix_begins.
    + intros m Im Em. apply in_map_iff in Im. destruct Im as ([m' b] & Em' & Im). cbn [fst] in Em'. subst m'. destruct (tab_in m b Im) as (z & Iz & Lz & _).
      assert (In z (named o s)) as J by (apply filter_In; split; auto; apply str_eqb_eq; congruence). rewrite E in J. destruct J.
    + intros m Im B. apply in_map_iff in Im. destruct Im as ([m' b] & Em' & Im). cbn [fst] in Em'. subst m'. destruct (tab_in m b Im) as (z & Iz & Lz & _).
      apply lit_inj. rewrite <- L, <- Lz. f_equal. apply U; auto. pose proof (long_not_nil z Iz) as NN. destruct (o_long z) eqn:Ez; [congruence|]. apply prefix_begins. now rewrite Lz.
  - intros P. injection P as -> ->. apply filter_one in E. destruct E as (I & F & U). apply str_eqb_eq in F. destruct (tab_of x I) as (n & In' & L). exists n. split; auto. split; auto. split; auto. left. congruence.
Qed.
Lemma dashes_not_one n b : In (n, b) T -> stands_for T (lit "--") n -> False.
Proof.
  intros I H. destruct two as (p & q & Ip & Iq & N). destruct H as [E|(_ & _ & U)].
  - apply (proj2 (proj2 (proj2 FT n (in_map fst T (n, b) I)))). congruence.
  - apply N. rewrite (U p Ip (proj1 (proj2 FT p Ip))), (U q Iq (proj1 (proj2 FT q Iq))). reflexivity.
Qed.

(** ** Reading the command line *)
Definition shows (i : item) (t : said) : Prop :=
  match i, t with
  | IWord w, Word v => w = v
  | IOpt x, Flag n => o_name x = lit n /\ o_value x = VBool true
  | IOpt x, Given n v => o_name x = lit n /\ o_value x = VStr v
  | _, _ => False
  end.
Lemma similar_argv s : match named o s with [] => if true then prefixed o s else [] | l => l end = similar s.
Proof. reflexivity. Qed.
Lemma parse_long_flag s n toks : an_option T s n false -> exists x, parse_long true s toks o = Some (x, toks, o) /\ shows (IOpt x) (Flag n).
Proof.
  intros (_ & I & St & P). unfold parse_long. rewrite (proj2 (partition_none s) P). rewrite similar_argv. destruct (similar_one s n false I St) as (x & -> & Ix & L & K). rewrite K. eexists. split; [reflexivity|].
  cbn [shows]. split; auto. unfold o_name. cbn [o_long o_short]. pose proof (o_name_long x Ix) as O. unfold o_name in O. rewrite O. auto.
Qed.
Lemma parse_long_joined s n v toks : an_option T s n true -> exists x, parse_long true (s ++ ch_eq :: v) toks o = Some (x, toks, o) /\ shows (IOpt x) (Given n v).
Proof.
  intros (_ & I & St & P). unfold parse_long. rewrite (partition_some s v P). rewrite similar_argv. destruct (similar_one s n true I St) as (x & -> & Ix & L & K). rewrite K. eexists. split; [reflexivity|].
  cbn [shows]. split; auto. unfold o_name. cbn [o_long o_short]. pose proof (o_name_long x Ix) as O. unfold o_name in O. rewrite O. auto.
Qed.
Lemma parse_long_apart s n v toks : an_option T s n true -> v <> [] -> v <> lit "--" -> exists x, parse_long true s (v :: toks) o = Some (x, toks, o) /\ shows (IOpt x) (Given n v).
Proof.
  intros (_ & I & St & P) V V'. unfold parse_long. rewrite (proj2 (partition_none s) P). rewrite similar_argv. destruct (similar_one s n true I St) as (x & -> & Ix & L & K). rewrite K.
  assert ((match v with [] => true | _ => false end) || str_eqb v dash2 = false) as ->.
  { apply Bool.orb_false_iff. split; [destruct v; congruence|]. apply Bool.not_true_iff_false. intros E. apply str_eqb_eq in E. now apply V'. }
  eexists. split; [reflexivity|].
  cbn [shows]. split; auto. unfold o_name. cbn [o_long o_short]. pose proof (o_name_long x Ix) as O. unfold o_name in O. rewrite O. auto.
Qed.
Lemma str_eqb_false a b : a <> b -> str_eqb a b = false.
Proof. intros N. apply Bool.not_true_iff_false. intros E. apply str_eqb_eq in E. auto. Qed.
Lemma words_shown ws : Forall2 shows (map IWord ws) (map Word ws).
Proof. induction ws; cbn [map]; constructor; auto. reflexivity. Qed.
Lemma no_equal_sign s v : (forall c, In c s -> c <> ch_eq) -> s ++ ch_eq :: v <> dash2.
Proof.
  intros _ E. assert (In ch_eq dash2) as I by (rewrite <- E; apply in_or_app; right; now left). destruct I as [I|[I|[]]]; discriminate.
Qed.
Lemma reads_parse ws l : reads T ws l -> forall fuel, length ws < fuel -> exists is, parse_argv fuel ws o = Some is /\ Forall2 shows is l.
Proof.
  induction 1 as [|ws|w ws l W R IH|s n ws l O R IH|s n v ws l O R IH|s n v ws l O V V' R IH]; intros fuel F; (destruct fuel as [|fuel]; [cbn [length] in F; lia|]); cbn [length] in F; cbn [parse_argv].
  - exists []. split; auto.
  - rewrite (proj2 (str_eqb_eq (lit "--") dash2) eq_refl). exists (map IWord (lit "--" :: ws)). split; auto. apply words_shown.
  - destruct (IH fuel) as (is & E & S); [lia|].
    assert (str_eqb w dash2 = false) as ->. { apply str_eqb_false. intros ->. destruct W as [W|W]; [apply W; exists (lit "-"); reflexivity|discriminate]. }
    assert (prefix_of dash2 w = false) as ->. { apply Bool.not_true_iff_false. intros B. apply prefix_begins in B. destruct B as [t ->]. destruct W as [W|W]; [apply W; exists (ch_dash :: t); reflexivity|discriminate]. }
    assert (prefix_of [ch_dash] w && negb (str_eqb w [ch_dash]) = false) as ->.
    { destruct W as [W| ->]; [|reflexivity]. apply Bool.andb_false_iff. left. apply Bool.not_true_iff_false. intros B. apply prefix_begins in B. auto. }
    rewrite E. exists (IWord w :: is). split; auto. constructor; auto. reflexivity.
  - destruct (IH fuel) as (is & E & S); [lia|]. destruct (parse_long_flag s n ws O) as (x & P & Sx). destruct O as (B & I & St & Q).
    rewrite str_eqb_false by (intros ->; now apply (dashes_not_one n false)). rewrite (proj2 (prefix_begins dash2 s) B), P, E. exists (IOpt x :: is). split; auto.
  - destruct (IH fuel) as (is & E & S); [lia|]. destruct (parse_long_joined s n v ws O) as (x & P & Sx). destruct O as ([t B] & I & St & Q).
    rewrite str_eqb_false by (now apply no_equal_sign). change "="%char with ch_eq. rewrite (proj2 (prefix_begins dash2 (s ++ ch_eq :: v))) by (exists (t ++ ch_eq :: v); rewrite B, <- app_assoc; reflexivity). rewrite P, E. exists (IOpt x :: is). split; auto.
  - destruct (IH fuel) as (is & E & S); [lia|]. destruct (parse_long_apart s n v ws O V V') as (x & P & Sx). destruct O as (B & I & St & Q).
    rewrite str_eqb_false by (intros ->; now apply (dashes_not_one n true)). rewrite (proj2 (prefix_begins dash2 s) B), P, E. exists (IOpt x :: is). split; auto.
Qed.
(** a line of which every option is in the table, and not the short one of help *)
Definition within (is : list item) : Prop := forall x, In (IOpt x) is -> exists n, In n (map fst T) /\ o_name x = lit n /\ n <> "--help"%string.
Context (shorts : forall x, In x o -> o_short x <> [] -> o_long x = lit "--help").
Lemma parse_shorts_out cs : forall toks o' xs r o'', parse_shorts true cs toks o' = Some (xs, r, o'') -> cs <> [] -> o' = o -> ~ within (map IOpt xs).
Proof.
  intros toks o' xs r o'' E N -> W. destruct cs as [|c cs]; [congruence|]. cbn [parse_shorts] in E.
  destruct (filter (fun x => str_eqb (o_short x) [ch_dash; c]) o) as [|x [|y m]] eqn:F; [| |discriminate].
  - destruct (parse_shorts true cs toks _) as [[[ys t] p]|]; [|discriminate]. injection E as <- _ _. destruct (W _ (or_introl eq_refl)) as (n & I & Nm & _). unfold o_name in Nm. cbn [o_long o_short] in Nm.
    destruct (proj2 FT n I) as ([t' B] & _). rewrite <- Nm in B. change (lit "--") with [ch_dash; ch_dash] in B. injection B as -> B.
    destruct (proj2 FT n I) as (_ & _ & D). apply D. rewrite <- Nm. reflexivity.
  - apply filter_one in F. destruct F as (I & Es & _). apply str_eqb_eq in Es. assert (o_long x = lit "--help") as L by (apply shorts; auto; congruence).
    assert (exists z ys, xs = z :: ys /\ o_name z = lit "--help") as (z & ys & -> & Nz).
    { destruct (o_takes x).
      - destruct cs as [|d cs].
        + destruct toks as [|t toks]; [discriminate|]. destruct (_ || _); [discriminate|]. injection E as <- _ _. eexists _, _. split; [reflexivity|]. unfold o_name. cbn [o_long o_short]. now rewrite L.
        + injection E as <- _ _. eexists _, _. split; [reflexivity|]. unfold o_name. cbn [o_long o_short]. now rewrite L.
      - destruct (parse_shorts true cs toks o) as [[[ys t] p]|]; [|discriminate]. injection E as <- _ _. eexists _, _. split; [reflexivity|]. unfold o_name. cbn [o_long o_short]. now rewrite L. }
    destruct (W z (or_introl eq_refl)) as (n & _ & Nm & H). apply H. apply lit_inj. congruence.
Qed.
Lemma within_tail i is : within (i :: is) -> within is.
Proof. intros H x I. apply H. now right. Qed.
Lemma parse_reads fuel : forall ws is, parse_argv fuel ws o = Some is -> within is -> exists l, reads T ws l /\ Forall2 shows is l.
Proof.
  induction fuel as [|fuel IH]; intros ws is E W; [discriminate|]. cbn [parse_argv] in E. destruct ws as [|t ws].
  - injection E as <-. exists []. split; constructor.
  - destruct (str_eqb t dash2) eqn:D.
    + apply str_eqb_eq in D. subst t. injection E as <-. exists (map Word (lit "--" :: ws)). split; [constructor|]. apply (words_shown (dash2 :: ws)).
    + destruct (prefix_of dash2 t) eqn:P.
      * destruct (parse_long true t ws o) as [[[x r] o']|] eqn:L; [|discriminate]. destruct (parse_argv fuel r o') as [js|] eqn:R; [|discriminate]. injection E as <-.
        destruct (W x (or_introl eq_refl)) as (n & In' & Nx & _). apply within_tail in W.
        unfold parse_long in L. destruct (partition_eq t) as [s v] eqn:Q. rewrite similar_argv in L.
        destruct (partition_inv t s v Q) as [Eq Et]. apply prefix_begins in P.
        destruct (similar s) as [|y [|z m]] eqn:Sm; [| |discriminate].
        -- exfalso. injection L as <- _ _. unfold o_name in Nx. cbn [o_long o_short] in Nx. assert (s = lit n) as -> by (destruct s; [|exact Nx]; exfalso; destruct (proj2 FT n In') as ([u B] & _); rewrite <- Nx in B; discriminate).
           apply in_map_iff in In'. destruct In' as ([n' b] & En & In'). cbn [fst] in En. subst n'. destruct (similar_one (lit n) n b In') as (x & Ex & _); [now left|]. congruence.
        -- destruct (one_similar s y Sm) as (m & Im & Lm & St & Iy). pose proof (o_name_long y Iy) as Oy. unfold o_name in Oy.
           assert (v = None -> begins (lit "--") s) as B1 by (intros ->; now rewrite <- Et).
           assert (forall u, v = Some u -> begins (lit "--") s) as B2.
           { intros u ->. rewrite Et in P. destruct P as [p P]. change (lit "--") with dash2. destruct s as [|c [|d s]]; cbn [app] in P.
             - discriminate.
             - exfalso. change dash2 with [ch_dash; ch_dash] in P. injection P as _ P. discriminate.
             - change dash2 with [ch_dash; ch_dash] in P. injection P as -> -> P. exists s. reflexivity. }
           destruct (o_takes y) eqn:Ky.
           ++ destruct v as [v|].
              ** injection L as <- <- <-. destruct (IH ws js R W) as (l & Rd & Sh). exists (Given m v :: l). rewrite Et. split; [apply reads_joined; auto; split; [eauto|auto]|].
                 constructor; auto. cbn [shows]. split; auto. unfold o_name. cbn [o_long o_short]. rewrite Oy. auto.
              ** destruct ws as [|u ws]; [discriminate|]. destruct (_ || _) eqn:OO; [discriminate|]. apply Bool.orb_false_iff in OO. destruct OO as [O1 O2]. injection L as <- <- <-. destruct (IH ws js R W) as (l & Rd & Sh). exists (Given m u :: l). rewrite Et. split.
                 --- apply reads_apart; auto; [split; [auto|auto]| |]; [intros ->; discriminate|]. intros ->. change (str_eqb (lit "--") dash2) with true in O2. discriminate.
                 --- constructor; auto. cbn [shows]. split; auto. unfold o_name. cbn [o_long o_short]. rewrite Oy. auto.
           ++ destruct v as [v|]; [discriminate|]. injection L as <- <- <-. destruct (IH ws js R W) as (l & Rd & Sh). exists (Flag m :: l). rewrite Et. split; [apply reads_flag; auto; split; [auto|auto]|].
              constructor; auto. cbn [shows]. split; auto. unfold o_name. cbn [o_long o_short]. rewrite Oy. auto.
      * destruct (prefix_of [ch_dash] t && negb (str_eqb t [ch_dash])) eqn:P1.
        -- exfalso. apply Bool.andb_true_iff in P1. destruct P1 as [P1 P2]. apply prefix_begins in P1. destruct P1 as [u ->]. cbn [app tl] in *.
           destruct (parse_shorts true u ws o) as [[[xs r] o']|] eqn:L; [|discriminate]. destruct (parse_argv fuel r o') as [js|]; [|discriminate]. injection E as <-.
           apply (parse_shorts_out u ws o xs r o' L); auto.
           ++ intros ->. change (str_eqb [ch_dash] [ch_dash]) with true in P2. discriminate.
           ++ intros x I. apply W. apply in_or_app. now left.
        -- destruct (parse_argv fuel ws o) as [js|] eqn:R; [|discriminate]. injection E as <-. apply within_tail in W. destruct (IH ws js R W) as (l & Rd & Sh). exists (Word t :: l). split.
           ++ apply reads_word; auto. apply Bool.andb_false_iff in P1. destruct P1 as [P1|P1].
              ** left. intros B. apply prefix_begins in B. change (lit "-") with [ch_dash] in B. congruence.
              ** right. apply Bool.negb_false_iff, str_eqb_eq in P1. auto.
           ++ constructor; auto. reflexivity.
Qed.
End TABLE.

(** ** Matching *)
Fixpoint words_in (l : list item) : list str := match l with [] => [] | IWord w :: l => w :: words_in l | _ :: l => words_in l end.
Fixpoint onames (l : list item) : list str := match l with [] => [] | IWord _ :: l => onames l | IOpt x :: l => o_name x :: onames l end.
Fixpoint olook (n : str) (l : list item) : option value :=
  match l with [] => None | IWord _ :: l => olook n l | IOpt x :: l => if str_eqb (o_name x) n then Some (o_value x) else olook n l end.
Fixpoint odrop (n : str) (l : list item) : list item :=
  match l with [] => [] | IWord w :: l => IWord w :: odrop n l | IOpt x :: l => if str_eqb (o_name x) n then l else IOpt x :: odrop n l end.
Fixpoint wdrop (l : list item) : list item := match l with [] => [] | IWord w :: l => l | i :: l => i :: wdrop l end.
Lemma take_opt_eq n l : take_opt_item n l = option_map (fun v => (v, odrop n l)) (olook n l).
Proof.
  induction l as [|[w|x] l IH]; cbn [take_opt_item olook odrop]; auto.
  - rewrite IH. now destruct (olook n l).
  - destruct (str_eqb (o_name x) n); auto. rewrite IH. now destruct (olook n l).
Qed.
Lemma take_word_eq l : take_word_item l = match words_in l with [] => None | w :: _ => Some (w, wdrop l) end.
Proof.
  induction l as [|[w|x] l IH]; cbn [take_word_item words_in wdrop]; auto. rewrite IH. now destruct (words_in l).
Qed.
Lemma words_odrop n l : words_in (odrop n l) = words_in l.
Proof. induction l as [|[w|x] l IH]; cbn [odrop words_in]; auto; [now rewrite IH|]. destruct (str_eqb _ _); auto. Qed.
Lemma words_wdrop l : words_in (wdrop l) = tl (words_in l).
Proof. induction l as [|[w|x] l IH]; cbn [wdrop words_in tl]; auto. Qed.
Lemma olook_wdrop n l : olook n (wdrop l) = olook n l.
Proof. induction l as [|[w|x] l IH]; cbn [wdrop olook]; auto. now rewrite IH. Qed.
Lemma olook_odrop n m l : n <> m -> olook n (odrop m l) = olook n l.
Proof.
  intros N. induction l as [|[w|x] l IH]; cbn [odrop olook]; auto. destruct (str_eqb (o_name x) m) eqn:E.
  - apply str_eqb_eq in E. rewrite E, str_eqb_false; auto.
  - cbn [olook]. now rewrite IH.
Qed.
Fixpoint remove1 (n : str) (l : list str) : list str := match l with [] => [] | a :: l => if str_eqb a n then l else a :: remove1 n l end.
Lemma onames_odrop n l : onames (odrop n l) = remove1 n (onames l).
Proof. induction l as [|[w|x] l IH]; cbn [odrop onames remove1]; auto. destruct (str_eqb _ _); auto. cbn [onames]. now rewrite IH. Qed.
Lemma onames_wdrop l : onames (wdrop l) = onames l.
Proof. induction l as [|[w|x] l IH]; cbn [wdrop onames]; auto. now rewrite IH. Qed.
Lemma odrop_none n l : olook n l = None -> odrop n l = l.
Proof. induction l as [|[w|x] l IH]; cbn [odrop olook]; intros E; auto; [now rewrite IH|]. destruct (str_eqb _ _); [discriminate|]. now rewrite IH. Qed.
Lemma nothing_left l : l = [] <-> words_in l = [] /\ onames l = [].
Proof. destruct l as [|[w|x] l]; cbn [words_in onames]; split; intros H; try discriminate; auto; destruct H; discriminate. Qed.
Definition remove_all (ns l : list str) : list str := fold_left (fun l n => remove1 n l) ns l.
Lemma remove1_in a n l : a <> n -> In a l -> In a (remove1 n l).
Proof. intros N. induction l as [|b l IH]; cbn [remove1]; intros I; auto. destruct (str_eqb b n) eqn:E; destruct I as [<-|I]; auto; [apply str_eqb_eq in E; congruence|now left|right; auto]. Qed.
Lemma in_remove1 a n l : In a (remove1 n l) -> In a l.
Proof. induction l as [|b l IH]; cbn [remove1]; auto. destruct (str_eqb b n); intros I; [now right|]. destruct I as [<-|I]; [now left|right; auto]. Qed.
Lemma remove1_not_in n l : ~ In n l -> remove1 n l = l.
Proof. induction l as [|b l IH]; cbn [remove1]; intros I; auto. rewrite str_eqb_false by (intros ->; apply I; now left). rewrite IH; auto. intros J. apply I. now right. Qed.
Lemma remove1_perm n l : In n l -> exists a b, l = a ++ n :: b /\ remove1 n l = a ++ b /\ ~ In n a.
Proof.
  induction l as [|c l IH]; cbn [remove1]; intros I; [destruct I|]. destruct (str_eqb c n) eqn:E.
  - apply str_eqb_eq in E. subst c. exists [], l. split; auto.
  - destruct I as [-> |I]; [exfalso; rewrite (proj2 (str_eqb_eq n n) eq_refl) in E; discriminate|]. destruct (IH I) as (a & b & -> & R & N). exists (c :: a), b. rewrite R. split; auto. split; auto.
    intros [-> |J]; auto. rewrite (proj2 (str_eqb_eq n n) eq_refl) in E. discriminate.
Qed.
Lemma remove_all_nil ns : forall l, NoDup ns -> (remove_all ns l = [] <-> NoDup l /\ incl l ns).
Proof.
  induction ns as [|n ns IH]; intros l Nd; cbn [remove_all fold_left].
  - split; [intros ->; split; [constructor|apply incl_refl]|]. intros [_ I]. destruct l as [|a l]; auto. exfalso. exact (I a (or_introl eq_refl)).
  - inversion Nd as [|? ? Nn Nd']; subst. fold (remove_all ns (remove1 n l)). rewrite (IH _ Nd'). destruct (in_dec (list_eq_dec Ascii.ascii_dec) n l) as [I|I].
    + destruct (remove1_perm n l I) as (a & b & -> & -> & Na). split.
      * intros [N C]. split.
        -- apply NoDup_Add with (a := n) (l := a ++ b); [apply Add_app|]. split; auto.
        -- intros c J. apply in_app_or in J. destruct J as [J|[<-|J]]; [right; apply C; apply in_or_app; auto|now left|right; apply C; apply in_or_app; auto].
      * intros [N C]. split; [now apply NoDup_remove_1 in N|]. apply NoDup_remove_2 in N. intros c J. destruct (C c) as [<-|K]; auto; [|contradiction]. apply in_app_or in J. apply in_or_app. destruct J; [now left|right; now right].
    + rewrite remove1_not_in; auto. split; intros [N C]; split; auto; intros c J; [right; auto|]. destruct (C c J) as [<-|K]; auto. contradiction.
Qed.

(** what the items show *)
Lemma shows_words is l : Forall2 shows is l -> words_in is = words_said l.
Proof. induction 1 as [|i t is l S F IH]; auto. destruct i as [w|x], t as [v|n|n v]; cbn [shows] in S; try contradiction; cbn [words_in words_said]; congruence. Qed.
Lemma shows_names is l : Forall2 shows is l -> onames is = map lit (options_said l).
Proof. induction 1 as [|i t is l S F IH]; auto. destruct i as [w|x], t as [v|n|n v]; cbn [shows] in S; try contradiction; cbn [onames options_said map]; destruct S; congruence. Qed.
Lemma NoDup_lit l : NoDup (map lit l) <-> NoDup l.
Proof.
  split; intros H.
  - now apply NoDup_map_inv in H.
  - induction H as [|a l N H IH]; cbn [map]; constructor; auto. intros I. apply in_map_iff in I. destruct I as (b & E & I). apply lit_inj in E. now subst.
Qed.
Lemma incl_lit l m : incl (map lit l) (map lit m) <-> incl l m.
Proof.
  split; intros H a I.
  - assert (In (lit a) (map lit m)) as J by (apply H; now apply in_map). apply in_map_iff in J. destruct J as (b & E & J). apply lit_inj in E. now subst.
  - apply in_map_iff in I. destruct I as (b & <- & I). apply in_map. auto.
Qed.
(** the value an option has, when each is said once *)
Definition of_kind (T : table) (l : list said) : Prop := forall t, In t l -> match t with Word _ => True | Flag n => In (n, false) T | Given n _ => In (n, true) T end.
Lemma reads_kind T ws l : reads T ws l -> of_kind T l.
Proof.
  induction 1 as [|ws|w ws l W R IH|s n ws l O R IH|s n v ws l O R IH|s n v ws l O V V' R IH]; intros t I; try (destruct I as [<-|I]; [|now apply IH]); try exact Logic.I; try (now destruct O as (_ & O & _)).
  - destruct I.
  - apply in_map_iff in I. destruct I as (w & <- & _). exact Logic.I.
Qed.
Lemma look_flag T is l n : Forall2 shows is l -> of_kind T l -> (forall b, In (n, b) T -> b = false) ->
  olook (lit n) is = None /\ ~ In (Flag n) l \/ olook (lit n) is = Some (VBool true) /\ In (Flag n) l.
Proof.
  intros F K B. induction F as [|i t is l S F IH]; cbn [olook]; [left; split; auto|].
  destruct IH as [[L N]|[L N]]; [intros u I; apply K; now right| |].
  - destruct i as [w|x], t as [v|m|m v]; cbn [shows] in S; try contradiction.
    + left. split; auto. intros [D|I]; [discriminate|auto].
    + destruct S as [S1 S2]. rewrite S1. destruct (str_eqb (lit m) (lit n)) eqn:E.
      * apply str_eqb_eq, lit_inj in E. subst m. right. rewrite S2. split; auto. now left.
      * left. split; auto. intros [D|I]; auto. injection D as ->. rewrite (proj2 (str_eqb_eq (lit n) (lit n)) eq_refl) in E. discriminate.
    + destruct S as [S1 S2]. rewrite S1. destruct (str_eqb (lit m) (lit n)) eqn:E.
      * apply str_eqb_eq, lit_inj in E. subst m. specialize (K (Given n v) (or_introl eq_refl)). cbn in K. now apply B in K.
      * left. split; auto. intros [D|I]; auto. discriminate.
  - destruct i as [w|x], t as [v|m|m v]; cbn [shows] in S; try contradiction.
    + right. split; auto. now right.
    + destruct S as [S1 S2]. right. split; [|now right]. destruct (str_eqb _ _); congruence.
    + destruct S as [S1 S2]. right. split; [|now right]. rewrite S1. destruct (str_eqb (lit m) (lit n)) eqn:E; auto.
      apply str_eqb_eq, lit_inj in E. subst m. specialize (K (Given n v) (or_introl eq_refl)). cbn in K. now apply B in K.
Qed.
Lemma in_options n l : In n (options_said l) <-> In (Flag n) l \/ exists v, In (Given n v) l.
Proof.
  induction l as [|[w|m|m v] l IH]; cbn [options_said In].
  - split; [intros []|intros [[]|[v []]]].
  - rewrite IH. split; [intros [H|[v H]]; [auto|right; eauto]|]. intros [[H|H]|[v [H|H]]]; try discriminate; eauto.
  - rewrite IH. split.
    + intros [<-|[H|[v H]]]; [auto|auto|right; eauto].
    + intros [[H|H]|[v [H|H]]]; [left; congruence|auto|discriminate|right; right; eauto].
  - rewrite IH. split.
    + intros [<-|[H|[u H]]]; [right; eauto|auto|right; eauto].
    + intros [[H|H]|[u [H|H]]]; [discriminate|auto|left; congruence|right; right; eauto].
Qed.
Lemma look_given T is l n : Forall2 shows is l -> of_kind T l -> (forall b, In (n, b) T -> b = true) -> NoDup (options_said l) ->
  olook (lit n) is = None /\ (forall v, ~ In (Given n v) l) \/ exists s, olook (lit n) is = Some (VStr s) /\ forall v, In (Given n v) l <-> v = s.
Proof.
  intros F K B. induction F as [|i t is l S F IH]; intros Nd; cbn [olook]; [left; split; auto|].
  assert (NoDup (options_said l)) as Nd' by (destruct t; cbn [options_said] in Nd; auto; now inversion Nd).
  destruct IH as [[L N]|(s & L & N)]; auto; [intros u I; apply K; now right| |].
  - destruct i as [w|x], t as [u|m|m u]; cbn [shows] in S; try contradiction.
    + left. split; auto. intros v [D|I]; [discriminate|]. now apply (N v).
    + destruct S as [S1 S2]. rewrite S1. destruct (str_eqb (lit m) (lit n)) eqn:E.
      * apply str_eqb_eq, lit_inj in E. subst m. specialize (K (Flag n) (or_introl eq_refl)). cbn in K. now apply B in K.
      * left. split; auto. intros v [D|I]; [discriminate|]. now apply (N v).
    + destruct S as [S1 S2]. rewrite S1. destruct (str_eqb (lit m) (lit n)) eqn:E.
      * apply str_eqb_eq, lit_inj in E. subst m. right. exists u. rewrite S2. split; auto. intros v. split; [|intros ->; now left]. intros [D|I]; [congruence|]. now apply N in I.
      * left. split; auto. intros v [D|I]; [|now apply (N v)]. injection D as -> _. rewrite (proj2 (str_eqb_eq (lit n) (lit n)) eq_refl) in E. discriminate.
  - destruct i as [w|x], t as [u|m|m u]; cbn [shows] in S; try contradiction.
    + right. exists s. split; auto. intros v. rewrite <- N. split; [intros [D|I]; [discriminate|auto]|now right].
    + destruct S as [S1 S2]. rewrite S1. destruct (str_eqb (lit m) (lit n)) eqn:E.
      * apply str_eqb_eq, lit_inj in E. subst m. specialize (K (Flag n) (or_introl eq_refl)). cbn in K. now apply B in K.
      * right. exists s. split; auto. intros v. rewrite <- N. split; [intros [D|I]; [discriminate|auto]|now right].
    + destruct S as [S1 S2]. rewrite S1. destruct (str_eqb (lit m) (lit n)) eqn:E.
      * exfalso. apply str_eqb_eq, lit_inj in E. subst m. cbn [options_said] in Nd. inversion Nd as [|? ? Nn _]; subst. apply Nn. apply in_options. right. exists s. now apply N.
      * right. exists s. split; auto. intros v. rewrite <- N. split; [|now right]. intros [D|I]; [|auto]. injection D as -> _. rewrite (proj2 (str_eqb_eq (lit n) (lit n)) eq_refl) in E. discriminate.
Qed.
