(** * Theorems on command lines: C96 (cityformat). *)
From Coq Require Import Strings.String Lia.
From Verif Require Import Base Dbl Geom Decimal Shadow Streams Handlers Surface Projection Raster Spec_text Spec_io Cli Spec_cli Docopt Spec_line Handlers_proofs Docopt_proofs Line_proofs Exit_proofs Props_cli Ortho_line Format_line Props_line.
Import List.
Open Scope nat_scope.

Lemma format_reads argv l : reads format_table argv l -> exists is, parse_argv (S (length argv)) argv format_o = Some is /\ Forall2 shows is l.
Proof. intros R. apply (reads_parse format_table format_o format_tab format_fine format_two argv l R). lia. Qed.
Lemma format_reads_fun argv l l' : reads format_table argv l -> reads format_table argv l' -> l = l'.
Proof. intros R R'. destruct (format_reads _ _ R) as (is & P & F). destruct (format_reads _ _ R') as (is' & P' & F'). assert (is = is') as <- by congruence. exact (shows_all_fun _ _ _ F F'). Qed.
Lemma format_docopt argv : docopt format_usage argv =
  match parse_argv (S (length argv)) argv format_o with
  | None => PExit (-1)
  | Some l => if opt_set (lit "--help") l || opt_set (lit "-h") l then PExit 0 else if opt_set (lit "--version") l then PExit 0 else
      match pmatch format_q (l, []) with Some ([], c) => PArgs (rev c ++ leaf_defaults format_q) | _ => PExit (-1) end
  end.
Proof. unfold docopt. rewrite format_pattern. reflexivity. Qed.
Lemma format_run is l : Forall2 shows is l -> of_kind format_table l -> forall r, format_line l r ->
  pmatch format_q (is, []) = Some ([], format_got is (rf_scene r) (VStr (rf_format r))) /\ (exists rest, words_in is = rf_scene r :: rest /\ out_words rest (rf_out r)) /\ olook (lit "--formats") is = None.
Proof.
  intros F K r H. destruct (fl_words l r H) as (rest & W & O). change (out_words rest (rf_out r)) in O. pose proof (shows_words is l F) as W'. rewrite W in W'.
  assert (forall n, ~ In n format_options -> olook (lit n) is = None) as Nn.
  { intros n N. apply olook_in. rewrite (said_names is l _ F). intros I. apply N. exact (fl_known l r H n I). }
  assert (olook (lit "--formats") is = None) as Nf by (apply Nn; cbn [In format_options]; intuition discriminate).
  split; [|split; eauto]. rewrite format_only by (apply Nn; cbn [In format_options]; intuition discriminate). rewrite formats_match, Nf, best_none, format_match, W'.
  destruct (value_given l "--input-format" format_table is F K (proj1 format_fine)) as (v & G & L); [cbn; tauto|exact (fl_once l r H)|].
  rewrite (gave_fun _ _ _ _ G (fl_format l r H)) in L. rewrite L. cbn [option_map]. f_equal. f_equal. apply format_left_nil. rewrite W'. cbn [tl]. split; [eauto|].
  rewrite (shows_names is l F). split; [apply NoDup_lit, (fl_once l r H)|apply incl_lit, (fl_known l r H)].
Qed.
Lemma format_asked is l : Forall2 shows is l -> of_kind format_table l -> forall c, pmatch format_alt (is, []) = Some ([], c) -> exists r, format_line l r.
Proof.
  intros F K c M. rewrite format_match in M. pose proof (shows_words is l F) as W. destruct (words_in is) as [|w ws] eqn:Ew; [discriminate|]. destruct (olook (lit "--input-format") is) as [v|] eqn:Ev; [|discriminate].
  injection M as M _. apply format_left_nil in M. rewrite Ew in M. cbn [tl] in M. destruct M as ((out & Ws) & Nd & In'). rewrite (shows_names is l F) in Nd, In'. apply NoDup_lit in Nd. apply incl_lit in In'.
  pose proof (proj1 format_fine) as N.
  destruct (value_given l "--input-format" format_table is F K N) as (f & Gf & Lf); [cbn; tauto|exact Nd|]. rewrite Ev in Lf. destruct f as [f|]; [|discriminate].
  destruct (value_given l "--output-format" format_table is F K N) as (of & Go & Lo); [cbn; tauto|exact Nd|].
  destruct (flag_said l "--prune" format_table is F K N) as (b1 & S1 & _); [cbn; tauto|].
  destruct (flag_said l "--graphs" format_table is F K N) as (b2 & S2 & _); [cbn; tauto|].
  destruct (flag_said l "--terrain" format_table is F K N) as (b3 & S3 & _); [cbn; tauto|].
  exists (mkFormatReq w f b1 b2 b3 out of). constructor; cbn [rf_scene rf_format rf_prune rf_graphs rf_terrain rf_out rf_outfmt]; auto. exists ws. split; [now rewrite <- W|exact Ws].
Qed.
Lemma format_accepts argv l r : reads format_table argv l -> format_line l r -> exists is rest, Forall2 shows is l /\
  docopt format_usage argv = PArgs (rev (format_got is (rf_scene r) (VStr (rf_format r))) ++ leaf_defaults format_q) /\
  words_in is = rf_scene r :: rest /\ out_words rest (rf_out r) /\ olook (lit "--formats") is = None.
Proof.
  intros R H. destruct (format_reads argv l R) as (is & P & F). destruct (format_run is l F (reads_kind _ _ _ R) r H) as (M & (rest & W & O) & Nf). exists is, rest. split; auto. rewrite format_docopt, P.
  split; auto.
  assert (incl (onames is) (map lit format_options)) as I by (rewrite (shows_names is l F); apply incl_lit, (fl_known l r H)).
  rewrite !(not_known is format_options) by (auto; cbn [In format_options]; intuition discriminate). cbn [orb]. now rewrite M.
Qed.
Lemma formats_accepts argv : reads format_table argv [Flag "--formats"] -> docopt format_usage argv = PArgs ((lit "--formats", VBool true) :: leaf_defaults format_q).
Proof.
  intros R. destruct (format_reads argv _ R) as (is & P & F). rewrite format_docopt, P. inversion F as [|i t is' l' Sh F']; subst. inversion F'; subst. destruct i as [w|x]; [destruct Sh|]. destruct Sh as [Nx Vx].
  assert (onames [IOpt x] = [lit "--formats"]) as On by (cbn [onames]; now rewrite Nx).
  assert (forall n, n <> "--formats"%string -> ~ In (lit n) (onames [IOpt x])) as Nn by (intros n D; rewrite On; intros [E|[]]; apply lit_inj in E; congruence).
  rewrite !(proj2 (opt_set_names _ _)) by (apply Nn; discriminate). cbn [orb].
  rewrite format_only by (apply olook_in, Nn; discriminate). rewrite format_match. cbn [words_in]. rewrite formats_match. cbn [olook odrop best]. rewrite Nx, (proj2 (str_eqb_eq _ _) eq_refl), Vx. reflexivity.
Qed.
(** *** The line is accepted exactly when it asks for a conversion or for the formats *)
Theorem C96_line : forall argv, (exists m, docopt format_usage argv = PArgs m) <-> reads format_table argv [Flag "--formats"] \/ exists l r, reads format_table argv l /\ format_line l r.
Proof.
  intros argv. split.
  - intros [m E]. rewrite format_docopt in E. destruct (parse_argv (S (length argv)) argv format_o) as [is|] eqn:P; [|discriminate].
    destruct (opt_set (lit "--help") is) eqn:Hh; [discriminate|]. destruct (opt_set (lit "-h") is) eqn:Hs; [discriminate|]. cbn [orb] in E. destruct (opt_set (lit "--version") is) eqn:Hv; [discriminate|].
    apply opt_set_names, olook_in in Hh, Hv. rewrite (format_only is Hh Hv) in E.
    assert ((exists c, pmatch format_alt (is, []) = Some ([], c)) \/ exists c, pmatch formats_alt (is, []) = Some ([], c)) as [[c M]|[c M]].
    { destruct (pmatch format_alt (is, [])) as [[a c]|], (pmatch formats_alt (is, [])) as [[b d]|]; cbn [best fst] in E; try discriminate.
      - destruct (length b <? length a).
        + destruct b; [|discriminate]. eauto.
        + destruct a; [|discriminate]. eauto.
      - destruct a; [|discriminate]. eauto.
      - destruct b; [|discriminate]. eauto. }
    + right. assert (incl (onames is) (map lit format_options)) as I.
      { rewrite format_match in M. destruct (words_in is); [discriminate|]. destruct (olook (lit "--input-format") is); [|discriminate]. injection M as M _. apply format_left_nil in M. apply M. }
      destruct (parse_reads format_table format_o format_tab format_fine format_short (S (length argv)) argv is P) as (l & R & F).
      { intros x Ix. apply item_name in Ix. apply I in Ix. apply in_map_iff in Ix. destruct Ix as (n & En & J). exists n. split; [|split; [auto|]].
        - cbn [format_options In] in J. cbn [map fst format_table In]. tauto.
        - intros ->. cbn [format_options In] in J. intuition discriminate. }
      destruct (format_asked is l F (reads_kind _ _ _ R) c M) as (r & H). exists l, r. auto.
    + left. rewrite formats_match in M. destruct (olook (lit "--formats") is) as [v|] eqn:L; [|discriminate]. injection M as M _.
      apply nothing_left in M. rewrite words_odrop, onames_odrop in M. destruct M as [Mw Mo].
      assert (remove_all [lit "--formats"] (onames is) = []) as Ra by exact Mo. apply remove_all_nil in Ra; [|repeat constructor; intros []]. destruct Ra as [Nd In'].
      destruct (parse_reads format_table format_o format_tab format_fine format_short (S (length argv)) argv is P) as (l & R & F).
      { intros x Ix. apply item_name in Ix. apply In' in Ix. destruct Ix as [Ix|[]]. exists "--formats"%string. split; [cbn; tauto|]. split; [auto|discriminate]. }
      assert (l = [Flag "--formats"]) as ->; [|exact R].
      assert (words_said l = []) as Wl by (rewrite <- (shows_words is l F); exact Mw).
      assert (options_said l = ["--formats"%string]) as Ol.
      { assert (NoDup (options_said l) /\ incl (options_said l) ["--formats"%string]) as [Nd' In''].
        { rewrite (shows_names is l F) in Nd, In'. split; [now apply NoDup_lit|]. apply incl_lit. exact In'. }
        assert (In "--formats"%string (options_said l)) as I by (rewrite <- (said_names is l _ F); destruct (in_dec (list_eq_dec Ascii.ascii_dec) (lit "--formats") (onames is)) as [I|I]; [exact I|]; apply olook_in in I; congruence).
        destruct (options_said l) as [|a [|b o]]; [destruct I|destruct I as [->|[]]; reflexivity|]. exfalso. inversion Nd' as [|? ? N1 _]; subst. apply N1.
        pose proof (In'' a (or_introl eq_refl)) as [<-|[]]. pose proof (In'' b (or_intror (or_introl eq_refl))) as [<-|[]]. now left. }
      pose proof (reads_kind _ _ _ R) as K.
      destruct l as [|[w|n|n u] l]; cbn [words_said options_said] in Wl, Ol; try discriminate; injection Ol as -> Ol.
      * destruct l as [|[w'|n'|n' u'] l]; cbn [words_said options_said] in Wl, Ol; try discriminate. reflexivity.
      * exfalso. pose proof (K _ (or_introl eq_refl)) as B. cbn in B. intuition discriminate.
  - intros [R|(l & r & R & H)]; [rewrite (formats_accepts argv R); eauto|]. destruct (format_accepts argv l r R H) as (is & rest & _ & E & _). eauto.
Qed.
(** *** and gives the program what was asked *)
Lemma format_answers argv l r : reads format_table argv l -> format_line l r -> exists m, docopt format_usage argv = PArgs m /\
  flag m "--formats" false /\ word m "<scene>" (rf_scene r) /\ word m "--input-format" (rf_format r) /\ flag m "--prune" (rf_prune r) /\ flag m "--graphs" (rf_graphs r) /\ flag m "--terrain" (rf_terrain r) /\
  gives m "<path>" (match rf_out r with Some p => VStr p | None => VNone end) /\ gives m "--output-format" (match rf_outfmt r with Some f => VStr f | None => VNone end).
Proof.
  intros R H. destruct (format_accepts argv l r R H) as (is & rest & F & E & W & O & Nf). eexists. split; [exact E|]. clear E.
  pose proof (reads_kind _ _ _ R) as K. pose proof (proj1 format_fine) as N.
  destruct (format_map_holds (leaf_defaults format_q) is (rf_scene r) (VStr (rf_format r)) rest (rf_out r) format_defaults W O Nf) as (Lf & Ls & Li & Lp & Lo).
  set (m := rev (format_got is (rf_scene r) (VStr (rf_format r))) ++ leaf_defaults format_q) in *. clearbody m.
  assert (forall n b, In n ["--prune"; "--graphs"; "--terrain"; "--formats"]%string -> In (n, false) format_table -> says l n b -> flag m n b) as Fl.
  { intros n b I It S. apply lookup_gives. rewrite (Lf n I). destruct (flag_said l n format_table is F K N It) as (b' & S' & ->). now rewrite (says_fun _ _ _ _ S S'). }
  destruct (value_given l "--output-format" format_table is F K N) as (of & Gp & Ep); [cbn; tauto|exact (fl_once l r H)|]. rewrite (gave_fun _ _ _ _ Gp (fl_outfmt l r H)) in Ep. rewrite Ep in Lo.
  split; [apply lookup_gives; rewrite (Lf "--formats"%string) by (cbn; tauto); now rewrite Nf|].
  split; [now apply lookup_gives|]. split; [now apply lookup_gives|].
  split; [apply Fl; [cbn; tauto|cbn; tauto|apply H]|]. split; [apply Fl; [cbn; tauto|cbn; tauto|apply H]|]. split; [apply Fl; [cbn; tauto|cbn; tauto|apply H]|]. split; [now apply lookup_gives|].
  apply lookup_gives. rewrite Lo. destruct (rf_outfmt r); reflexivity.
Qed.
Theorem C96_arguments : forall argv l r, reads format_table argv l -> format_line l r ->
  exists m, docopt format_usage argv = PArgs m /\ flag m "--formats" false /\ forall a, format_given m a <-> format_wants r a.
Proof.
  intros argv l r R H. destruct (format_answers argv l r R H) as (m & E & Ff & Ls & Li & F1 & F2 & F3 & Gp & Go). exists m. split; auto. split; auto. intros a. unfold format_wants.
  destruct a as [p f pr g t o of]. cbn [fa_path fa_format fa_prune fa_graphs fa_terrain fa_out fa_outfmt]. split.
  - intros [_ (s & Ws & P) Hf Hp Hg Ht (s' & Wo & Po) Hof]. cbn [fa_path fa_format fa_prune fa_graphs fa_terrain fa_out fa_outfmt] in *.
    pose proof (gives_fun _ _ _ _ Ws Ls). pose proof (gives_fun _ _ _ _ Hf Li). pose proof (gives_fun _ _ _ _ Hp F1). pose proof (gives_fun _ _ _ _ Hg F2). pose proof (gives_fun _ _ _ _ Ht F3).
    pose proof (gives_fun _ _ _ _ Wo Gp) as Q. pose proof (gives_fun _ _ _ _ Hof Go) as Q'.
    split; [congruence|]. do 4 (split; [congruence|]). split.
    + destruct (rf_out r) as [q|]; [|discriminate]. exists q. split; auto. congruence.
    + destruct (rf_outfmt r); congruence.
  - intros (-> & -> & -> & -> & -> & (q & Eq & ->) & Eo). rewrite Eq in Gp. rewrite Eo in Go. constructor; cbn [fa_path fa_format fa_prune fa_graphs fa_terrain fa_out fa_outfmt]; eauto.
Qed.
Theorem C96_one_reading : forall argv l l' r r', reads format_table argv l -> reads format_table argv l' -> format_line l r -> format_line l' r' -> l = l' /\ r = r'.
Proof.
  intros argv l l' r r' R R' H H'. assert (l = l') as <- by exact (format_reads_fun argv l l' R R').
  split; auto. destruct r as [a b c d e f g], r' as [a' b' c' d' e' f' g']. destruct H as [W _ _ H1 H2 H3 H4 H5], H' as [W' _ _ H1' H2' H3' H4' H5'].
  cbn [rf_scene rf_format rf_prune rf_graphs rf_terrain rf_out rf_outfmt] in *. destruct W as (rest & W & O), W' as (rest' & W' & O'). rewrite W in W'. injection W' as <- <-.
  change (out_words rest f) in O. change (out_words rest f') in O'. rewrite (out_words_fun _ _ _ O O').
  rewrite (says_fun _ _ _ _ H2 H2'), (says_fun _ _ _ _ H3 H3'), (says_fun _ _ _ _ H4 H4'), (gave_fun _ _ _ _ H5 H5'). pose proof (gave_fun _ _ _ _ H1 H1') as Q. injection Q as ->. reflexivity.
Qed.
(** *** What happens otherwise *)
(** every line that is not accepted ends with -1, unless a word asks for help or the version *)
Lemma format_grown : grown format_o format_o.
Proof.
  split; [exists []; now rewrite app_nil_r|]. intros y I _. destruct (o_short y) as [|c s] eqn:E; auto. right.
  assert (forallb (fun y => match o_short y with [] => true | t => str_eqb t (lit "-h") end) format_o = true) as H by (vm_compute; reflexivity). rewrite forallb_forall in H. specialize (H y I). rewrite E in H. now apply str_eqb_eq in H.
Qed.
Lemma format_several : 2 <= length (filter (fun x => prefix_of dash2 (o_long x)) format_o).
Proof. apply Nat.leb_le. vm_compute. reflexivity. Qed.
Theorem C96_status : forall argv c, docopt format_usage argv = PExit c -> c = (-1)%Z \/ (c = 0%Z /\ exists s, In s argv /\ asks_help s).
Proof.
  intros argv c. rewrite format_docopt. destruct (parse_argv _ _ _) as [is|] eqn:P; [|intros E; injection E; auto].
  assert (forall n, hv (lit n) -> opt_set (lit n) is = true -> exists s, In s argv /\ asks_help s) as Q.
  { intros n H E. apply opt_set_item in E. destruct E as (x & I & N). apply (parse_argv_hv format_o format_several _ argv format_o is format_grown P). exists x. now rewrite N. }
  destruct (opt_set (lit "--help") is) eqn:E1; [intros E; injection E as <-; right; split; auto; apply (Q "--help"%string); [now left|auto]|].
  destruct (opt_set (lit "-h") is) eqn:E2; [intros E; injection E as <-; right; split; auto; apply (Q "-h"%string); [right; now right|auto]|]. cbn [orb].
  destruct (opt_set (lit "--version") is) eqn:E3; [intros E; injection E as <-; right; split; auto; apply (Q "--version"%string); [right; now left|auto]|].
  destruct (pmatch _ _) as [[[|i s] m]|]; [discriminate|intros E; injection E; auto|intros E; injection E; auto].
Qed.
Theorem C96_help : forall argv l, reads format_table argv l -> In (Flag "--help") l \/ In (Flag "--version") l -> docopt format_usage argv = PExit 0.
Proof.
  intros argv l R I. destruct (format_reads argv l R) as (is & P & F). rewrite format_docopt, P. assert (opt_set (lit "--help") is = true \/ opt_set (lit "--version") is = true) as Q.
  { assert (forall n, In (Flag n) l -> opt_set (lit n) is = true) as O.
    { intros n J. destruct (opt_set (lit n) is) eqn:E; auto. exfalso. apply opt_set_names in E. apply E. rewrite (said_names is l n F). apply in_options. now left. }
    destruct I; auto. }
  destruct Q as [-> | ->]; [reflexivity|]. destruct (_ || _); reflexivity.
Qed.
Theorem C96_refused : forall argv l, reads format_table argv l -> ~ In (Flag "--help") l -> ~ In (Flag "--version") l -> l <> [Flag "--formats"] -> (forall r, ~ format_line l r) -> docopt format_usage argv = PExit (-1).
Proof.
  intros argv l R Hh Hv Nf N. destruct (docopt format_usage argv) as [c|m] eqn:E.
  - rewrite format_docopt in E. destruct (format_reads argv l R) as (is & P & F). rewrite P in E.
    assert (forall n, In (n, false) format_table -> ~ In (Flag n) l -> opt_set (lit n) is = false) as O.
    { intros n It J. apply opt_set_names. rewrite (said_names is l n F). rewrite in_options. intros [Q|[v Q]]; auto. pose proof (reads_kind _ _ _ R _ Q) as B. cbn in B. apply (one_kind format_table n false (proj1 format_fine) It) in B. discriminate. }
    rewrite (O "--help"%string) in E by (auto; cbn; tauto). rewrite (O "--version"%string) in E by (auto; cbn; tauto).
    assert (opt_set (lit "-h") is = false) as S.
    { apply opt_set_names. rewrite (shows_names is l F). intros I. apply in_map_iff in I. destruct I as (n & En & I). apply lit_inj in En. subst n.
      apply in_options in I. destruct I as [I|[v I]]; apply (reads_kind _ _ _ R) in I; cbn in I; intuition discriminate. }
    rewrite S in E. cbn [orb] in E. destruct (pmatch _ _) as [[[|i s] m]|]; [discriminate| |]; now injection E as <-.
  - exfalso. destruct (proj1 (C96_line argv)) as [R'|(l' & r & R' & H)]; [eauto| |].
    + apply Nf. exact (format_reads_fun argv _ _ R R').
    + pose proof (format_reads_fun argv _ _ R R'). subst l'. exact (N r H).
Qed.

(** *** The program on a command line *)
Section PROGRAM.
Context {S : Type} (X : externals) (build : mesh -> outcome S) (surf : S -> surface) (to_mesh : unode S -> mesh) (prune : S -> outcome S) (line : surface -> nat -> outcome str)
  (listing : fs -> path -> list str).
Notation format := (format_main X build surf to_mesh prune line listing).
(** --formats alone lists the formats, and is accepted only alone *)
Theorem C96_formats : forall argv w, reads format_table argv [Flag "--formats"] ->
  format (docopt format_usage argv) w = (w, Exit 0 None, lit "Possible formats are: 3DS XML, 3DS, OFF, OBJ" ++ [newline]).
Proof.
  intros argv w R. rewrite (formats_accepts argv R). apply C75_formats. apply lookup_gives. reflexivity.
Qed.
Theorem C96_formats_alone : forall argv l, reads format_table argv l -> In (Flag "--formats") l -> l <> [Flag "--formats"] -> forall w, exists c, format (docopt format_usage argv) w = (w, Exit c None, []).
Proof.
  intros argv l R I N w. destruct (docopt format_usage argv) as [c|m] eqn:E; [exists c; reflexivity|]. exfalso.
  destruct (proj1 (C96_line argv)) as [R'|(l' & r & R' & H)]; [eauto| |].
  - apply N. exact (format_reads_fun argv _ _ R R').
  - pose proof (format_reads_fun argv _ _ R R'). subst l'. assert (In "--formats"%string (options_said l)) as J by (apply in_options; now left). apply (fl_known l r H) in J. cbn [In] in J. intuition discriminate.
Qed.
(** the output, written as optional, is needed: without a path or without a format nothing is read *)
Theorem C96_output_needed : forall argv l r w, reads format_table argv l -> format_line l r -> rf_out r = None \/ rf_outfmt r = None ->
  exists e, format (docopt format_usage argv) w = (w, Exit 0 (Some e), []).
Proof.
  intros argv l r w R H O. destruct (format_answers argv l r R H) as (m & -> & Ff & _ & _ & _ & _ & _ & Gp & Go). apply C75_output_needed; auto. destruct O as [O|O]; rewrite O in *; auto.
Qed.
(** two lines with the same request do the same: the word 'output' and the order of the options
    mean nothing *)
Theorem C96_same : forall argv l argv' l' r, reads format_table argv l -> format_line l r -> reads format_table argv' l' -> format_line l' r ->
  forall w, format (docopt format_usage argv) w = format (docopt format_usage argv') w.
Proof.
  intros argv l argv' l' r R H R' H' w. destruct (format_answers argv l r R H) as (m & -> & Ff & Ls & Li & F1 & F2 & F3 & Gp & Go). destruct (format_answers argv' l' r R' H') as (m' & -> & Ff' & Ls' & Li' & F1' & F2' & F3' & Gp' & Go').
  cbn [format_main]. replace (format_args m) with (format_args m'); auto. unfold format_args. keys.
  rewrite (proj2 (arg_bool_Ok _ _ _) Ff), (proj2 (arg_bool_Ok _ _ _) Ff'), (proj2 (arg_string_Ok _ _ _) Ls), (proj2 (arg_string_Ok _ _ _) Ls'), (proj2 (arg_string_Ok _ _ _) Li), (proj2 (arg_string_Ok _ _ _) Li'),
    (proj2 (arg_bool_Ok _ _ _) F1), (proj2 (arg_bool_Ok _ _ _) F1'), (proj2 (arg_bool_Ok _ _ _) F2), (proj2 (arg_bool_Ok _ _ _) F2'), (proj2 (arg_bool_Ok _ _ _) F3), (proj2 (arg_bool_Ok _ _ _) F3'). cbn [bind].
  unfold arg_string, arg. apply lookup_gives in Gp, Go, Gp', Go'. rewrite Gp, Go, Gp', Go'. reflexivity.
Qed.
End PROGRAM.

(** ** Examples *)
Definition format_words : list str := [lit "d/city.obj"; lit "d/out"; lit "--graphs"; lit "--output-format"; lit "OFF"; lit "--prune"; lit "--input-format=OBJ"].
Definition format_said : list said := [Word (lit "d/city.obj"); Word (lit "d/out"); Flag "--graphs"; Given "--output-format" (lit "OFF"); Flag "--prune"; Given "--input-format" (lit "OBJ")].
Definition format_asks : format_request := mkFormatReq (lit "d/city.obj") (lit "OBJ") true true false (Some (lit "d/out")) (Some (lit "OFF")).
Example C96_example : reads format_table format_words format_said /\ format_line format_said format_asks /\
  snd (fst (format_ex (docopt format_usage format_words) start)) = Exit 0 None /\
  reads format_table [lit "--formats"] [Flag "--formats"] /\ reads format_table [lit "--forma"] [Flag "--formats"].
Proof.
  assert (reads format_table format_words format_said) as R.
  { unfold format_words, format_said. apply reads_word; [a_word|]. apply reads_word; [a_word|]. apply reads_flag; [in_full|]. apply reads_apart; [in_full|discriminate|discriminate|]. apply reads_flag; [in_full|].
    apply (reads_joined format_table (lit "--input-format") "--input-format" (lit "OBJ")); [in_full|]. constructor. }
  assert (format_line format_said format_asks) as H.
  { constructor; cbn [rf_scene rf_format rf_prune rf_graphs rf_terrain rf_out rf_outfmt format_asks].
    - eexists. split; [reflexivity|]. right. eexists. split; [reflexivity|]. left. split; [reflexivity|discriminate].
    - repeat constructor; cbn [In]; intuition discriminate.
    - intros n I. cbn in I. cbn [In]. tauto.
    - intros s. split; [intros E; injection E as <-; cbn; tauto|]. intros I. cbn in I. repeat (destruct I as [I|I]; [try discriminate; injection I as <-; reflexivity|]). destruct I.
    - split; [intros _; cbn; tauto|reflexivity].
    - split; [intros _; cbn; tauto|reflexivity].
    - split; [discriminate|]. intros I. cbn in I. intuition discriminate.
    - intros s. split; [intros E; injection E as <-; cbn; tauto|]. intros I. cbn in I. repeat (destruct I as [I|I]; [try discriminate; injection I as <-; reflexivity|]). destruct I. }
  split; [exact R|]. split; [exact H|]. split; [vm_compute; reflexivity|]. split; [apply reads_flag; [in_full|constructor]|apply reads_flag; [shortened|constructor]].
Qed.
Example C96_exits : docopt format_usage [lit "d/city.obj"; lit "--formats"; lit "--input-format=OBJ"] = PExit (-1) /\ docopt format_usage [lit "-h"] = PExit 0 /\
  docopt format_usage [lit "--formats"; lit "--formats"] = PExit (-1) /\ docopt format_usage [lit "d/city.obj"; lit "d/out"; lit "--output-format=OFF"] = PExit (-1) /\
  snd (fst (format_ex (docopt format_usage [lit "d/city.obj"; lit "--input-format=OBJ"]) start)) = Exit 0 (Some RuntimeError).
Proof. repeat split; vm_compute; reflexivity. Qed.
