(** * Theorems on command lines: C95 (orthoproject). *)
From Coq Require Import Strings.String Lia.
From Verif Require Import Base Dbl Geom Decimal Shadow Streams Handlers Surface Projection Raster Spec_io Cli Spec_cli Docopt Spec_line Handlers_proofs Docopt_proofs Line_proofs Exit_proofs Props_cli Ortho_line.
Import List.
Open Scope nat_scope.

(** ** Reading is unambiguous *)
Lemma shows_fun i t t' : shows i t -> shows i t' -> t = t'.
Proof.
  destruct i as [w|x], t as [v|n|n v], t' as [v'|n'|n' v']; cbn [shows]; try contradiction; try congruence.
  - intros [A B] [A' B']. f_equal. apply lit_inj. congruence.
  - intros [A B] [A' B']. congruence.
  - intros [A B] [A' B']. congruence.
  - intros [A B] [A' B']. assert (n = n') as -> by (apply lit_inj; congruence). congruence.
Qed.
Lemma shows_all_fun is : forall l l', Forall2 shows is l -> Forall2 shows is l' -> l = l'.
Proof.
  induction is as [|i is IH]; intros l l' F F'; inversion F; inversion F'; subst; auto. f_equal; [eapply shows_fun; eauto|]. now apply IH.
Qed.
(** the names of the tables: one kind each *)
Lemma one_kind (T : table) n b : NoDup (map fst T) -> In (n, b) T -> forall b', In (n, b') T -> b' = b.
Proof.
  intros N I b' I'. destruct (NoDup_map_inj fst T N) as [_ U]. specialize (U (n, b') (n, b) I' I eq_refl). congruence.
Qed.

Lemma ortho_reads argv l : reads ortho_table argv l -> exists is, parse_argv (S (length argv)) argv ortho_o = Some is /\ Forall2 shows is l.
Proof. intros R. apply (reads_parse ortho_table ortho_o ortho_tab ortho_fine ortho_two argv l R). lia. Qed.
Lemma ortho_docopt argv : docopt ortho_usage argv =
  match parse_argv (S (length argv)) argv ortho_o with
  | None => PExit (-1)
  | Some l => if opt_set (lit "--help") l || opt_set (lit "-h") l then PExit 0 else if opt_set (lit "--version") l then PExit 0 else
      match pmatch ortho_q (l, []) with Some ([], c) => PArgs (rev c ++ leaf_defaults ortho_q) | _ => PExit (-1) end
  end.
Proof. unfold docopt. rewrite ortho_pattern. reflexivity. Qed.

(** the options of a line said by it *)
Lemma flag_said l n (T : table) is : Forall2 shows is l -> of_kind T l -> NoDup (map fst T) -> In (n, false) T ->
  exists b, says l n b /\ match olook (lit n) is with Some v => Some v | None => Some (VBool false) end = Some (VBool b).
Proof.
  intros F K N I. destruct (look_flag T is l n F K (one_kind T n false N I)) as [[-> H]|[-> H]]; [exists false|exists true]; split; auto; split; auto; try discriminate; try contradiction.
Qed.
Lemma value_given l n (T : table) is : Forall2 shows is l -> of_kind T l -> NoDup (map fst T) -> In (n, true) T -> NoDup (options_said l) ->
  exists v, gave l n v /\ olook (lit n) is = option_map VStr v.
Proof.
  intros F K N I D. destruct (look_given T is l n F K (one_kind T n true N I) D) as [[-> H]|(s & -> & H)]; [exists None|exists (Some s)]; split; auto; intros v; split.
  - discriminate.
  - intros G. exfalso. exact (H v G).
  - intros E. injection E as <-. now apply H.
  - intros G. apply H in G. congruence.
Qed.
Lemma says_fun l n a b : says l n a -> says l n b -> a = b.
Proof. unfold says. intros A B. destruct a, b; auto; [symmetry; apply B, A|apply A, B]; auto. Qed.
Lemma gave_fun l n a b : gave l n a -> gave l n b -> a = b.
Proof.
  unfold gave. intros A B. destruct a as [a|].
  - symmetry. apply B, A. reflexivity.
  - destruct b as [b|]; auto. apply A, B. reflexivity.
Qed.
Lemma names_known (T : table) n b : In (n, b) T -> In n (map fst T).
Proof. intros I. now apply (in_map fst) in I. Qed.

Lemma ortho_line_names l r : ortho_line l r -> forall n, ~ In n ortho_options -> ~ In n (options_said l).
Proof. intros H n N I. apply N. exact (ol_known l r H n I). Qed.
Lemma opt_set_names n is : opt_set n is = false <-> ~ In n (onames is).
Proof. rewrite opt_set_look, <- olook_in. destruct (olook n is); split; congruence. Qed.
Lemma said_names is l n : Forall2 shows is l -> In (lit n) (onames is) <-> In n (options_said l).
Proof.
  intros F. rewrite (shows_names is l F). split.
  - intros I. apply in_map_iff in I. destruct I as (m & E & I). apply lit_inj in E. now subst.
  - apply in_map.
Qed.
(** *** The line is accepted exactly when it asks for something *)
Lemma ortho_run is l : Forall2 shows is l -> of_kind ortho_table l -> forall r, ortho_line l r ->
  exists v, v = VStr (rq_format r) /\ pmatch ortho_q (is, []) = Some ([], ortho_got is (rq_scene r) v) /\ words_in is = rq_scene r :: opt_word (rq_save r) "save" ++ opt_word (rq_rasterize r) "rasterize".
Proof.
  intros F K r H. pose proof (shows_words is l F) as W. rewrite (ol_words l r H) in W. exists (VStr (rq_format r)). split; auto. split; [|exact W].
  rewrite ortho_only.
  - rewrite ortho_match, W.
    destruct (value_given l "--input-format" ortho_table is F K (proj1 ortho_fine)) as (v & G & L); [cbn; tauto|exact (ol_once l r H)|].
    rewrite (gave_fun _ _ _ _ G (ol_format l r H)) in L. rewrite L. cbn [option_map]. f_equal. f_equal. apply ortho_left_nil. rewrite W. cbn [tl]. split; [eexists _, _; reflexivity|].
    rewrite (shows_names is l F). split; [apply NoDup_lit, (ol_once l r H)|apply incl_lit, (ol_known l r H)].
  - apply olook_in. rewrite (said_names is l _ F). apply (ortho_line_names l r H). cbn [In ortho_options]. intuition discriminate.
  - apply olook_in. rewrite (said_names is l _ F). apply (ortho_line_names l r H). cbn [In ortho_options]. intuition discriminate.
Qed.
Lemma ortho_asked is l : Forall2 shows is l -> of_kind ortho_table l -> forall c, pmatch ortho_alt (is, []) = Some ([], c) -> exists r, ortho_line l r.
Proof.
  intros F K c M. rewrite ortho_match in M. pose proof (shows_words is l F) as W. destruct (words_in is) as [|w ws] eqn:Ew; [discriminate|]. destruct (olook (lit "--input-format") is) as [v|] eqn:Ev; [|discriminate].
  injection M as M _. apply ortho_left_nil in M. rewrite Ew in M. cbn [tl] in M. destruct M as ((s & r & Ws) & Nd & In'). rewrite (shows_names is l F) in Nd, In'. apply NoDup_lit in Nd. apply incl_lit in In'.
  pose proof (proj1 ortho_fine) as N.
  destruct (value_given l "--input-format" ortho_table is F K N) as (f & Gf & Lf); [cbn; tauto|exact Nd|]. rewrite Ev in Lf. destruct f as [f|]; [|discriminate].
  destruct (value_given l "--pixel-size" ortho_table is F K N) as (px & Gp & Lp); [cbn; tauto|exact Nd|].
  destruct (flag_said l "--prune" ortho_table is F K N) as (b1 & S1 & _); [cbn; tauto|].
  destruct (flag_said l "--graphs" ortho_table is F K N) as (b2 & S2 & _); [cbn; tauto|].
  destruct (flag_said l "--terrain" ortho_table is F K N) as (b3 & S3 & _); [cbn; tauto|].
  destruct (flag_said l "--scene" ortho_table is F K N) as (b4 & S4 & _); [cbn; tauto|].
  destruct (flag_said l "--labels" ortho_table is F K N) as (b5 & S5 & _); [cbn; tauto|].
  exists (mkOrthoReq w f b1 b2 b3 s b4 b5 r px). constructor; cbn [rq_scene rq_format rq_prune rq_graphs rq_terrain rq_save rq_sum rq_labels rq_rasterize rq_pixel]; auto. rewrite <- W, Ws. reflexivity.
Qed.
Lemma not_known is (ns : list string) n : incl (onames is) (map lit ns) -> ~ In n ns -> opt_set (lit n) is = false.
Proof.
  intros I N. apply opt_set_names. intros J. apply I in J. apply in_map_iff in J. destruct J as (m & E & J). apply lit_inj in E. now subst.
Qed.

Lemma ortho_accepts argv l r : reads ortho_table argv l -> ortho_line l r -> exists is, Forall2 shows is l /\
  docopt ortho_usage argv = PArgs (rev (ortho_got is (rq_scene r) (VStr (rq_format r))) ++ leaf_defaults ortho_q) /\
  words_in is = rq_scene r :: opt_word (rq_save r) "save" ++ opt_word (rq_rasterize r) "rasterize".
Proof.
  intros R H. destruct (ortho_reads argv l R) as (is & P & F). exists is. split; auto. rewrite ortho_docopt, P.
  destruct (ortho_run is l F (reads_kind _ _ _ R) r H) as (v & -> & M & W). split; [|exact W].
  assert (incl (onames is) (map lit ortho_options)) as I by (rewrite (shows_names is l F); apply incl_lit, (ol_known l r H)).
  rewrite !(not_known is ortho_options) by (auto; cbn [In ortho_options]; intuition discriminate). cbn [orb]. now rewrite M.
Qed.
Lemma item_name x is : In (IOpt x) is -> In (o_name x) (onames is).
Proof. induction is as [|[w|y] is IH]; cbn [onames In]; intros I; auto; destruct I as [D|I]; auto; [discriminate|]. injection D as ->. now left. Qed.
Theorem C95_line : forall argv, (exists m, docopt ortho_usage argv = PArgs m) <-> exists l r, reads ortho_table argv l /\ ortho_line l r.
Proof.
  intros argv. split.
  - intros [m E]. rewrite ortho_docopt in E. destruct (parse_argv (S (length argv)) argv ortho_o) as [is|] eqn:P; [|discriminate].
    destruct (opt_set (lit "--help") is) eqn:Hh; [discriminate|]. destruct (opt_set (lit "-h") is) eqn:Hs; [discriminate|]. cbn [orb] in E. destruct (opt_set (lit "--version") is) eqn:Hv; [discriminate|].
    apply opt_set_names, olook_in in Hh, Hv. rewrite (ortho_only is Hh Hv) in E. destruct (pmatch ortho_alt (is, [])) as [[[|i is'] c]|] eqn:M; try discriminate.
    assert (incl (onames is) (map lit ortho_options)) as I.
    { rewrite ortho_match in M. destruct (words_in is); [discriminate|]. destruct (olook (lit "--input-format") is); [|discriminate]. injection M as M _. apply ortho_left_nil in M. apply M. }
    destruct (parse_reads ortho_table ortho_o ortho_tab ortho_fine ortho_short (S (length argv)) argv is P) as (l & R & F).
    { intros x Ix. assert (In (o_name x) (onames is)) as J by (now apply item_name).
      apply I in J. apply in_map_iff in J. destruct J as (n & En & J). exists n. split; [|split; [auto|]].
      - cbn [ortho_options In] in J. cbn [map fst ortho_table In]. tauto.
      - intros ->. cbn [ortho_options In] in J. intuition discriminate. }
    destruct (ortho_asked is l F (reads_kind _ _ _ R) c M) as (r & H). exists l, r. auto.
  - intros (l & r & R & H). destruct (ortho_accepts argv l r R H) as (is & _ & E & _). eauto.
Qed.
(** *** and gives the program what was asked *)
Lemma ortho_answers argv l r : reads ortho_table argv l -> ortho_line l r -> exists m, docopt ortho_usage argv = PArgs m /\
  word m "<scene>" (rq_scene r) /\ word m "--input-format" (rq_format r) /\ flag m "--prune" (rq_prune r) /\ flag m "--cache" false /\ flag m "--graphs" (rq_graphs r) /\ flag m "--terrain" (rq_terrain r) /\
  flag m "save" (rq_save r) /\ flag m "--scene" (rq_sum r) /\ flag m "--labels" (rq_labels r) /\ flag m "rasterize" (rq_rasterize r) /\
  word m "--pixel-size" (match rq_pixel r with Some s => s | None => lit "1" end).
Proof.
  intros R H. destruct (ortho_accepts argv l r R H) as (is & F & E & W). eexists. split; [exact E|]. clear E.
  pose proof (reads_kind _ _ _ R) as K. pose proof (proj1 ortho_fine) as N.
  destruct (ortho_map_holds (leaf_defaults ortho_q) is (rq_scene r) (VStr (rq_format r)) (rq_save r) (rq_rasterize r) ortho_defaults W) as (Lf & Ls & Li & Lc & Lsv & Lr & Lp).
  set (m := rev (ortho_got is (rq_scene r) (VStr (rq_format r))) ++ leaf_defaults ortho_q) in *. clearbody m.
  assert (forall n b, In n ["--prune"; "--graphs"; "--terrain"; "--scene"; "--labels"]%string -> In (n, false) ortho_table -> says l n b -> flag m n b) as Fl.
  { intros n b I It S. apply lookup_gives. rewrite (Lf n I). destruct (flag_said l n ortho_table is F K N It) as (b' & S' & ->). now rewrite (says_fun _ _ _ _ S S'). }
  destruct (value_given l "--pixel-size" ortho_table is F K N) as (px & Gp & Ep); [cbn; tauto|exact (ol_once l r H)|]. rewrite (gave_fun _ _ _ _ Gp (ol_pixel l r H)) in Ep. rewrite Ep in Lp.
  split; [now apply lookup_gives|]. split; [now apply lookup_gives|].
  split; [apply Fl; [cbn; tauto|cbn; tauto|apply H]|]. split; [now apply lookup_gives|].
  split; [apply Fl; [cbn; tauto|cbn; tauto|apply H]|]. split; [apply Fl; [cbn; tauto|cbn; tauto|apply H]|]. split; [now apply lookup_gives|].
  split; [apply Fl; [cbn; tauto|cbn; tauto|apply H]|]. split; [apply Fl; [cbn; tauto|cbn; tauto|apply H]|]. split; [now apply lookup_gives|].
  apply lookup_gives. rewrite Lp. destruct (rq_pixel r); reflexivity.
Qed.
Definition ortho_arguments_of (stod : str -> outcome dbl) (r : ortho_request) : outcome ortho_arguments :=
  bind (if rq_rasterize r then stod (match rq_pixel r with Some s => s | None => lit "1" end) else Ok (dofZ 0)) (fun px =>
  Ok (mkOrtho (scene_path (rq_scene r)) (rq_format r) (rq_prune r) false (rq_graphs r) (rq_terrain r) (rq_save r) (rq_save r && rq_sum r) (rq_save r && rq_labels r) px)).
Lemma ortho_args_are argv l r : reads ortho_table argv l -> ortho_line l r -> exists m, docopt ortho_usage argv = PArgs m /\ forall stod, ortho_args stod m = ortho_arguments_of stod r.
Proof.
  intros R H. destruct (ortho_answers argv l r R H) as (m & E & Ls & Li & F1 & Fc & F2 & F3 & Fs & F4 & F5 & Fr & Wp). exists m. split; auto. intros stod. unfold ortho_args, ortho_arguments_of. keys.
  rewrite (proj2 (arg_string_Ok _ _ _) Ls), (proj2 (arg_string_Ok _ _ _) Li), (proj2 (arg_bool_Ok _ _ _) F1), (proj2 (arg_bool_Ok _ _ _) Fc), (proj2 (arg_bool_Ok _ _ _) F2), (proj2 (arg_bool_Ok _ _ _) F3), (proj2 (arg_bool_Ok _ _ _) Fs).
  cbn [bind]. rewrite (proj2 (arg_bool_Ok _ _ _) F4), (proj2 (arg_bool_Ok _ _ _) F5), (proj2 (arg_bool_Ok _ _ _) Fr), (proj2 (arg_string_Ok _ _ _) Wp).
  destruct (rq_save r); cbn [bind andb]; destruct (rq_rasterize r); reflexivity.
Qed.
Theorem C95_arguments : forall argv l r, reads ortho_table argv l -> ortho_line l r ->
  exists m, docopt ortho_usage argv = PArgs m /\ forall stod a, ortho_given stod m a <-> ortho_wants stod r a.
Proof.
  intros argv l r R H. destruct (ortho_args_are argv l r R H) as (m & E & A). exists m. split; auto. intros stod a. rewrite <- C74_arguments, A. unfold ortho_arguments_of, ortho_wants.
  destruct a as [p f pr c g t sv sm lb px]. cbn [oa_path oa_format oa_prune oa_cache oa_graphs oa_terrain oa_save oa_sum oa_labels oa_pixel].
  destruct (rq_rasterize r); cbn [bind].
  - destruct (stod _) as [x|e|]; cbn [bind].
    + split; [intros Q; apply Ok_inj in Q; injection Q as <- <- <- <- <- <- <- <- <- <-; now repeat split|]. intros (-> & -> & -> & -> & -> & -> & -> & -> & -> & Q). apply Ok_inj in Q. now subst.
    + split; [discriminate|]. intros (_ & _ & _ & _ & _ & _ & _ & _ & _ & Q). discriminate.
    + split; [discriminate|]. intros (_ & _ & _ & _ & _ & _ & _ & _ & _ & Q). discriminate.
  - split; [intros Q; apply Ok_inj in Q; injection Q as <- <- <- <- <- <- <- <- <- <-; now repeat split|]. intros (-> & -> & -> & -> & -> & -> & -> & -> & -> & ->). reflexivity.
Qed.
(** a line is read in one way only, as one request *)
Theorem C95_one_reading : forall argv l l' r r', reads ortho_table argv l -> reads ortho_table argv l' -> ortho_line l r -> ortho_line l' r' -> l = l' /\ r = r'.
Proof.
  intros argv l l' r r' R R' H H'. assert (l = l') as <-.
  { destruct (ortho_reads _ _ R) as (is & P & F). destruct (ortho_reads _ _ R') as (is' & P' & F'). assert (is = is') as <- by congruence. exact (shows_all_fun _ _ _ F F'). }
  split; auto. destruct r as [a b c d e f g h i j], r' as [a' b' c' d' e' f' g' h' i' j']. destruct H as [W _ _ H1 H2 H3 H4 H5 H6 H7], H' as [W' _ _ H1' H2' H3' H4' H5' H6' H7'].
  cbn [rq_scene rq_format rq_prune rq_graphs rq_terrain rq_save rq_sum rq_labels rq_rasterize rq_pixel] in *.
  rewrite (says_fun _ _ _ _ H2 H2'), (says_fun _ _ _ _ H3 H3'), (says_fun _ _ _ _ H4 H4'), (says_fun _ _ _ _ H5 H5'), (says_fun _ _ _ _ H6 H6'), (gave_fun _ _ _ _ H7 H7').
  pose proof (gave_fun _ _ _ _ H1 H1') as Q. injection Q as ->. rewrite W in W'. injection W' as -> W'. destruct f, i, f', i'; cbn [app] in W'; try discriminate; reflexivity.
Qed.
(** *** What happens otherwise *)
(** every line that is not accepted ends with -1, unless a word asks for help or the version *)
Lemma ortho_grown : grown ortho_o ortho_o.
Proof.
  split; [exists []; now rewrite app_nil_r|]. intros y I _. destruct (o_short y) as [|c s] eqn:E; auto. right.
  assert (forallb (fun y => match o_short y with [] => true | t => str_eqb t (lit "-h") end) ortho_o = true) as H by (vm_compute; reflexivity). rewrite forallb_forall in H. specialize (H y I). rewrite E in H. now apply str_eqb_eq in H.
Qed.
Lemma ortho_several : 2 <= length (filter (fun x => prefix_of dash2 (o_long x)) ortho_o).
Proof. apply Nat.leb_le. vm_compute. reflexivity. Qed.
Theorem C95_status : forall argv c, docopt ortho_usage argv = PExit c -> c = (-1)%Z \/ (c = 0%Z /\ exists s, In s argv /\ asks_help s).
Proof.
  intros argv c. rewrite ortho_docopt. destruct (parse_argv _ _ _) as [is|] eqn:P; [|intros E; injection E; auto].
  assert (forall n, hv (lit n) -> opt_set (lit n) is = true -> exists s, In s argv /\ asks_help s) as Q.
  { intros n H E. apply opt_set_item in E. destruct E as (x & I & N). apply (parse_argv_hv ortho_o ortho_several _ argv ortho_o is ortho_grown P). exists x. now rewrite N. }
  destruct (opt_set (lit "--help") is) eqn:E1; [intros E; injection E as <-; right; split; auto; apply (Q "--help"%string); [now left|auto]|].
  destruct (opt_set (lit "-h") is) eqn:E2; [intros E; injection E as <-; right; split; auto; apply (Q "-h"%string); [right; now right|auto]|]. cbn [orb].
  destruct (opt_set (lit "--version") is) eqn:E3; [intros E; injection E as <-; right; split; auto; apply (Q "--version"%string); [right; now left|auto]|].
  destruct (pmatch _ _) as [[[|i s] m]|]; [discriminate|intros E; injection E; auto|intros E; injection E; auto].
Qed.
Theorem C95_help : forall argv l, reads ortho_table argv l -> In (Flag "--help") l \/ In (Flag "--version") l -> docopt ortho_usage argv = PExit 0.
Proof.
  intros argv l R I. destruct (ortho_reads argv l R) as (is & P & F). rewrite ortho_docopt, P. assert (opt_set (lit "--help") is = true \/ opt_set (lit "--version") is = true) as Q.
  { assert (forall n, In (Flag n) l -> opt_set (lit n) is = true) as O.
    { intros n J. destruct (opt_set (lit n) is) eqn:E; auto. exfalso. apply opt_set_names in E. apply E. rewrite (said_names is l n F). apply in_options. now left. }
    destruct I; auto. }
  destruct Q as [-> | ->]; [reflexivity|]. destruct (_ || _); reflexivity.
Qed.
Theorem C95_refused : forall argv l, reads ortho_table argv l -> ~ In (Flag "--help") l -> ~ In (Flag "--version") l -> (forall r, ~ ortho_line l r) -> docopt ortho_usage argv = PExit (-1).
Proof.
  intros argv l R Hh Hv N. destruct (docopt ortho_usage argv) as [c|m] eqn:E.
  - rewrite ortho_docopt in E. destruct (ortho_reads argv l R) as (is & P & F). rewrite P in E.
    assert (forall n, In (n, false) ortho_table -> ~ In (Flag n) l -> opt_set (lit n) is = false) as O.
    { intros n It J. apply opt_set_names. rewrite (said_names is l n F). rewrite in_options. intros [Q|[v Q]]; auto. pose proof (reads_kind _ _ _ R _ Q) as B. cbn in B. apply (one_kind ortho_table n false (proj1 ortho_fine) It) in B. discriminate. }
    rewrite (O "--help"%string) in E by (auto; cbn; tauto). rewrite (O "--version"%string) in E by (auto; cbn; tauto).
    assert (opt_set (lit "-h") is = false) as S.
    { apply opt_set_names. rewrite (shows_names is l F). intros I. apply in_map_iff in I. destruct I as (n & En & I). apply lit_inj in En. subst n.
      apply in_options in I. destruct I as [I|[v I]]; apply (reads_kind _ _ _ R) in I; cbn in I; intuition discriminate. }
    rewrite S in E. cbn [orb] in E. destruct (pmatch _ _) as [[[|i s] m]|]; [discriminate| |]; now injection E as <-.
  - exfalso. destruct (proj1 (C95_line argv)) as (l' & r & R' & H); [eauto|].
    assert (l = l') as <-. { destruct (ortho_reads _ _ R) as (is & P & F). destruct (ortho_reads _ _ R') as (is' & P' & F'). assert (is = is') as <- by congruence. exact (shows_all_fun _ _ _ F F'). }
    exact (N r H).
Qed.
(** the documented option --cache is always refused *)
Theorem C95_cache : forall argv l, reads ortho_table argv l -> In (Flag "--cache") l -> forall m, docopt ortho_usage argv <> PArgs m.
Proof.
  intros argv l R I m E. destruct (proj1 (C95_line argv)) as (l' & r & R' & H); [eauto|].
  assert (l = l') as <-. { destruct (ortho_reads _ _ R) as (is & P & F). destruct (ortho_reads _ _ R') as (is' & P' & F'). assert (is = is') as <- by congruence. exact (shows_all_fun _ _ _ F F'). }
  assert (In "--cache"%string (options_said l)) as J by (apply in_options; now left). apply (ol_known l r H) in J. cbn [In] in J. intuition discriminate.
Qed.

(** *** The program on a command line *)
Lemma path_of_no_nul s : ~ In nul s -> no_nul (path_of s).
Proof.
  unfold path_of. assert (forall s cur, ~ In nul s -> ~ In nul cur -> no_nul (split_slash cur s)) as G.
  2: { intros H x I. apply in_app_or in I as [I|I]; [|apply (G s []); auto]. destruct s as [|c s]; [destruct I|]. destruct (Ascii.eqb c ch_slash); [|destruct I]. destruct I as [<-|[]]. intros [J|[]]. discriminate J. }
  clear s. induction s as [|c s IH]; intros cur H C; cbn [split_slash].
  - destruct cur as [|d cur]; intros x I; [destruct I|]. destruct I as [<-|[]]. rewrite <- in_rev. exact C.
  - assert (~ In nul s) as Hs by (intros I; apply H; now right). assert (~ In nul []) as Z by (intros []). destruct (Ascii.eqb c ch_slash).
    + destruct cur as [|d cur]; [now apply IH|]. intros x [<-|I]; [rewrite <- in_rev; exact C|]. exact (IH [] Hs Z x I).
    + apply IH; auto. intros [->|I]; [apply H; now left|auto].
Qed.
Lemma scene_path_no_nul s : ~ In nul s -> no_nul (scene_path s).
Proof.
  intros N x I. unfold scene_path in I. apply in_app_or in I as [I|I]; [exact (path_of_no_nul s N x I)|]. destruct (split_slash [] s); [destruct I|]. destruct (ends_with_slash s); [|destruct I]. destruct I as [<-|[]]. intros [J|[]]. discriminate J.
Qed.
Lemma removelast_in {A} (l : list A) x : In x (removelast l) -> In x l.
Proof. induction l as [|a l IH]; cbn [removelast]; auto. destruct l; [intros []|]. intros [<-|I]; [now left|right; auto]. Qed.
Lemma reads_words T argv l : reads T argv l -> forall w, In w (words_said l) -> In w argv.
Proof.
  induction 1 as [|ws|w ws l W R IH|s n ws l O R IH|s n v ws l O R IH|s n v ws l O V V' R IH]; cbn [words_said]; intros x I; auto.
  - revert I. generalize (lit "--" :: ws). intros k. induction k as [|a k IH]; cbn [map words_said]; auto. intros [<-|I]; [now left|right; auto].
  - destruct I as [<-|I]; [now left|right; auto].
  - right. auto.
  - right. auto.
  - right. right. auto.
Qed.
Lemma under_dec (d p : path) : (exists q, p = d ++ q) \/ forall q, p <> d ++ q.
Proof.
  revert p. induction d as [|c d IH]; intros p; [left; now exists p|]. destruct p as [|c' p]; [right; intros q; discriminate|].
  destruct (list_eq_dec Ascii.ascii_dec c' c) as [->|N]; [|right; intros q E; injection E as E _; auto]. destruct (IH p) as [[q ->]|O]; [left; now exists q|]. right. intros q E. injection E as E. exact (O q E).
Qed.
Lemma under_one (ds : list path) (p : path) : (exists d q, In d ds /\ p = d ++ q) \/ forall d q, In d ds -> p <> d ++ q.
Proof.
  induction ds as [|d ds IH]; [right; intros d q []|]. destruct (under_dec d p) as [[q E]|O]; [left; exists d, q; split; auto; now left|]. destruct IH as [(e & q & I & E)|O']; [left; exists e, q; split; auto; now right|].
  right. intros e q [<-|I]; auto.
Qed.
Section PROGRAM.
Context {S : Type} (X : externals) (build : mesh -> outcome S) (surf : S -> surface) (prune : S -> outcome S) (line : surface -> nat -> outcome str)
  (listing : fs -> path -> list str) (K : kernel) (G : gdal) (stod : str -> outcome dbl).
Notation ortho := (ortho_main X build surf prune line listing K G stod).
(** a line that asks neither to save nor for the graphs, or that is not accepted, changes nothing *)
Theorem C95_idle : forall argv w, (forall l r, reads ortho_table argv l -> ortho_line l r -> rq_save r = false /\ rq_graphs r = false) -> fst (ortho (docopt ortho_usage argv) w) = w.
Proof.
  intros argv w Q. destruct (docopt ortho_usage argv) as [c|m] eqn:E; [reflexivity|].
  destruct (proj1 (C95_line argv)) as (l & r & R & H); [eauto|]. destruct (Q l r R H) as [Sv Gr]. destruct (ortho_args_are argv l r R H) as (m' & E' & A). assert (m' = m) as -> by congruence.
  destruct (ortho_args stod m) as [a|e|] eqn:Ea.
  - apply C74_only_reads with (a := a); [now apply C74_arguments| |]; rewrite A in Ea; unfold ortho_arguments_of in Ea; apply bind_Ok_inv in Ea; destruct Ea as (px & _ & Ea); apply Ok_inj in Ea; subst a; cbn [oa_save oa_graphs]; auto.
  - rewrite (C73_failure_hidden X build surf prune line listing K G stod m w e Ea). reflexivity.
  - cbn [ortho_main]. unfold bnd, lift. rewrite Ea. reflexivity.
Qed.
(** two accepted lines with the same request, up to what is ignored without 'save' and without
    'rasterize', do the same *)
Theorem C95_same : forall argv l r argv' l' r', reads ortho_table argv l -> ortho_line l r -> reads ortho_table argv' l' -> ortho_line l' r' ->
  rq_scene r = rq_scene r' -> rq_format r = rq_format r' -> rq_prune r = rq_prune r' -> rq_graphs r = rq_graphs r' -> rq_terrain r = rq_terrain r' -> rq_save r = rq_save r' ->
  (rq_save r = true -> rq_sum r = rq_sum r' /\ rq_labels r = rq_labels r') -> rq_rasterize r = rq_rasterize r' ->
  (rq_rasterize r = true -> match rq_pixel r with Some s => s | None => lit "1" end = match rq_pixel r' with Some s => s | None => lit "1" end) ->
  forall w, ortho (docopt ortho_usage argv) w = ortho (docopt ortho_usage argv') w.
Proof.
  intros argv l r argv' l' r' R H R' H' E1 E2 E3 E4 E5 E6 E7 E8 E9 w. destruct (ortho_args_are argv l r R H) as (m & -> & A). destruct (ortho_args_are argv' l' r' R' H') as (m' & -> & A').
  cbn [ortho_main]. rewrite A, A'. replace (ortho_arguments_of stod r) with (ortho_arguments_of stod r'); auto. unfold ortho_arguments_of. rewrite <- E1, <- E2, <- E3, <- E4, <- E5, <- E6, <- E8.
  destruct (rq_save r); [destruct E7 as [<- <-]; auto|]; (destruct (rq_rasterize r); [rewrite E9; auto|auto]).
Qed.
(** whatever the line, files change only in the three directories beside the scene *)
Theorem C95_confined : forall argv w, (forall s, In s argv -> ~ In nul s) -> let w' := fst (ortho (docopt ortho_usage argv) w) in
  w' = w \/ exists scene, In scene argv /\ forall p, w_fs w' p <> w_fs w p -> exists d q, In d [lit "dual_graphs"; lit "vectors"; lit "rasters"] /\ p = parent_path (scene_path scene) ++ d :: q.
Proof.
  intros argv w N w'. destruct (docopt ortho_usage argv) as [c|m] eqn:E; [left; reflexivity|]. destruct (proj1 (C95_line argv)) as (l & r & R & H); [eauto|].
  destruct (ortho_args_are argv l r R H) as (m' & E' & A). assert (m' = m) as -> by congruence. destruct (ortho_args stod m) as [a|e|] eqn:Ea.
  - right. assert (oa_path a = scene_path (rq_scene r)) as Pa by (rewrite A in Ea; unfold ortho_arguments_of in Ea; apply bind_Ok_inv in Ea; destruct Ea as (px & _ & Ea); apply Ok_inj in Ea; subst a; reflexivity).
    exists (rq_scene r). assert (In (rq_scene r) argv) as Is by (apply (reads_words _ _ _ R); rewrite (ol_words l r H); now left). split; auto. intros p D.
    apply C74_arguments in Ea. destruct (C74_confined X build surf prune line listing K G stod m a w Ea) as (C & _).
    { rewrite Pa. intros c I. apply removelast_in in I. exact (scene_path_no_nul _ (N _ Is) c I). }
    unfold only_in in C. fold w' in C. rewrite <- Pa. destruct (under_one (touched a) p) as [(d & q & Id & Ep)|O].
    + unfold touched in Id.
      assert (exists n, In n [lit "dual_graphs"; lit "vectors"; lit "rasters"] /\ d = parent_path (oa_path a) ++ [n]) as (n & In' & ->).
      { apply in_app_or in Id. destruct Id as [Id|Id].
        - destruct (oa_graphs a); [destruct Id as [<-|[]]|destruct Id]. eexists. split; [now left|reflexivity].
        - destruct (oa_save a); [|destruct Id]. destruct Id as [<-|Id]; [eexists; split; [right; now left|reflexivity]|]. destruct (rasterizing a); [destruct Id as [<-|[]]|destruct Id]. eexists. split; [right; right; now left|reflexivity]. }
      exists n, q. split; auto. rewrite Ep, <- app_assoc. reflexivity.
    + exfalso. apply D, C. exact O.
  - left. unfold w'. rewrite (C73_failure_hidden X build surf prune line listing K G stod m w e Ea). reflexivity.
  - left. unfold w'. cbn [ortho_main]. unfold bnd, lift. rewrite Ea. reflexivity.
Qed.
End PROGRAM.

(** ** Examples *)
Ltac known := cbn [map fst ortho_table format_table In]; tauto.
Ltac by_name := let m := fresh in let I := fresh in intros m I; cbn [map fst ortho_table format_table In] in I; repeat (destruct I as [<-|I]; [first [discriminate|reflexivity|let t := fresh in let E := fresh in intros [t E]; first [reflexivity|discriminate E]]|]); destruct I.
Ltac no_eq := let c := fresh in let I := fresh in intros c I; cbn in I; repeat (destruct I as [<-|I]; [discriminate|]); destruct I.
Ltac in_full := split; [eexists; reflexivity|split; [known|split; [left; reflexivity|no_eq]]].
Ltac shortened := split; [eexists; reflexivity|split; [known|split; [right; split; [eexists; reflexivity|split; by_name]|no_eq]]].
Ltac a_word := left; intros [? ?]; discriminate.
Definition city_line : list str := [lit "--graphs"; lit "d/city.obj"; lit "--in=OBJ"; lit "save"; lit "--scene"; lit "rasterize"; lit "--pixel-size"; lit "1"; lit "--prune"].
Definition city_said : list said := [Flag "--graphs"; Word (lit "d/city.obj"); Given "--input-format" (lit "OBJ"); Word (lit "save"); Flag "--scene"; Word (lit "rasterize"); Given "--pixel-size" (lit "1"); Flag "--prune"].
Definition city_request : ortho_request := mkOrthoReq (lit "d/city.obj") (lit "OBJ") true true false true true false true (Some (lit "1")).
Ltac listed := first [tauto | let H := fresh in intros H; cbn [In] in H; intuition discriminate].
Example C95_example : reads ortho_table city_line city_said /\ ortho_line city_said city_request /\
  (exists m, docopt ortho_usage city_line = PArgs m /\ ortho_args stod_one m = Ok ortho_a) /\
  ortho_ex (docopt ortho_usage city_line) start = ortho_ex (PArgs ortho_map) start.
Proof.
  assert (reads ortho_table city_line city_said) as R.
  { unfold city_line, city_said. apply reads_flag; [in_full|]. apply reads_word; [a_word|].
    apply (reads_joined ortho_table (lit "--in") "--input-format" (lit "OBJ")); [shortened|]. apply reads_word; [a_word|]. apply reads_flag; [in_full|]. apply reads_word; [a_word|].
    apply reads_apart; [in_full|discriminate|discriminate|]. apply reads_flag; [in_full|]. constructor. }
  assert (ortho_line city_said city_request) as H.
  { constructor; cbn [rq_scene rq_format rq_prune rq_graphs rq_terrain rq_save rq_sum rq_labels rq_rasterize rq_pixel city_request].
    - reflexivity.
    - repeat constructor; cbn [In]; intuition discriminate.
    - intros n I. cbn in I. cbn [In]. tauto.
    - intros s. split; [intros E; injection E as <-; cbn; tauto|]. intros I. cbn in I. repeat (destruct I as [I|I]; [try discriminate; injection I as <-; reflexivity|]). destruct I.
    - split; [intros _; cbn; tauto|reflexivity].
    - split; [intros _; cbn; tauto|reflexivity].
    - split; [discriminate|]. intros I. cbn in I. intuition discriminate.
    - split; [intros _; cbn; tauto|reflexivity].
    - split; [discriminate|]. intros I. cbn in I. intuition discriminate.
    - intros s. split; [intros E; injection E as <-; cbn; tauto|]. intros I. cbn in I. repeat (destruct I as [I|I]; [try discriminate; injection I as <-; reflexivity|]). destruct I. }
  split; [exact R|]. split; [exact H|].
  destruct (ortho_args_are _ _ _ R H) as (m & E & A). split; [exists m; split; [exact E|]; rewrite A; reflexivity|].
  rewrite E. unfold ortho_ex. cbn [ortho_main]. rewrite A. reflexivity.
Qed.
(** help, the forbidden --cache, an ambiguous beginning, an unknown option, 'rasterize' before 'save' *)
Example C95_exits : docopt ortho_usage [lit "-h"] = PExit 0 /\ docopt ortho_usage [lit "--he"] = PExit 0 /\ docopt ortho_usage [lit "--version"] = PExit 0 /\
  docopt ortho_usage [lit "d/city.obj"; lit "--input-format=OBJ"; lit "--cache"] = PExit (-1) /\
  docopt ortho_usage [lit "d/city.obj"; lit "--input-format=OBJ"; lit "--p"] = PExit (-1) /\
  docopt ortho_usage [lit "d/city.obj"; lit "--input-format=OBJ"; lit "--other"] = PExit (-1) /\
  docopt ortho_usage [lit "d/city.obj"; lit "--input-format=OBJ"; lit "rasterize"; lit "save"] = PExit (-1) /\
  docopt ortho_usage [lit "d/city.obj"; lit "save"] = PExit (-1) /\ docopt ortho_usage [] = PExit (-1).
Proof. repeat split; vm_compute; reflexivity. Qed.
