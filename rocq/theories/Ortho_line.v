(** * The usage text of orthoproject: lemmas for C95. *)
From Coq Require Import Strings.String Lia.
From Verif Require Import Base Dbl Decimal Streams Handlers Raster Spec_io Cli Spec_cli Docopt Spec_line Handlers_proofs Docopt_proofs Line_proofs Props_cli.
Import List.
Open Scope nat_scope.

Definition opt_leaf (n : string) (takes : bool) (v : value) : pat := PLeaf (LOpt (mkOpt [] (lit n) takes v)).
Definition flag_leaf (n : string) : pat := opt_leaf n false (VBool false).
Definition cmd_leaf (n : string) : pat := PLeaf (LCmd (lit n) (VBool false)).
Definition help_leaf : pat := PLeaf (LOpt (mkOpt (lit "-h") (lit "--help") false (VLong 0))).
Definition version_leaf : pat := opt_leaf "--version" false (VLong 0).
Definition ortho_alt : pat :=
  PReq [PLeaf (LArg (lit "<scene>") VNone); opt_leaf "--input-format" true VNone;
        POpt [flag_leaf "--prune"; flag_leaf "--graphs"; flag_leaf "--terrain"];
        POpt [cmd_leaf "save"; flag_leaf "--scene"; flag_leaf "--labels"];
        POpt [cmd_leaf "rasterize"; opt_leaf "--pixel-size" true (VStr (lit "1"))]].
Definition leaf_defaults (q : pat) : list (str * value) := rev (map (fun x => (leaf_name x, leaf_value x)) (leaves q)).
Definition ortho_pq : pat * list opt := match pattern_of ortho_usage with Some r => r | None => (PReq [], []) end.
Definition ortho_o : list opt := snd ortho_pq.
Definition ortho_q : pat := fix_pattern (fst ortho_pq).
Lemma ortho_pattern : pattern_of ortho_usage = Some (fst ortho_pq, ortho_o).
Proof. vm_compute. reflexivity. Qed.
Lemma ortho_shape : exists rest, ortho_q = PReq [PEith [ortho_alt; PReq [PReq [PEith [help_leaf; help_leaf]]]; PReq (version_leaf :: rest)]].
Proof. eexists. vm_compute. reflexivity. Qed.
Definition ortho_base (d : list (str * value)) : Prop :=
  (forall n, In n ["--prune"; "--cache"; "--graphs"; "--terrain"; "save"; "--scene"; "--labels"; "rasterize"]%string -> lookup d (lit n) = Some (VBool false)) /\
  lookup d (lit "--pixel-size") = Some (VStr (lit "1")).
Lemma ortho_defaults : ortho_base (leaf_defaults ortho_q).
Proof. split; [|vm_compute; reflexivity]. intros n I. cbn [In] in I. repeat (destruct I as [<-|I]; [vm_compute; reflexivity|]). destruct I. Qed.
Lemma ortho_tab : tab ortho_table ortho_o.
Proof. vm_compute. reflexivity. Qed.
Lemma ortho_short : forall x, In x ortho_o -> o_short x <> [] -> o_long x = lit "--help".
Proof.
  assert (forallb (fun x => match o_short x with [] => true | _ => str_eqb (o_long x) (lit "--help") end) ortho_o = true) as H by (vm_compute; reflexivity).
  intros x I N. rewrite forallb_forall in H. specialize (H x I). destruct (o_short x); [congruence|]. now apply str_eqb_eq in H.
Qed.
Definition fine_b (T : table) : bool :=
  forallb (fun e => prefix_of (lit "--") (lit (fst e)) && forallb (fun c => negb (Ascii.eqb c ch_eq)) (lit (fst e)) && negb (str_eqb (lit (fst e)) (lit "--"))) T.
Lemma fine_check T : fine_b T = true -> NoDup (map fst T) -> fine T.
Proof.
  intros H N. split; auto. intros n I. apply in_map_iff in I. destruct I as ([n' b] & E & I). cbn [fst] in E. subst n'. unfold fine_b in H. rewrite forallb_forall in H. specialize (H _ I). cbn [fst] in H.
  apply Bool.andb_true_iff in H. destruct H as [H H3]. apply Bool.andb_true_iff in H. destruct H as [H1 H2]. split; [now apply prefix_begins|]. split.
  - intros c Ic ->. rewrite forallb_forall in H2. specialize (H2 _ Ic). discriminate.
  - intros E. apply str_eqb_eq in E. rewrite E in H3. discriminate.
Qed.
Lemma ortho_fine : fine ortho_table.
Proof.
  apply fine_check; [vm_compute; reflexivity|]. cbn [map fst ortho_table]. repeat constructor; cbn [In]; intuition discriminate.
Qed.
Lemma ortho_two : exists n m, In n (map fst ortho_table) /\ In m (map fst ortho_table) /\ n <> m.
Proof. exists "--help"%string, "--version"%string. cbn. repeat split; auto. discriminate. Qed.

(** ** Matching *)
Ltac apart := apply names_differ; discriminate.
Lemma ortho_only l : olook (lit "--help") l = None -> olook (lit "--version") l = None -> pmatch ortho_q (l, []) = pmatch ortho_alt (l, []).
Proof.
  intros H V. destruct ortho_shape as (rest & ->). rewrite match_req, !match_either, match_either0. unfold version_leaf, opt_leaf. rewrite (req_opt_none _ rest l []) by (auto; exact V).
  replace (pmatch (PReq [PReq [PEith [help_leaf; help_leaf]]]) (l, [])) with (@None state).
  - rewrite !best_none. destruct (pmatch ortho_alt (l, [])); reflexivity.
  - symmetry. rewrite !match_req, !match_either, match_either0. unfold help_leaf. rewrite leaf_opt_none by exact H. reflexivity.
Qed.
Definition ortho_left (l : list item) : list item :=
  odrop (lit "--pixel-size") (cdrop (lit "rasterize") (odrop (lit "--labels") (odrop (lit "--scene") (cdrop (lit "save")
    (odrop (lit "--terrain") (odrop (lit "--graphs") (odrop (lit "--prune") (odrop (lit "--input-format") (wdrop l))))))))).
Definition ortho_got (l : list item) (w : str) (v : value) : list (str * value) :=
  (((((((((([] ++ [(lit "<scene>", VStr w)]) ++ [(lit "--input-format", v)]) ++ seg (lit "--prune") l) ++ seg (lit "--graphs") l) ++ seg (lit "--terrain") l)
   ++ cseg (lit "save") (wdrop l)) ++ seg (lit "--scene") l) ++ seg (lit "--labels") l) ++ cseg (lit "rasterize") (cdrop (lit "save") (wdrop l))) ++ seg (lit "--pixel-size") l).
Lemma opt_name n t v : o_name (mkOpt [] (lit n) t v) = lit n.
Proof. unfold o_name. cbn [o_long o_short]. now destruct (lit n). Qed.
Lemma ortho_match l : pmatch ortho_alt (l, []) =
  match words_in l, olook (lit "--input-format") l with w :: _, Some v => Some (ortho_left l, ortho_got l w v) | _, _ => None end.
Proof.
  unfold ortho_alt. rewrite match_req, match_word by reflexivity. destruct (words_in l) as [|w ws]; auto.
  rewrite match_req. unfold opt_leaf at 1. rewrite match_opt by reflexivity. rewrite opt_name, olook_wdrop. destruct (olook (lit "--input-format") l) as [v|]; auto.
  unfold flag_leaf, cmd_leaf, opt_leaf.
  rewrite match_req. rewrite match_optional, (try_opt _ (lit "--prune")), match_optional, (try_opt _ (lit "--graphs")), match_optional, (try_opt _ (lit "--terrain")), match_optional0 by (try apply opt_name; reflexivity).
  rewrite match_req. rewrite match_optional, (try_cmd (lit "save")), match_optional, (try_opt _ (lit "--scene")), match_optional, (try_opt _ (lit "--labels")), match_optional0 by (try apply opt_name; reflexivity).
  rewrite match_req. rewrite match_optional, (try_cmd (lit "rasterize")), match_optional, (try_opt _ (lit "--pixel-size")), match_optional0, match_req0 by (try apply opt_name; reflexivity).
  f_equal. f_equal. unfold ortho_got.
  rewrite !seg_odrop by apart. rewrite !seg_cdrop, !seg_odrop, !seg_cdrop by apart. rewrite !seg_odrop by apart. rewrite !seg_wdrop.
  assert (forall a, cseg (lit "save") (odrop (lit "--terrain") (odrop (lit "--graphs") (odrop (lit "--prune") (odrop (lit "--input-format") a)))) = cseg (lit "save") a) as -> by (intros a; apply cseg_words; now rewrite !words_odrop).
  do 1 f_equal. f_equal. apply cseg_words. rewrite !words_odrop, !words_cdrop. unfold cfirst. now rewrite !words_odrop.
Qed.
(** the words after the scene *)
Definition opt_word (b : bool) (n : string) : list str := if b then [lit n] else [].
Definition strip_word (n : string) (ws : list str) : list str := match ws with w :: r => if str_eqb w (lit n) then r else ws | [] => [] end.
Lemma cdrop_strip n l : words_in (cdrop (lit n) l) = strip_word n (words_in l).
Proof. rewrite words_cdrop. unfold cfirst, strip_word. destruct (words_in l) as [|w r]; [reflexivity|]. cbn [tl]. destruct (str_eqb w (lit n)); reflexivity. Qed.
Lemma ortho_words_left l : words_in (ortho_left l) = strip_word "rasterize" (strip_word "save" (tl (words_in l))).
Proof. unfold ortho_left. now rewrite !words_odrop, cdrop_strip, !words_odrop, cdrop_strip, !words_odrop, words_wdrop. Qed.
Lemma strip_nil n ws : strip_word n ws = [] <-> exists b, ws = opt_word b n.
Proof.
  unfold strip_word. destruct ws as [|w r].
  - split; [intros _; now exists false|reflexivity].
  - destruct (str_eqb w (lit n)) eqn:E.
    + apply str_eqb_eq in E. subst w. split; [intros ->; now exists true|]. intros [[|] H]; [now injection H|discriminate].
    + split; [discriminate|]. intros [[|] H]; [|discriminate]. injection H as -> _. rewrite (proj2 (str_eqb_eq _ _) eq_refl) in E. discriminate.
Qed.
Lemma strip_word_cases n ws : exists b, ws = opt_word b n ++ strip_word n ws.
Proof.
  unfold strip_word. destruct ws as [|w r]; [now exists false|]. destruct (str_eqb w (lit n)) eqn:E; [|now exists false]. apply str_eqb_eq in E. subst w. now exists true.
Qed.
Lemma ortho_strip ws : strip_word "rasterize" (strip_word "save" ws) = [] <-> exists s r, ws = opt_word s "save" ++ opt_word r "rasterize".
Proof.
  rewrite strip_nil. split.
  - intros [r H]. destruct (strip_word_cases "save" ws) as [s E]. exists s, r. now rewrite <- H.
  - intros (s & r & ->). exists r. destruct s, r; reflexivity.
Qed.
Definition ortho_options : list string := ["--input-format"; "--prune"; "--graphs"; "--terrain"; "--scene"; "--labels"; "--pixel-size"]%string.
Lemma ortho_names_left l : onames (ortho_left l) = remove_all (map lit ortho_options) (onames l).
Proof. unfold ortho_left. now rewrite !onames_odrop, onames_cdrop, !onames_odrop, onames_cdrop, !onames_odrop, onames_wdrop. Qed.
Lemma ortho_options_NoDup : NoDup ortho_options.
Proof. repeat constructor; cbn [In]; intuition discriminate. Qed.
Lemma ortho_left_nil l : ortho_left l = [] <-> (exists s r, tl (words_in l) = opt_word s "save" ++ opt_word r "rasterize") /\ NoDup (onames l) /\ incl (onames l) (map lit ortho_options).
Proof. rewrite nothing_left, ortho_words_left, ortho_names_left, ortho_strip, remove_all_nil; [tauto|]. apply NoDup_lit, ortho_options_NoDup. Qed.

(** what the map holds *)
Lemma ortho_map_holds d l w v s r : ortho_base d -> words_in l = w :: opt_word s "save" ++ opt_word r "rasterize" -> let m := rev (ortho_got l w v) ++ d in
  (forall n, In n ["--prune"; "--graphs"; "--terrain"; "--scene"; "--labels"]%string -> lookup m (lit n) = match olook (lit n) l with Some v => Some v | None => Some (VBool false) end) /\
  lookup m (lit "<scene>") = Some (VStr w) /\ lookup m (lit "--input-format") = Some v /\ lookup m (lit "--cache") = Some (VBool false) /\
  lookup m (lit "save") = Some (VBool s) /\ lookup m (lit "rasterize") = Some (VBool r) /\
  lookup m (lit "--pixel-size") = match olook (lit "--pixel-size") l with Some v => Some v | None => Some (VStr (lit "1")) end.
Proof.
  intros [D D'] W m.
  assert (cfirst (lit "save") (wdrop l) = s) as Cs by (unfold cfirst; rewrite words_wdrop, W; destruct s, r; reflexivity).
  assert (cfirst (lit "rasterize") (cdrop (lit "save") (wdrop l)) = r) as Cr by (unfold cfirst; rewrite cdrop_strip, words_wdrop, W; destruct s, r; reflexivity).
  assert (forall k, lookup m k =
    if str_eqb (lit "--pixel-size") k then match olook (lit "--pixel-size") l with Some v => Some v | None => lookup d k end else
    if str_eqb (lit "rasterize") k then (if r then Some (VBool true) else lookup d k) else
    if str_eqb (lit "--labels") k then match olook (lit "--labels") l with Some v => Some v | None => lookup d k end else
    if str_eqb (lit "--scene") k then match olook (lit "--scene") l with Some v => Some v | None => lookup d k end else
    if str_eqb (lit "save") k then (if s then Some (VBool true) else lookup d k) else
    if str_eqb (lit "--terrain") k then match olook (lit "--terrain") l with Some v => Some v | None => lookup d k end else
    if str_eqb (lit "--graphs") k then match olook (lit "--graphs") l with Some v => Some v | None => lookup d k end else
    if str_eqb (lit "--prune") k then match olook (lit "--prune") l with Some v => Some v | None => lookup d k end else
    if str_eqb (lit "--input-format") k then Some v else if str_eqb (lit "<scene>") k then Some (VStr w) else lookup d k) as L.
  { intros k. subst m. unfold ortho_got. rewrite !rev_seg, rev_cseg, !rev_seg, rev_cseg, !rev_seg, !rev_one. cbn [rev]. rewrite <- !app_assoc.
    rewrite lookup_seg, lookup_cseg, !lookup_seg, lookup_cseg, !lookup_seg, Cs, Cr. cbn [app]. rewrite !lookup_cons.
    repeat match goal with |- context [str_eqb (lit ?a) k] => let E := fresh in destruct (str_eqb (lit a) k) eqn:E; [apply str_eqb_eq in E; subst k; vm_compute (str_eqb _ _); cbv iota; reflexivity|] end. reflexivity. }
  repeat split.
  - intros n I. rewrite L. cbn [In] in I. repeat (destruct I as [<-|I]; [vm_compute (str_eqb _ _); cbv iota; rewrite D by (cbn [In]; tauto); reflexivity|]). destruct I.
  - rewrite L. reflexivity.
  - rewrite L. reflexivity.
  - rewrite L. vm_compute (str_eqb _ _). cbv iota. apply D. cbn [In]. tauto.
  - rewrite L. vm_compute (str_eqb _ _). cbv iota. rewrite D by (cbn [In]; tauto). now destruct s.
  - rewrite L. vm_compute (str_eqb _ _). cbv iota. rewrite D by (cbn [In]; tauto). now destruct r.
  - rewrite L. vm_compute (str_eqb _ _). cbv iota. now rewrite D'.
Qed.
