(** * The usage text of cityformat: lemmas for C96. *)
From Coq Require Import Strings.String Lia.
From Verif Require Import Base Dbl Decimal Streams Handlers Raster Spec_io Cli Spec_cli Docopt Spec_line Handlers_proofs Docopt_proofs Line_proofs Props_cli Ortho_line.
Import List.
Open Scope nat_scope.

Definition format_alt : pat :=
  PReq [PLeaf (LArg (lit "<scene>") VNone); opt_leaf "--input-format" true VNone;
        POpt [flag_leaf "--prune"; flag_leaf "--graphs"; flag_leaf "--terrain"];
        POpt [cmd_leaf "output"; PLeaf (LArg (lit "<path>") VNone); opt_leaf "--output-format" true VNone]].
Definition formats_alt : pat := PReq [flag_leaf "--formats"].
Definition format_pq : pat * list opt := match pattern_of format_usage with Some r => r | None => (PReq [], []) end.
Definition format_o : list opt := snd format_pq.
Definition format_q : pat := fix_pattern (fst format_pq).
Lemma format_pattern : pattern_of format_usage = Some (fst format_pq, format_o).
Proof. vm_compute. reflexivity. Qed.
Lemma format_shape : exists rest, format_q = PReq [PEith [format_alt; formats_alt; PReq [PReq [PEith [help_leaf; help_leaf]]]; PReq (version_leaf :: rest)]].
Proof. eexists. vm_compute. reflexivity. Qed.
Definition format_base (d : list (str * value)) : Prop :=
  (forall n, In n ["--prune"; "--graphs"; "--terrain"; "output"; "--formats"]%string -> lookup d (lit n) = Some (VBool false)) /\
  lookup d (lit "<path>") = Some VNone /\ lookup d (lit "--output-format") = Some VNone.
Lemma format_defaults : format_base (leaf_defaults format_q).
Proof. split; [|split; vm_compute; reflexivity]. intros n I. cbn [In] in I. repeat (destruct I as [<-|I]; [vm_compute; reflexivity|]). destruct I. Qed.
Lemma format_tab : tab format_table format_o.
Proof. vm_compute. reflexivity. Qed.
Lemma format_short : forall x, In x format_o -> o_short x <> [] -> o_long x = lit "--help".
Proof.
  assert (forallb (fun x => match o_short x with [] => true | _ => str_eqb (o_long x) (lit "--help") end) format_o = true) as H by (vm_compute; reflexivity).
  intros x I N. rewrite forallb_forall in H. specialize (H x I). destruct (o_short x); [congruence|]. now apply str_eqb_eq in H.
Qed.
Lemma format_fine : fine format_table.
Proof. apply fine_check; [vm_compute; reflexivity|]. cbn [map fst format_table]. repeat constructor; cbn [In]; intuition discriminate. Qed.
Lemma format_two : exists n m, In n (map fst format_table) /\ In m (map fst format_table) /\ n <> m.
Proof. exists "--help"%string, "--version"%string. cbn. repeat split; auto. discriminate. Qed.

(** ** Matching *)
Lemma format_only l : olook (lit "--help") l = None -> olook (lit "--version") l = None -> pmatch format_q (l, []) = best (pmatch format_alt (l, [])) (pmatch formats_alt (l, [])).
Proof.
  intros H V. destruct format_shape as (rest & ->). rewrite match_req, !match_either, match_either0. unfold version_leaf at 1, opt_leaf at 1. rewrite (req_opt_none _ rest l []) by (auto; exact V).
  replace (pmatch (PReq [PReq [PEith [help_leaf; help_leaf]]]) (l, [])) with (@None state).
  - rewrite !best_none. destruct (best _ _); reflexivity.
  - symmetry. rewrite !match_req, !match_either, match_either0. unfold help_leaf. rewrite leaf_opt_none by exact H. reflexivity.
Qed.
Lemma formats_match l : pmatch formats_alt (l, []) = match olook (lit "--formats") l with Some v => Some (odrop (lit "--formats") l, [(lit "--formats", v)]) | None => None end.
Proof.
  unfold formats_alt, flag_leaf, opt_leaf. rewrite match_req, match_opt by reflexivity. rewrite opt_name. destruct (olook _ l); reflexivity.
Qed.
Definition format_left (l : list item) : list item :=
  odrop (lit "--output-format") (wdrop (cdrop (lit "output") (odrop (lit "--terrain") (odrop (lit "--graphs") (odrop (lit "--prune") (odrop (lit "--input-format") (wdrop l))))))).
Definition format_got (l : list item) (w : str) (v : value) : list (str * value) :=
  (((((((([] ++ [(lit "<scene>", VStr w)]) ++ [(lit "--input-format", v)]) ++ seg (lit "--prune") l) ++ seg (lit "--graphs") l) ++ seg (lit "--terrain") l)
   ++ cseg (lit "output") (wdrop l)) ++ aseg (lit "<path>") (cdrop (lit "output") (wdrop l))) ++ seg (lit "--output-format") l).
Lemma aseg_words n l m : words_in l = words_in m -> aseg n l = aseg n m.
Proof. unfold aseg. now intros ->. Qed.
Lemma format_match l : pmatch format_alt (l, []) =
  match words_in l, olook (lit "--input-format") l with w :: _, Some v => Some (format_left l, format_got l w v) | _, _ => None end.
Proof.
  unfold format_alt. rewrite match_req, match_word by reflexivity. destruct (words_in l) as [|w ws]; auto.
  rewrite match_req. unfold opt_leaf at 1. rewrite match_opt by reflexivity. rewrite opt_name, olook_wdrop. destruct (olook (lit "--input-format") l) as [v|]; auto.
  unfold flag_leaf, cmd_leaf, opt_leaf.
  rewrite match_req. rewrite match_optional, (try_opt _ (lit "--prune")), match_optional, (try_opt _ (lit "--graphs")), match_optional, (try_opt _ (lit "--terrain")), match_optional0 by (try apply opt_name; reflexivity).
  rewrite match_req. rewrite match_optional, (try_cmd (lit "output")), match_optional, (try_word (lit "<path>")), match_optional, (try_opt _ (lit "--output-format")), match_optional0, match_req0 by (try apply opt_name; reflexivity).
  f_equal. f_equal. unfold format_got.
  rewrite !seg_wdrop, !seg_cdrop, !seg_odrop by apart. rewrite !seg_wdrop.
  assert (forall a, cseg (lit "output") (odrop (lit "--terrain") (odrop (lit "--graphs") (odrop (lit "--prune") (odrop (lit "--input-format") a)))) = cseg (lit "output") a) as -> by (intros a; apply cseg_words; now rewrite !words_odrop).
  f_equal. f_equal. apply aseg_words. rewrite !words_cdrop. unfold cfirst. now rewrite !words_odrop.
Qed.
(** the words after the scene *)
Lemma format_words_left l : words_in (format_left l) = tl (strip_word "output" (tl (words_in l))).
Proof. unfold format_left. now rewrite words_odrop, words_wdrop, cdrop_strip, !words_odrop, words_wdrop. Qed.
Definition format_options : list string := ["--input-format"; "--prune"; "--graphs"; "--terrain"; "--output-format"]%string.
Lemma format_names_left l : onames (format_left l) = remove_all (map lit format_options) (onames l).
Proof. unfold format_left. now rewrite onames_odrop, onames_wdrop, onames_cdrop, !onames_odrop, onames_wdrop. Qed.
Lemma format_options_NoDup : NoDup format_options.
Proof. repeat constructor; cbn [In]; intuition discriminate. Qed.
(** the words of a conversion: [out] is the output path *)
Definition out_words (rest : list str) (out : option str) : Prop :=
  (out = None /\ (rest = [] \/ rest = [lit "output"])) \/ exists p, out = Some p /\ ((rest = [p] /\ p <> lit "output") \/ rest = [lit "output"; p]).
Lemma out_words_strip rest out : out_words rest out <-> strip_word "output" rest = match out with Some p => [p] | None => [] end.
Proof.
  unfold out_words, strip_word. split.
  - intros [(-> & [-> | ->])|(p & -> & [[-> N]| ->])]; try reflexivity.
    + rewrite str_eqb_false; auto.
  - destruct rest as [|w r].
    + destruct out; [discriminate|]. intros _. left. auto.
    + destruct (str_eqb w (lit "output")) eqn:E.
      * apply str_eqb_eq in E. subst w. intros ->. destruct out as [p|]; [right; exists p; auto|left; auto].
      * destruct out as [p|]; [|discriminate]. intros Q. injection Q as -> ->. right. exists p. split; auto. left. split; auto. intros ->. rewrite (proj2 (str_eqb_eq _ _) eq_refl) in E. discriminate.
Qed.
Lemma out_words_fun rest a b : out_words rest a -> out_words rest b -> a = b.
Proof. rewrite !out_words_strip. intros -> E. destruct a, b; congruence. Qed.
Lemma format_left_nil l : format_left l = [] <-> (exists out, out_words (tl (words_in l)) out) /\ NoDup (onames l) /\ incl (onames l) (map lit format_options).
Proof.
  rewrite nothing_left, format_words_left, format_names_left, remove_all_nil by (apply NoDup_lit, format_options_NoDup).
  assert (tl (strip_word "output" (tl (words_in l))) = [] <-> exists out, out_words (tl (words_in l)) out) as ->; [|tauto].
  split.
  - intros E. destruct (strip_word "output" (tl (words_in l))) as [|p r] eqn:Q; [exists None|exists (Some p)]; apply out_words_strip; rewrite Q; auto. cbn [tl] in E. now subst r.
  - intros [out H]. apply out_words_strip in H. rewrite H. now destruct out.
Qed.
(** what the map holds *)
Lemma format_map_holds d l w v rest out : format_base d -> words_in l = w :: rest -> out_words rest out -> olook (lit "--formats") l = None -> let m := rev (format_got l w v) ++ d in
  (forall n, In n ["--prune"; "--graphs"; "--terrain"; "--formats"]%string -> lookup m (lit n) = match olook (lit n) l with Some v => Some v | None => Some (VBool false) end) /\
  lookup m (lit "<scene>") = Some (VStr w) /\ lookup m (lit "--input-format") = Some v /\
  lookup m (lit "<path>") = Some (match out with Some p => VStr p | None => VNone end) /\
  lookup m (lit "--output-format") = match olook (lit "--output-format") l with Some v => Some v | None => Some VNone end.
Proof.
  intros (D & D1 & D2) W O Nf m. apply out_words_strip in O.
  assert (words_in (cdrop (lit "output") (wdrop l)) = match out with Some p => [p] | None => [] end) as Wo by (rewrite cdrop_strip, words_wdrop, W; exact O).
  assert (forall k, str_eqb (lit "output") k = false -> lookup m k =
    if str_eqb (lit "--output-format") k then match olook (lit "--output-format") l with Some v => Some v | None => lookup d k end else
    if str_eqb (lit "<path>") k then match out with Some p => Some (VStr p) | None => lookup d k end else
    if str_eqb (lit "--terrain") k then match olook (lit "--terrain") l with Some v => Some v | None => lookup d k end else
    if str_eqb (lit "--graphs") k then match olook (lit "--graphs") l with Some v => Some v | None => lookup d k end else
    if str_eqb (lit "--prune") k then match olook (lit "--prune") l with Some v => Some v | None => lookup d k end else
    if str_eqb (lit "--input-format") k then Some v else if str_eqb (lit "<scene>") k then Some (VStr w) else lookup d k) as L.
  { intros k Ok'. subst m. unfold format_got. rewrite rev_seg, rev_aseg, rev_cseg, !rev_seg, !rev_one. cbn [rev]. rewrite <- !app_assoc.
    rewrite lookup_seg, lookup_aseg, lookup_cseg, !lookup_seg, Wo, Ok'. cbn [app]. rewrite !lookup_cons.
    repeat match goal with |- context [str_eqb (lit ?a) k] => let E := fresh in destruct (str_eqb (lit a) k) eqn:E; [apply str_eqb_eq in E; subst k; vm_compute (str_eqb _ _); cbv iota; destruct out; reflexivity|] end. reflexivity. }
  repeat split.
  - intros n I. cbn [In] in I. repeat (destruct I as [<-|I]; [rewrite L by reflexivity; vm_compute (str_eqb _ _); cbv iota; rewrite D by (cbn [In]; tauto); rewrite ?Nf; reflexivity|]). destruct I.
  - rewrite L by reflexivity. reflexivity.
  - rewrite L by reflexivity. reflexivity.
  - rewrite L by reflexivity. vm_compute (str_eqb _ _). cbv iota. rewrite D1. now destruct out.
  - rewrite L by reflexivity. vm_compute (str_eqb _ _). cbv iota. now rewrite D2.
Qed.
