(** * Matching the two usage texts: lemmas for C95 and C96. *)
From Coq Require Import Strings.String Lia.
From Verif Require Import Base Dbl Decimal Streams Handlers Raster Spec_io Cli Docopt Spec_line Handlers_proofs Docopt_proofs.
Import List.
Open Scope nat_scope.

(** ** One leaf *)
Definition plain (v : value) : bool := match v with VLong _ | VStrs _ => false | _ => true end.
Definition seg (n : str) (l : list item) : list (str * value) := match olook n l with Some v => [(n, v)] | None => [] end.
Definition cfirst (n : str) (l : list item) : bool := match words_in l with w :: _ => str_eqb w n | [] => false end.
Definition cdrop (n : str) (l : list item) : list item := if cfirst n l then wdrop l else l.
Definition cseg (n : str) (l : list item) : list (str * value) := if cfirst n l then [(n, VBool true)] else [].
Definition adrop (l : list item) : list item := wdrop l.
Definition aseg (n : str) (l : list item) : list (str * value) := match words_in l with w :: _ => [(n, VStr w)] | [] => [] end.
Lemma wdrop_none l : words_in l = [] -> wdrop l = l.
Proof. induction l as [|[w|x] l IH]; cbn [words_in wdrop]; intros E; auto; [discriminate|]. now rewrite IH. Qed.
Lemma collect_plain p v c : plain (leaf_value p) = true -> collect p v c = c ++ [(leaf_name p, v)].
Proof. unfold collect. destruct (leaf_value p); cbn [plain]; intros; auto; discriminate. Qed.
Lemma match_opt o l c : plain (o_value o) = true -> pmatch (PLeaf (LOpt o)) (l, c) = match olook (o_name o) l with Some v => Some (odrop (o_name o) l, c ++ [(o_name o, v)]) | None => None end.
Proof.
  intros P. cbn [pmatch single_match fst snd]. rewrite take_opt_eq. destruct (olook (o_name o) l) as [v|]; cbn [option_map]; auto. rewrite collect_plain; auto.
Qed.
Lemma match_word n v l c : plain v = true -> pmatch (PLeaf (LArg n v)) (l, c) = match words_in l with w :: _ => Some (wdrop l, c ++ [(n, VStr w)]) | [] => None end.
Proof. intros P. cbn [pmatch single_match fst snd]. rewrite take_word_eq. destruct (words_in l); cbn [option_map fst snd]; auto. rewrite collect_plain; auto. Qed.
Lemma match_cmd n v l c : plain v = true -> pmatch (PLeaf (LCmd n v)) (l, c) = if cfirst n l then Some (wdrop l, c ++ [(n, VBool true)]) else None.
Proof. intros P. cbn [pmatch single_match fst snd]. rewrite take_word_eq. unfold cfirst. destruct (words_in l) as [|w ws]; auto. destruct (str_eqb w n); auto. rewrite collect_plain; auto. Qed.
Definition otry (p : pat) (s : state) : state := match pmatch p s with Some s => s | None => s end.
Lemma try_opt o n l c : o_name o = n -> plain (o_value o) = true -> otry (PLeaf (LOpt o)) (l, c) = (odrop n l, c ++ seg n l).
Proof. intros <- P. unfold otry. rewrite match_opt; auto. unfold seg. destruct (olook (o_name o) l) as [v|] eqn:E; auto. now rewrite (odrop_none _ _ E), app_nil_r. Qed.
Lemma try_cmd n v l c : plain v = true -> otry (PLeaf (LCmd n v)) (l, c) = (cdrop n l, c ++ cseg n l).
Proof. intros P. unfold otry. rewrite match_cmd; auto. unfold cdrop, cseg. destruct (cfirst n l); auto. now rewrite app_nil_r. Qed.
Lemma try_word n v l c : plain v = true -> otry (PLeaf (LArg n v)) (l, c) = (wdrop l, c ++ aseg n l).
Proof. intros P. unfold otry. rewrite match_word; auto. unfold aseg. destruct (words_in l) eqn:E; auto. now rewrite (wdrop_none _ E), app_nil_r. Qed.
Lemma match_req p ps s : pmatch (PReq (p :: ps)) s = match pmatch p s with Some s => pmatch (PReq ps) s | None => None end.
Proof. reflexivity. Qed.
Lemma match_req0 s : pmatch (PReq []) s = Some s.
Proof. reflexivity. Qed.
Lemma match_optional p ps s : pmatch (POpt (p :: ps)) s = pmatch (POpt ps) (otry p s).
Proof. reflexivity. Qed.
Lemma match_optional0 s : pmatch (POpt []) s = Some s.
Proof. reflexivity. Qed.
Lemma match_either p ps s : pmatch (PEith (p :: ps)) s = best (pmatch p s) (pmatch (PEith ps) s).
Proof. reflexivity. Qed.
Lemma match_either0 s : pmatch (PEith []) s = None.
Proof. reflexivity. Qed.
Lemma best_none a : best a None = a.
Proof. now destruct a. Qed.
Lemma req_opt_none o ps l c : plain (o_value o) = true \/ True -> olook (o_name o) l = None -> pmatch (PReq (PLeaf (LOpt o) :: ps)) (l, c) = None.
Proof. intros _ E. rewrite match_req. cbn [pmatch single_match fst snd]. now rewrite take_opt_eq, E. Qed.
Lemma leaf_opt_none o l c : olook (o_name o) l = None -> pmatch (PLeaf (LOpt o)) (l, c) = None.
Proof. intros E. cbn [pmatch single_match fst snd]. now rewrite take_opt_eq, E. Qed.
Lemma opt_set_look n l : opt_set n l = match olook n l with Some _ => true | None => false end.
Proof. induction l as [|[w|x] l IH]; cbn [opt_set existsb olook]; auto. fold (opt_set n l). destruct (str_eqb (o_name x) n); auto. Qed.
Lemma olook_in n l : olook n l = None <-> ~ In n (onames l).
Proof.
  induction l as [|[w|x] l IH]; cbn [olook onames In]; [tauto|exact IH|]. destruct (str_eqb (o_name x) n) eqn:E.
  - apply str_eqb_eq in E. split; [discriminate|]. intros H. exfalso. auto.
  - rewrite IH. split; [|tauto]. intros H [D|D]; auto. apply str_eqb_eq in D. congruence.
Qed.

(** ** Looking up what was collected *)
Lemma lookup_cons k n v m : lookup ((n, v) :: m) k = if str_eqb n k then Some v else lookup m k.
Proof. reflexivity. Qed.
Lemma lookup_seg n l m k : lookup (seg n l ++ m) k = if str_eqb n k then match olook n l with Some v => Some v | None => lookup m k end else lookup m k.
Proof. unfold seg. destruct (olook n l); cbn [app lookup]; auto. now destruct (str_eqb n k). Qed.
Lemma lookup_cseg n l m k : lookup (cseg n l ++ m) k = if str_eqb n k then (if cfirst n l then Some (VBool true) else lookup m k) else lookup m k.
Proof. unfold cseg. destruct (cfirst n l); cbn [app lookup]; auto. now destruct (str_eqb n k). Qed.
Lemma lookup_aseg n l m k : lookup (aseg n l ++ m) k = if str_eqb n k then match words_in l with w :: _ => Some (VStr w) | [] => lookup m k end else lookup m k.
Proof. unfold aseg. destruct (words_in l); cbn [app lookup]; auto. now destruct (str_eqb n k). Qed.
Lemma rev_seg n l a : rev (a ++ seg n l) = seg n l ++ rev a.
Proof. rewrite rev_app_distr. unfold seg. now destruct (olook n l). Qed.
Lemma rev_cseg n l a : rev (a ++ cseg n l) = cseg n l ++ rev a.
Proof. rewrite rev_app_distr. unfold cseg. now destruct (cfirst n l). Qed.
Lemma rev_aseg n l a : rev (a ++ aseg n l) = aseg n l ++ rev a.
Proof. rewrite rev_app_distr. unfold aseg. now destruct (words_in l). Qed.
Lemma rev_one {A} (x : A) a : rev (a ++ [x]) = x :: rev a.
Proof. now rewrite rev_app_distr. Qed.
Lemma cfirst_words n l : cfirst n l = match words_in l with w :: _ => str_eqb w n | [] => false end.
Proof. reflexivity. Qed.
Lemma words_cdrop n l : words_in (cdrop n l) = if cfirst n l then tl (words_in l) else words_in l.
Proof. unfold cdrop. destruct (cfirst n l); auto. apply words_wdrop. Qed.
Lemma olook_cdrop m n l : olook m (cdrop n l) = olook m l.
Proof. unfold cdrop. destruct (cfirst n l); auto. apply olook_wdrop. Qed.
Lemma onames_cdrop n l : onames (cdrop n l) = onames l.
Proof. unfold cdrop. destruct (cfirst n l); auto. apply onames_wdrop. Qed.
Lemma seg_odrop n m l : n <> m -> seg n (odrop m l) = seg n l.
Proof. intros N. unfold seg. now rewrite olook_odrop. Qed.
Lemma seg_wdrop n l : seg n (wdrop l) = seg n l.
Proof. unfold seg. now rewrite olook_wdrop. Qed.
Lemma seg_cdrop n m l : seg n (cdrop m l) = seg n l.
Proof. unfold seg. now rewrite olook_cdrop. Qed.
Lemma cseg_words n l m : words_in l = words_in m -> cseg n l = cseg n m.
Proof. unfold cseg, cfirst. now intros ->. Qed.
Lemma names_differ (a b : string) : a <> b -> lit a <> lit b.
Proof. intros N E. apply N. now apply lit_inj. Qed.
