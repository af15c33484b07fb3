(** * Property C102: what a node inserts into a stream, and reading it again. *)
From Coq Require Strings.String.
Import Coq.Strings.String.StringSyntax.
From Coq Require Import ZArith Lia.
From Verif Require Import Base Dbl Dbl_facts Geom Decimal Round_proofs Scan_proofs Shadow Spec_shadow Shadow_proofs Streams Lines_proofs Spec_text Off_proofs Handlers Spec_io Surface Spec_surface
  Surface_proofs Raster Dq_proofs Textout Props_textout Export Spec_export Props_export Unodeout.
Import List. Import ListNotations.
Open Scope nat_scope.

(** ** Vocabulary *)
Definition blanks : str := [" "; " "]%char.
(** the line of facet [f]: how many corners, two blanks, their vertices' numbers *)
Definition facet_line_of (s : surface) (f : nat) (l : str) : Prop :=
  exists vs fc, corners s f vs /\ Forall2 (numbers s) vs fc /\ l = print_N (nsize fc) ++ blanks ++ print_indices fc.
Definition lines_of (ls : list str) : str := concat (map print_line ls).
(** the text without its empty lines *)
Definition without_empty_lines (t : str) : str := lines_of (filter (fun l => match l with [] => false | _ => true end) (readlines t)).

Lemma facet_text_eq f : f <> [] -> facet_text f = print_N (nsize f) ++ blanks ++ print_indices f.
Proof.
  intros H. unfold facet_text. f_equal. unfold blanks. change (ch_sp :: concat (map (fun i => ch_sp :: print_N i) f) = " "%char :: " "%char :: print_indices f). f_equal.
  destruct f as [|a f]; [contradiction|]. clear H. revert a. induction f as [|b f IH]; intros a; [cbn [map concat print_indices]; rewrite app_nil_r; reflexivity|].
  change (print_indices (a :: b :: f)) with (print_N a ++ ch_sp :: print_indices (b :: f)). specialize (IH b). cbn [map concat] in *. cbn [app] in *. f_equal. f_equal. exact IH.
Qed.
Lemma facet_text_reads f : (3 <= length f)%nat -> (nsize f <= 1152921504606846975)%N -> (forall i, In i f -> (i < two64)%N) -> off_face (facet_text f) = Ok f.
Proof.
  intros H3 Hn Hi. rewrite facet_text_eq by (intros ->; cbn in H3; lia). unfold off_face, blanks. cbn [app].
  rewrite (@scan_size_n_tok (print_N (nsize f)) (nsize f)); [|apply tok_size; unfold two64; lia|reflexivity].
  replace (max_indexes <? nsize f)%N with false by (unfold max_indexes; lia).
  rewrite (@scan_sizes_toks (" "%char :: " "%char :: print_indices f) f) by (apply (toks_sp scan_size), (toks_sp scan_size), print_indices_toks; auto).
  unfold copy_into. rewrite N.ltb_irrefl. unfold nsize. rewrite Nat2N.id, Nat.sub_diag. cbn [repeat bind].
  rewrite app_nil_r. unfold face_make. destruct (Nat.ltb_spec (length f) 3); [lia|reflexivity].
Qed.
Lemma facet_text_no_nl f : ~ In ch_nl (facet_text f).
Proof.
  unfold facet_text. intros H. apply in_app_or in H as [H|H]; [revert H; apply visible_no_nl, print_N_visible|]. destruct H as [H|H]; [discriminate|].
  induction f as [|a f IH]; [exact H|]. cbn [map concat] in H. destruct H as [H|H]; [discriminate|]. apply in_app_or in H as [H|H]; [revert H; apply visible_no_nl, print_N_visible|auto].
Qed.
Lemma facet_text_head f : head_visible (facet_text f).
Proof.
  unfold facet_text, print_N. destruct (print_nat_head (Z.of_N (nsize f)) ltac:(lia)) as (c & r & E & Hc). rewrite E.
  exists c. eexists. split; [reflexivity|]. apply isdig_visible; auto.
Qed.
(** the lines after the name *)
Definition node_lines (m : mesh) : list str := s_off :: counts_line m :: [] :: map print_point (m_points m) ++ map facet_text (m_faces m) ++ [[]].
Lemma unode_text_eq tod u : unode_text tod u = let* m := mesh_of_unode tod u in Ok (lines_of ((say "# Name: "%string ++ u_name u) :: node_lines m)).
Proof.
  unfold unode_text, surface_text, mesh_of_unode, mesh_of_surface. set (s := b_surface (u_surf u)).
  destruct (omapM (face_of_facet s) (s_facets s)) as [F| |] eqn:E; cbn [bind]; try reflexivity. f_equal.
  apply omapM_Ok in E. pose proof (Forall2_len E) as L. unfold lines_of, node_lines, counts_line. cbn [m_points m_faces map concat].
  rewrite !map_app, !concat_app, !concat_lines. replace (nsize (s_facets s)) with (nsize F) by (unfold nsize; now rewrite L).
  replace (nsize (map (fun v => point_of tod (s_point s v)) (s_vertices s))) with (nsize (s_vertices s)) by (unfold nsize; now rewrite map_length).
  unfold print_line. rewrite !map_map. cbn [map concat]. rewrite !app_nil_r, <- !app_assoc. reflexivity.
Qed.
Lemma node_mesh_eq tod u m : mesh_of_unode tod u = Ok m -> node_mesh tod u = m.
Proof. intros E. unfold node_mesh. now rewrite E. Qed.

(** ** C102 *)
(** the text: the name in a comment, the keyword, the counts, an empty line, the vertices, the facets, an empty line *)
Theorem C102_layout : forall tod u, let s := b_surface (u_surf u) in valid s -> NoDup (s_vertices s) ->
  exists fl, unode_text tod u = Ok (lines_of ((say "# Name: "%string ++ u_name u) :: off_keyword ::
      (print_N (nsize (s_vertices s)) ++ " "%char :: print_N (nsize (s_facets s)) ++ say " 0"%string) :: [] ::
      map (fun p => print_point (shown tod p)) (points s) ++ fl ++ [[]])) /\
    Forall2 (facet_line_of s) (s_facets s) fl.
Proof.
  intros tod u s V Nd. destruct (C85_node tod u V Nd) as (m & E & _ & N & (S1 & S2 & _)). exists (map facet_text (m_faces m)). split.
  - rewrite unode_text_eq, E. cbn [bind]. f_equal. unfold node_lines, counts_line. fold s in S1, S2. rewrite S1. rewrite map_map.
    replace (nsize (map (shown tod) (points s))) with (nsize (s_vertices s)) by (unfold nsize, points; now rewrite !map_length).
    replace (nsize (m_faces m)) with (nsize (s_facets s)) by (unfold nsize; now rewrite (Forall2_len S2)). reflexivity.
  - fold s in S2. clear -S2. induction S2 as [|f fc fs F (vs & C & B) H IH]; cbn [map]; constructor; auto. exists vs, fc. split; auto. split; auto. apply facet_text_eq.
    intros ->. inversion B. subst vs. destruct C as (r & _ & C). discriminate.
Qed.
(** the project's own OFF reader refuses the text of every node, because of the empty line after the counts *)
Lemma empty_line_read a b : forall cur, In [] (readlines_acc cur (a ++ ch_nl :: ch_nl :: b)).
Proof.
  induction a as [|c a IH]; intros cur.
  - cbn [app readlines_acc]. change (Ascii.eqb ch_nl ch_nl) with true. cbn iota. right. left. reflexivity.
  - cbn [app readlines_acc]. destruct (Ascii.eqb c ch_nl); [right|]; apply IH.
Qed.
Theorem C102_refused : forall tod u t, unode_text tod u = Ok t -> off_read t = Throw OutOfRange.
Proof.
  intros tod u t H. rewrite unode_text_eq in H. apply bind_Ok in H as (m & _ & H). apply Ok_inj in H. subst t.
  assert (In [] (readlines (lines_of ((say "# Name: "%string ++ u_name u) :: node_lines m)))) as I'.
  { unfold lines_of, node_lines. cbn [map concat]. unfold print_line at 3 4. cbn [app].
    rewrite <- !app_assoc. cbn [app]. rewrite !app_assoc. apply empty_line_read. }
  unfold off_read. destruct (off_parse_cases (lines_of ((say "# Name: "%string ++ u_name u) :: node_lines m))) as [[_ E]|[X _]]; [now rewrite E|contradiction].
Qed.
(** once its empty lines are removed it is read back: the same facets, the coordinates in six digits, no name *)
Lemma filter_nonempty ls : Forall head_visible ls -> filter (fun l : str => match l with [] => false | _ => true end) ls = ls.
Proof. induction 1 as [|l ls (c & r & -> & _) H IH]; [reflexivity|]. cbn [filter]. now rewrite IH. Qed.
Lemma text_reads tod u m : mesh_of_unode tod u = Ok m -> storable m -> ~ In newline (u_name u) -> exists t, unode_text tod u = Ok t /\
  off_read (without_empty_lines t) = Ok (mesh_make [] (map reread (m_points m)) (m_faces m)).
Proof.
  intros E (R & FO & L1 & L2) Nn. rewrite unode_text_eq, E. cbn [bind]. eexists. split; [reflexivity|].
  set (name := say "# Name: "%string ++ u_name u). set (kept := s_off :: counts_line m :: map print_point (m_points m) ++ map facet_text (m_faces m)).
  assert (~ In ch_nl name) as Nn'. { apply no_nl_after; auto. cbn. intuition discriminate. }
  assert (Forall (fun l => ~ In ch_nl l) kept) as Kn.
  { unfold kept. constructor. { intros [X|[X|[X|[]]]]; discriminate. } constructor; [apply counts_line_no_nl|]. apply Forall_app. split; apply Forall_map, Forall_forall; intros a _; [apply point_no_nl|apply facet_text_no_nl]. }
  assert (Forall head_visible kept) as Kv.
  { unfold kept. constructor. { exists "O"%char. eexists. split; [reflexivity|]. split; cbn; [lia|discriminate]. } constructor; [apply counts_line_head|]. apply Forall_app. split; apply Forall_map, Forall_forall; intros a Ha; [apply print_point_head; auto|apply facet_text_head]. }
  assert (filter (fun l : str => match l with [] => false | _ => true end) (name :: node_lines m) = name :: kept) as Fe.
  { unfold node_lines. assert (Forall head_visible (map print_point (m_points m) ++ map facet_text (m_faces m))) as Kv' by (inversion Kv as [|? ? _ K]; inversion K; assumption).
    rewrite app_assoc. destruct (counts_line_head m) as (c & r & Ec & _). unfold name, kept. cbn [filter say String.list_ascii_of_string app s_off]. rewrite Ec. cbn [filter]. rewrite filter_app, (filter_nonempty _ Kv'). cbn [filter]. rewrite app_nil_r. reflexivity. }
  unfold without_empty_lines. unfold lines_of at 2. rewrite readlines_text.
  2: { constructor; auto. unfold node_lines. inversion Kn as [|? ? K1 K2]; subst. inversion K2 as [|? ? K3 K4]; subst. constructor; auto. constructor; auto. constructor; [intros []|]. rewrite app_assoc. apply Forall_app. split; [exact K4|]. constructor; [intros []|constructor]. }
  match goal with |- context [lines_of (filter ?f ?l)] => replace (filter f l) with (name :: kept) by (symmetry; exact Fe) end.
  assert (readlines (lines_of (name :: kept)) = name :: kept) as Rl. { apply readlines_text. constructor; auto. }
  assert (significant (name :: kept) = kept) as Sg.
  { unfold significant. cbn [filter]. change (starts_with hash name) with true. cbn [negb]. clear -Kv. induction Kv as [|l ls (c & r & -> & Hv) H IH]; [reflexivity|]. cbn [filter]. rewrite IH.
    destruct (starts_with hash (c :: r)) eqn:X; [|reflexivity]. exfalso. destruct Hv as [_ Hv]. apply Hv. cbn in X. now apply Ascii.eqb_eq in X. }
  rewrite (off_read_body (lines_of (name :: kept)) (counts_line m) (map print_point (m_points m) ++ map facet_text (m_faces m)) (nsize (m_points m)) (nsize (m_faces m))).
  - rewrite firstn_app_len by (rewrite map_length; unfold nsize; lia). rewrite skipn_app_len by (rewrite map_length; unfold nsize; lia).
    rewrite omapM_map, (@omapM_Forall2 _ _ _ reread) by (intros; apply off_point_print; auto). cbn [bind].
    rewrite omapM_map, (@omapM_Forall2 _ _ _ (fun f => f)); [now rewrite map_id|]. intros f Hin. destruct (FO f Hin) as (A1 & A2 & A3). apply facet_text_reads; auto.
  - split; rewrite Rl; [|exact Sg]. intros [X|X]; [discriminate X|]. rewrite Forall_forall in Kv. destruct (Kv _ X) as (c & r & Y & _). discriminate.
  - unfold announces. rewrite counts_line_toks by auto. repeat split. cbn. lia.
  - unfold nsize. rewrite app_length, !map_length. lia.
Qed.
Theorem C102_reads : forall tod u, good_node tod u -> ~ In newline (u_name u) -> exists t m, unode_text tod u = Ok t /\
  off_read (without_empty_lines t) = Ok m /\ came_back tod (b_surface (u_surf u)) m /\ m_name m = [] /\ tight_box (m_points m) (m_bbox m).
Proof.
  intros tod u G Nn. destruct (node_storable tod u G) as (St & _ & Sh & _). destruct G as (V & Nd & _). destruct (C85_node tod u V Nd) as (m & E & En & _). rewrite En in St, Sh.
  destruct (text_reads tod u m E St Nn) as (t & Et & Er). exists t, (mesh_make [] (map reread (m_points m)) (m_faces m)). split; auto. split; auto.
  split; [|split; [reflexivity|apply compute_bbox_tight]]. apply (came_back_of tod _ m); auto. split; [reflexivity|]. apply Forall2_map_r. intros p Hp. apply reread_rel. now apply St.
Qed.
(** the text tells nodes apart up to the six digits: same name, same facets over the same numbers of vertices, each coordinate printed alike *)
Lemma first_line_eq a b s t : ~ In ch_nl a -> ~ In ch_nl b -> a ++ ch_nl :: s = b ++ ch_nl :: t -> a = b /\ s = t.
Proof.
  revert b. induction a as [|c a IH]; intros [|d b] A B E; cbn [app] in E.
  - injection E as ->. auto.
  - injection E as <- _. exfalso. apply B. now left.
  - injection E as -> _. exfalso. apply A. now left.
  - injection E as -> E. destruct (IH b) as [-> ->]; auto; intros X; [apply A|apply B]; now right.
Qed.
Theorem C102_same_text : forall tod u v, good_node tod u -> good_node tod v -> ~ In newline (u_name u) -> ~ In newline (u_name v) -> unode_text tod u = unode_text tod v ->
  let s := b_surface (u_surf u) in let s' := b_surface (u_surf v) in
  u_name u = u_name v /\ map (fun p => print_point (shown tod p)) (points s) = map (fun p => print_point (shown tod p)) (points s') /\
  exists F, Forall2 (fun f fc => exists vs, corners s f vs /\ Forall2 (numbers s) vs fc) (s_facets s) F /\
            Forall2 (fun f fc => exists vs, corners s' f vs /\ Forall2 (numbers s') vs fc) (s_facets s') F.
Proof.
  intros tod u v G G' Nu Nv H s s'. destruct (node_storable tod u G) as (St & _ & Sh & _). destruct (node_storable tod v G') as (St' & _ & Sh' & _). destruct G as (V & Nd & _). destruct G' as (V' & Nd' & _).
  destruct (C85_node tod u V Nd) as (m & E & En & _). destruct (C85_node tod v V' Nd') as (m' & E' & En' & _). rewrite En in St, Sh. rewrite En' in St', Sh'.
  destruct (text_reads tod u m E St Nu) as (t & Et & Er). destruct (text_reads tod v m' E' St' Nv) as (t' & Et' & Er'). rewrite Et, Et' in H. apply Ok_inj in H. subst t'.
  rewrite Er in Er'. apply Ok_inj in Er'. assert (m_faces m = m_faces m') as Fm by exact (f_equal m_faces Er'). assert (length (m_points m) = length (m_points m')) as Lm by (pose proof (f_equal (fun x => length (m_points x)) Er') as X; cbn [mesh_make m_points] in X; now rewrite !map_length in X).
  rewrite unode_text_eq, E in Et. rewrite unode_text_eq, E' in Et'. cbn [bind] in Et, Et'. apply Ok_inj in Et, Et'. rewrite <- Et' in Et. clear Et' Er Er' t. unfold lines_of in Et. cbn [map concat] in Et. unfold print_line in Et at 1 3. rewrite <- !app_assoc in Et. cbn [app] in Et.
  apply app_inv_head in Et. apply first_line_eq in Et as [Hn Et]; auto. split; auto. fold (lines_of (node_lines m)) in Et. fold (lines_of (node_lines m')) in Et.
  assert (forall x, Forall (fun l => ~ In ch_nl l) (node_lines x)) as Nl.
  { intros x. unfold node_lines. constructor. { intros [X|[X|[X|[]]]]; discriminate. } constructor; [apply counts_line_no_nl|]. constructor; [intros []|]. repeat (apply Forall_app; split); [| |constructor; [intros []|constructor]]; apply Forall_map, Forall_forall; intros a _; [apply point_no_nl|apply facet_text_no_nl]. }
  apply (f_equal readlines) in Et. unfold lines_of in Et. rewrite !readlines_text in Et by apply Nl. unfold node_lines in Et. injection Et as _ Et.
  destruct Sh as (S1 & S2 & _), Sh' as (S1' & S2' & _). split.
  - apply (f_equal (firstn (length (m_points m)))) in Et. rewrite !firstn_app_len in Et by (rewrite map_length; auto). rewrite S1, S1' in Et. rewrite !map_map in Et. exact Et.
  - exists (m_faces m). split; [exact S2|]. rewrite Fm. exact S2'.
Qed.

(** the tetrahedron and the two triangles of C85 *)
Definition same_str (o : outcome str) (t : str) : bool := match o with Ok s => str_eqb s t | _ => false end.
Example C102_example : good_node dq tetra_node /\ good_node dq square_node /\ ~ In newline (u_name tetra_node) /\
  same_str (unode_text dq tetra_node) (concat (map print_line (map say ["# Name: hall"; "OFF"; "4 4 0"; ""; "0 0 0"; "1 0 0"; "0 1 0"; "0 0 1"; "3  2 1 0"; "3  1 3 0"; "3  2 3 1"; "3  0 3 2"; ""]%string))) = true.
Proof. split; [apply tetra_good|]. split; [apply square_good|]. split; [cbn; intuition discriminate|]. vm_compute. reflexivity. Qed.
