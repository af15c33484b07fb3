(** * Proofs about scene formats and scene directories (C33, C34). *)
From Coq Require Import String.
From Verif Require Import Base Dbl Dbl_facts Decimal Shadow Spec_shadow Shadow_proofs Streams Spec_text
  Lines_proofs Off_proofs Handlers Spec_io Handlers_proofs.
Close Scope string_scope.

(** ** Case-insensitive comparison *)
Lemma to_lower_code c : N_of_ascii (to_lower c) =
  (if (65 <=? N_of_ascii c) && (N_of_ascii c <=? 90) then N_of_ascii c + 32 else N_of_ascii c)%N.
Proof.
  unfold to_lower. cbv zeta. destruct ((65 <=? N_of_ascii c) && (N_of_ascii c <=? 90))%N eqn:E; auto.
  apply N_ascii_embedding. lia.
Qed.
Lemma code_inj c d : N_of_ascii c = N_of_ascii d -> c = d.
Proof. intros H. rewrite <- (ascii_N_embedding c), <- (ascii_N_embedding d). now rewrite H. Qed.
Lemma same_letter_lower c d : same_letter c d <-> to_lower c = to_lower d.
Proof.
  unfold same_letter, upper. split.
  - intros [->|[[H E]|[H E]]]; auto; apply code_inj; rewrite !to_lower_code; rewrite E;
      repeat match goal with |- context [if ?b then _ else _] => destruct b eqn:? end; lia.
  - intros H. assert (E : N_of_ascii (to_lower c) = N_of_ascii (to_lower d)) by congruence.
    rewrite !to_lower_code in E.
    repeat match type of E with context [if ?b then _ else _] => destruct b eqn:? end.
    + left. apply code_inj. lia.
    + right; left. lia.
    + right; right. lia.
    + left. apply code_inj. lia.
Qed.
Lemma iequals_spec a : forall b, iequals a b = true <-> same_ignoring_case a b.
Proof.
  unfold iequals, same_ignoring_case. intros b. rewrite str_eqb_eq. revert b.
  induction a as [|c a IH]; intros [|d b]; cbn; split; intros H; try discriminate; try constructor; try (inversion H; fail).
  - inversion H. now apply same_letter_lower.
  - inversion H. now apply IH.
  - inversion H; subst. f_equal; [now apply same_letter_lower|now apply IH].
Qed.

Lemma split_dot_spec s : forall a b, split_dot s = Some (a, b) <-> s = a ++ b /\ exists w, b = ch_dot :: w /\ ~ In ch_dot w.
Proof.
  induction s as [|c s IH]; intros a b; cbn.
  - split; [discriminate|]. intros (E & w & -> & _). destruct a; discriminate.
  - destruct (split_dot s) as [[a' b']|] eqn:E.
    + assert (G := proj1 (IH a' b') eq_refl). destruct G as (E1 & w & -> & Hw). split.
      * intros H. injection H as <- <-. split; [cbn; congruence|eauto].
      * intros (E2 & w' & -> & Hw'). destruct a as [|c' a]; cbn in E2.
        -- injection E2 as -> E2. exfalso. apply Hw'. rewrite <- E2, E1. apply in_or_app. right; left; auto.
        -- injection E2 as -> E2. assert (Some (a', ch_dot :: w) = Some (a, ch_dot :: w')).
           { apply IH. eauto. } inversion H; subst; reflexivity.
    + split.
      * destruct (Ascii.eqb c ch_dot) eqn:D; [|discriminate]. apply Ascii.eqb_eq in D. subst. intros H. injection H as <- <-.
        split; auto. exists s. split; auto. intros H. apply in_split in H as (u & v & ->).
        (* the last dot *)
        assert (G : forall v u, split_dot (u ++ ch_dot :: v) <> None).
        { clear. intros v u. induction u as [|x u IHu]; cbn.
          - destruct (split_dot v) as [[]|]; [discriminate|]. change (Ascii.eqb ch_dot ch_dot) with true. discriminate.
          - destruct (split_dot (u ++ ch_dot :: v)) as [[]|]; [discriminate|]. contradiction. }
        now apply G in E.
      * intros (E2 & w & -> & Hw). destruct a as [|c' a]; cbn in E2; injection E2 as -> E2.
        -- subst. change (Ascii.eqb ch_dot ch_dot) with true. reflexivity.
        -- exfalso. assert (G : None = Some (a, ch_dot :: w)) by (apply IH; eauto). discriminate.
Qed.
Lemma dot_not_letter c : same_letter c ch_dot -> c = ch_dot.
Proof.
  intros [H|[[H E]|[H E]]]; auto; unfold upper in H; cbn in H, E; lia.
Qed.
Lemma same_letter_sym c d : same_letter c d -> same_letter d c.
Proof. unfold same_letter. intuition. Qed.
Lemma same_ci_no_dot a b : same_ignoring_case a b -> ~ In ch_dot b -> ~ In ch_dot a.
Proof.
  induction 1 as [|c d a b H HF IH]; intros Hn; [intros []|]. intros [->|G].
  - apply Hn. left. apply same_letter_sym in H. now apply dot_not_letter in H.
  - apply IH; auto. intros K; apply Hn; right; auto.
Qed.
Lemma extension_ci p w : (2 <= length w)%nat -> ~ In ch_dot w ->
  (iequals (extension p) (ch_dot :: w) = true <-> ends_with_ci (filename p) (ch_dot :: w)).
Proof.
  intros Hl Hw. rewrite iequals_spec. unfold extension. cbv zeta. split.
  - intros H. destruct (dots_only (filename p)); [inversion H|].
    destruct (split_dot (filename p)) as [[a b]|] eqn:E; [|inversion H].
    apply split_dot_spec in E as (E & _). exists a, b. auto.
  - intros (a & b & E & H). inversion H as [|c d b' w' H1 H2]; subst. apply dot_not_letter in H1. subst c.
    assert (Hb : ~ In ch_dot b') by (eapply same_ci_no_dot; eauto).
    assert (E' : split_dot (filename p) = Some (a, ch_dot :: b')) by (apply split_dot_spec; eauto).
    rewrite E'. destruct (dots_only (filename p)) eqn:D; auto.
    exfalso. apply Forall2_len in H2. unfold dots_only in D. apply orb_true_iff in D. rewrite !str_eqb_eq in D.
    assert (L : length (filename p) = (length a + S (length b'))%nat) by (rewrite E, app_length; reflexivity).
    destruct D as [D|D]; rewrite D in L; cbn in L; lia.
Qed.

(** ** C33 *)
Lemma C33_format_proof : forall s,
  (scene_format s = Ok t3ds_xml <-> s = lit "3DS XML") /\ (scene_format s = Ok t3ds <-> s = lit "3DS") /\
  (scene_format s = Ok off <-> s = lit "OFF") /\ (scene_format s = Ok obj <-> s = lit "OBJ") /\
  (~ In s [lit "3DS XML"; lit "3DS"; lit "OFF"; lit "OBJ"] -> scene_format s = Throw RuntimeError).
Proof.
  intros s. unfold scene_format, supported_formats.
  change ["3"; "D"; "S"; " "; "X"; "M"; "L"]%char with (lit "3DS XML"). change ["3"; "D"; "S"]%char with (lit "3DS").
  change ["O"; "F"; "F"]%char with (lit "OFF"). change ["O"; "B"; "J"]%char with (lit "OBJ"). cbn [str_find].
  destruct (str_eqb (lit "3DS XML") s) eqn:E1; [apply str_eqb_eq in E1; subst s|apply str_eqb_neq in E1].
  { cbn. repeat split; intros H; try discriminate; auto. exfalso. apply H. auto. }
  destruct (str_eqb (lit "3DS") s) eqn:E2; [apply str_eqb_eq in E2; subst s|apply str_eqb_neq in E2].
  { cbn. repeat split; intros H; try discriminate; auto. exfalso. apply H. auto. }
  destruct (str_eqb (lit "OFF") s) eqn:E3; [apply str_eqb_eq in E3; subst s|apply str_eqb_neq in E3].
  { cbn. repeat split; intros H; try discriminate; auto. exfalso. apply H. auto. }
  destruct (str_eqb (lit "OBJ") s) eqn:E4; [apply str_eqb_eq in E4; subst s|apply str_eqb_neq in E4].
  { cbn. repeat split; intros H; try discriminate; auto. exfalso. apply H. auto. }
  cbn [option_map]. repeat split; intros H; try discriminate H; try reflexivity; exfalso;
    [apply E1|apply E2|apply E3|apply E4]; symmetry; exact H.
Qed.
Lemma check_extension_spec p f :
  (ends_with_ci (filename p) (wanted_extension f) -> check_extension p f = Ok tt) /\
  (~ ends_with_ci (filename p) (wanted_extension f) -> check_extension p f = Throw RuntimeError).
Proof.
  unfold check_extension.
  assert (E : exists w, wanted_extension f = ch_dot :: w /\ format_extension f = Ok (ch_dot :: w) /\ (2 <= length w)%nat /\ ~ In ch_dot w).
  { destruct f; eexists; (split; [reflexivity|split; [reflexivity|split; [cbn; lia|cbn; intuition discriminate]]]). }
  destruct E as (w & E1 & E2 & H1 & H2). rewrite E1, E2. cbn [bind]. pose proof (extension_ci p w H1 H2) as X.
  destruct (iequals (extension p) (ch_dot :: w)); split; intros G; auto; exfalso; intuition congruence.
Qed.
Lemma C33_handler_proof : forall p m f,
  (f = off \/ ends_with_ci (filename p) (wanted_extension f) -> scene_handler_make p m f = Ok (mkSceneH p m f)) /\
  (f <> off -> ~ ends_with_ci (filename p) (wanted_extension f) -> scene_handler_make p m f = Throw RuntimeError).
Proof.
  intros p m f. unfold scene_handler_make. destruct (check_extension_spec p f) as [A B]. split.
  - intros [->|H]; [reflexivity|]. rewrite A by auto. destruct f; reflexivity.
  - intros H1 H2. rewrite B by auto. destruct f; try reflexivity. congruence.
Qed.
Lemma C33_inverse_proof : forall f, exists s, nth_error supported_formats (fmt_index f) = Some s /\ scene_format s = Ok f.
Proof. intros []; eexists; (split; [reflexivity|vm_compute; reflexivity]). Qed.

(** ** Paths of scene files *)
Lemma split_slash_plain s : forall cur, ~ In ch_slash s -> split_slash cur s = match rev cur ++ s with [] => [] | x => [x] end.
Proof.
  induction s as [|c s IH]; intros cur H; cbn.
  - rewrite app_nil_r. destruct cur as [|x cur]; cbn; auto. destruct (rev cur ++ [x]) eqn:E; auto. destruct (rev cur); discriminate.
  - destruct (Ascii.eqb c ch_slash) eqn:E; [apply Ascii.eqb_eq in E; exfalso; apply H; left; auto|].
    rewrite IH by (intros G; apply H; right; auto). cbn. rewrite <- app_assoc. reflexivity.
Qed.
Definition off_name (n : str) : str := n ++ [".";"o";"f";"f"]%char.
Lemma path_join_off d n : ~ In ch_slash n -> path_join d (off_name n) = d ++ [off_name n].
Proof.
  intros H. unfold path_join. rewrite split_slash_plain.
  - cbn. destruct (off_name n) eqn:E; auto. destruct n; discriminate.
  - unfold off_name. intros G. apply in_app_or in G as [G|G]; auto. cbn in G. intuition discriminate.
Qed.
Lemma existsb_zero_false s : ~ In nul s -> existsb (Ascii.eqb zero) s = false.
Proof.
  intros H. apply not_true_iff_false. rewrite existsb_exists. intros (c & Hc & E). apply Ascii.eqb_eq in E. subst. now apply H.
Qed.
Lemma os_path_plain p : no_nul p -> os_path p = p.
Proof.
  induction p as [|c p IH]; intros H; cbn; auto. rewrite existsb_zero_false by (apply H; left; auto).
  rewrite IH; auto. intros x Hx. apply H. right; auto.
Qed.
Lemma no_nul_app d n : no_nul d -> ~ In nul n -> no_nul (d ++ [n]).
Proof. intros Hd Hn c Hc. apply in_app_or in Hc as [Hc|[<-|[]]]; auto. Qed.
Lemma off_name_no_nul n : ~ In nul n -> ~ In nul (off_name n).
Proof. intros H G. unfold off_name in G. apply in_app_or in G as [G|G]; auto. cbn in G. intuition discriminate. Qed.
Lemma filename_app d n : filename (d ++ [n]) = n.
Proof. unfold filename. apply last_last. Qed.
Lemma off_name_split n : split_dot (off_name n) = Some (n, [".";"o";"f";"f"]%char).
Proof. apply split_dot_spec. split; auto. exists ["o";"f";"f"]%char. split; auto. cbn. intuition discriminate. Qed.
Lemma off_name_dots n : dots_only (off_name n) = false.
Proof.
  apply not_true_iff_false. unfold dots_only. rewrite orb_true_iff, !str_eqb_eq. intros [H|H];
  apply (f_equal (@length ascii)) in H; unfold off_name in H; rewrite app_length in H; cbn in H; lia.
Qed.
Lemma stem_off d n : stem (d ++ [off_name n]) = n.
Proof. unfold stem. rewrite filename_app. cbv zeta. now rewrite off_name_dots, off_name_split. Qed.
Lemma ext_off d n : extension (d ++ [off_name n]) = [".";"o";"f";"f"]%char.
Proof. unfold extension. rewrite filename_app. cbv zeta. now rewrite off_name_dots, off_name_split. Qed.
Lemma off_name_inj a b : off_name a = off_name b -> a = b.
Proof. unfold off_name. apply app_inv_tail. Qed.
Lemma path_app_neq (d : path) n : d ++ [n] <> d.
Proof. intros H. apply (f_equal (@length str)) in H. rewrite app_length in H. cbn in H. lia. Qed.
Lemma path_eqb_refl p : path_eqb p p = true.
Proof. apply (list_eqb_spec _ str_eqb_eq). auto. Qed.
Lemma path_eqb_neq p q : p <> q -> path_eqb p q = false.
Proof. intros H. apply not_true_iff_false. intros G. apply (list_eqb_spec _ str_eqb_eq) in G. auto. Qed.

Section Write.
Context {S : Type} (to_mesh : unode S -> mesh) (d : path) (m : modes).
Hypothesis Hd : no_nul d.
Hypothesis Hm : can_write m = true.

Definition file_of (u : unode S) : path := d ++ [off_name (u_name u)].
Lemma file_of_plain u : ~ In nul (u_name u) -> os_path (file_of u) = file_of u.
Proof. intros H. apply os_path_plain. apply no_nul_app; auto. apply off_name_no_nul; auto. Qed.
Lemma write_one f u : f d = Some Dir -> f (file_of u) <> Some Dir -> file_safe (u_name u) ->
  off_handler_write f (path_join d (u_name u ++ [".";"o";"f";"f"]%char)) m (to_mesh u)
  = (fs_set f (file_of u) (File (off_write (to_mesh u))), Ok tt).
Proof.
  intros H1 H2 (S1 & S2 & S3). unfold off_handler_write. rewrite Hm. change (u_name u ++ [".";"o";"f";"f"]%char) with (off_name (u_name u)).
  rewrite path_join_off by auto. fold (file_of u). unfold fwrite, can_create. rewrite file_of_plain by auto.
  assert (R : removelast (file_of u) = d) by (unfold file_of; apply removelast_last).
  destruct (file_of u) as [|x y] eqn:E; [unfold file_of in E; destruct d; discriminate|].
  rewrite R, H1. destruct (f (x :: y)) as [[|c]|]; auto. congruence.
Qed.
Lemma write_spec us : forall f, f d = Some Dir -> (forall u, In u us -> f (file_of u) <> Some Dir) ->
  (forall u, In u us -> file_safe (u_name u)) ->
  exists f', write_off_files to_mesh f d m us = (f', Ok tt) /\
    (forall q, (forall u, In u us -> q <> file_of u) -> f' q = f q) /\
    (forall pre u post, us = pre ++ u :: post -> (forall u', In u' post -> u_name u' <> u_name u) ->
       f' (file_of u) = Some (File (off_write (to_mesh u)))).
Proof.
  induction us as [|u us IH]; intros f H1 H2 H3.
  - exists f. split; [reflexivity|]. split; auto. intros pre u post E. destruct pre; discriminate.
  - cbn [write_off_files]. change (format_extension off) with (Ok [".";"o";"f";"f"]%char). cbv iota.
    rewrite write_one; auto; [|apply H2; left; auto|apply H3; left; auto]. cbv iota beta.
    destruct (IH (fs_set f (file_of u) (File (off_write (to_mesh u))))) as (f' & E & A & B).
    + unfold fs_set. rewrite path_eqb_neq; auto. intros G. symmetry in G. now apply path_app_neq in G.
    + intros v Hv. unfold fs_set. destruct (path_eqb (file_of v) (file_of u)); [discriminate|]. apply H2; right; auto.
    + intros v Hv. apply H3; right; auto.
    + exists f'. split; [exact E|]. split.
      * intros q Hq. rewrite A by (intros v Hv; apply Hq; right; auto). unfold fs_set. rewrite path_eqb_neq; auto.
        apply Hq. left; auto.
      * intros pre v post E1 Hlast. destruct pre as [|w pre]; cbn in E1; injection E1 as -> E1.
        -- subst. destruct (in_dec (list_eq_dec (list_eq_dec ascii_dec)) (file_of v) (map file_of post)) as [I|I].
           ++ apply in_map_iff in I as (x & Ex & Hx). exfalso. apply (Hlast x Hx).
              unfold file_of in Ex. apply app_inv_head in Ex. injection Ex as Ex. now apply off_name_inj.
           ++ rewrite A; [unfold fs_set; now rewrite path_eqb_refl|]. intros x Hx G. apply I. rewrite G. apply in_map; auto.
        -- apply (B pre v post); auto.
Qed.
Lemma write_app us vs f : write_off_files to_mesh f d m (us ++ vs) =
  match write_off_files to_mesh f d m us with (f, Ok _) => write_off_files to_mesh f d m vs | r => r end.
Proof.
  revert f. induction us as [|u us IH]; intros f; cbn [app write_off_files]; auto.
  change (format_extension off) with (Ok [".";"o";"f";"f"]%char). cbv iota.
  destruct (off_handler_write f (path_join d (u_name u ++ [".";"o";"f";"f"]%char)) m (to_mesh u)) as [f1 [| |]]; auto.
Qed.
End Write.

(** ** Reading the directory *)
Lemma read_one f d m n u : can_read m = true -> no_nul d -> ~ In nul n -> off_savable u ->
  f (d ++ [off_name n]) = Some (File (off_write u)) ->
  exists x, off_handler_read f (d ++ [off_name n]) m = Ok x /\ m_name x = n /\ rereads u x.
Proof.
  intros Hm Hd Hn Hu Hf. unfold off_handler_read. rewrite Hm. unfold is_regular_file, fread.
  rewrite os_path_plain by (apply no_nul_app; auto; apply off_name_no_nul; auto). rewrite Hf.
  destruct (C21_proof u Hu) as (x & E & F & P & _). rewrite E. cbn [bind]. eexists. split; [reflexivity|].
  cbn. split; [apply stem_off|]. split; auto.
Qed.
Lemma storable_savable m : storable m -> ~ In newline (m_name m) -> off_savable m.
Proof. intros (A & B & C & D) H. repeat split; auto; apply A || apply B; auto. Qed.

Section Read.
Context {S : Type} (to_mesh : unode S -> mesh) (f : fs) (d : path) (m : modes) (us : list (unode S)).
Hypothesis Hd : no_nul d.
Hypothesis Hm : can_read m = true.
Hypothesis Hsafe : forall u, In u us -> file_safe (u_name u) /\ off_savable (to_mesh u) /\ u_name u <> s_terrain.
Hypothesis Hfiles : forall u, In u us -> f (d ++ [off_name (u_name u)]) = Some (File (off_write (to_mesh u))).

Lemma read_spec ls : (forall n, In n ls -> n = off_name s_terrain \/ exists u, In u us /\ n = off_name (u_name u)) ->
  exists ms bs, read_off_entries f d m ls = Ok ms /\ Forall2 (fun u x => m_name x = u_name u /\ rereads (to_mesh u) x) bs ms /\
    (forall u, In u bs -> In u us) /\ map (fun u => off_name (u_name u)) bs = filter (fun n => negb (str_eqb n (off_name s_terrain))) ls.
Proof.
  induction ls as [|n ls IH]; intros Hls.
  - exists [], []. repeat split; auto. intros u [].
  - destruct IH as (ms & bs & E & F & I & M). { intros; apply Hls; right; auto. }
    cbn [read_off_entries]. change (format_extension off) with (Ok [".";"o";"f";"f"]%char). cbn [bind].
    destruct (str_eqb n (off_name s_terrain)) eqn:T.
    + exists ms, bs. apply str_eqb_eq in T. subst n. rewrite stem_off, str_eqb_refl. cbn [negb]. rewrite andb_false_r.
      split; [exact E|]. split; [exact F|]. split; [exact I|]. rewrite M. cbn [filter]. rewrite str_eqb_refl. reflexivity.
    + apply str_eqb_neq in T as T'. destruct (Hls n) as [G|(u & Hu & ->)]; [left; auto|contradiction|].
      destruct (Hsafe u Hu) as ((S1 & S2 & S3) & Sv & Tn).
      destruct (read_one f d m (u_name u) (to_mesh u)) as (x & Ex & Nx & Rx); auto.
      rewrite stem_off, ext_off. unfold is_regular_file. rewrite os_path_plain by (apply no_nul_app; auto; apply off_name_no_nul; auto).
      rewrite Hfiles by auto. change (iequals [".";"o";"f";"f"]%char [".";"o";"f";"f"]%char) with true.
      replace (str_eqb (u_name u) s_terrain) with false by (symmetry; apply str_eqb_neq; auto). cbn [andb negb].
      rewrite Ex, E. cbn [bind]. exists (x :: ms), (u :: bs). split; [reflexivity|]. split; [constructor; auto|].
      split; [intros v [<-|Hv]; auto|]. cbn [map filter]. rewrite M, T. reflexivity.
Qed.
End Read.

Lemma in_map_name {S} (us : list (unode S)) u v : NoDup (map u_name us) -> In u us -> In v us -> u_name u = u_name v -> u = v.
Proof.
  induction us as [|w us IH]; cbn; intros Hn Hu Hv E; [contradiction|]. inversion Hn as [|? ? N1 N2]; subst.
  destruct Hu as [->|Hu], Hv as [->|Hv]; auto.
  - exfalso. apply N1. rewrite E. apply in_map; auto.
  - exfalso. apply N1. rewrite <- E. apply in_map; auto.
Qed.
Lemma NoDup_map_inv' {A B} (g : A -> B) l : NoDup (map g l) -> NoDup l.
Proof. apply NoDup_map_inv. Qed.

(** what writing a scene into a directory does, whatever the names *)
Lemma C34_write_proof : forall (S : Type) (to_mesh : unode S -> mesh) f h s, sh_fmt h = off -> fs_tree f ->
  is_map (sh_modes h) -> granted (sh_modes h) "write" -> no_nul (sh_path h) -> sh_path h <> [] ->
  f (sh_path h) = None -> f (removelast (sh_path h)) = Some Dir ->
  (forall u, In u (sc_buildings s ++ [sc_terrain s]) -> file_safe (u_name u)) ->
  exists f', scene_write to_mesh f h s = (f', Ok tt) /\ f' (sh_path h) = Some Dir /\
   (forall n, f' (sh_path h ++ [n]) <> None <-> exists u, In u (sc_buildings s ++ [sc_terrain s]) /\ n = u_name u ++ lit ".off") /\
   (forall pre u post, sc_buildings s ++ [sc_terrain s] = pre ++ u :: post -> (forall u', In u' post -> u_name u' <> u_name u) ->
      f' (sh_path h ++ [u_name u ++ lit ".off"]) = Some (File (off_write (to_mesh u)))).
Proof.
  intros S to_mesh f h s Hf Ht Hmap Hw Hd Hne Hfresh Hpar Hsafe. destruct h as [d m fm]. cbn [sh_fmt sh_path sh_modes] in *. subst fm.
  apply (mode_granted m "write" Hmap) in Hw. change (can_write m = true) in Hw.
  unfold scene_write. cbn [sh_fmt sh_path sh_modes]. unfold fs_exists, is_directory. rewrite os_path_plain by auto. rewrite Hfresh. cbn [negb].
  assert (CD : create_directory f d = (fs_set f d Dir, Ok tt)).
  { unfold create_directory. rewrite os_path_plain by auto. destruct d as [|c d']; [congruence|]. now rewrite Hpar, Hfresh. }
  rewrite CD. clear CD.
  assert (K : forall n, f (d ++ [n]) = None).
  { intros n. destruct (f (d ++ [n])) eqn:E; auto. destruct Ht as [_ Ht]. assert (G : f (removelast (d ++ [n])) = Some Dir).
    { apply Ht; [destruct d; discriminate|congruence]. } rewrite removelast_last in G. congruence. }
  pose proof (write_app to_mesh d m (sc_buildings s) [sc_terrain s] (fs_set f d Dir)) as WA.
  destruct (write_spec to_mesh d m Hd Hw (sc_buildings s ++ [sc_terrain s]) (fs_set f d Dir)) as (f' & E & A & B).
  { apply fs_set_same. }
  { intros u _. unfold fs_set, file_of. rewrite path_eqb_neq by apply path_app_neq. rewrite K. discriminate. }
  { auto. }
  exists f'. split; [|split; [|split]].
  - rewrite <- E, WA. cbv iota. destruct (write_off_files to_mesh (fs_set f d Dir) d m (sc_buildings s)) as [g [[]| |]]; reflexivity.
  - rewrite A; [apply fs_set_same|]. intros u _ G. symmetry in G. now apply path_app_neq in G.
  - intros n. split.
    + intros Hn. destruct (in_dec (list_eq_dec (list_eq_dec ascii_dec)) (d ++ [n]) (map (file_of d) (sc_buildings s ++ [sc_terrain s]))) as [I|I].
      * apply in_map_iff in I as (u & Eu & Hu). exists u. split; auto. unfold file_of in Eu. apply app_inv_head in Eu. injection Eu as Eu. symmetry; exact Eu.
      * exfalso. apply Hn. rewrite A. { unfold fs_set. rewrite path_eqb_neq by apply path_app_neq. apply K. }
        intros u Hu G. apply I. rewrite G. apply in_map; auto.
    + intros (u & Hu & ->). change (u_name u ++ lit ".off") with (off_name (u_name u)).
      (* last occurrence of the name *)
      assert (L : exists pre v post, sc_buildings s ++ [sc_terrain s] = pre ++ v :: post /\ u_name v = u_name u /\ forall u', In u' post -> u_name u' <> u_name v).
      { clear - Hu. revert Hu. induction (sc_buildings s ++ [sc_terrain s]) as [|w l IH]; [intros []|]. intros Hu.
        destruct (in_dec (list_eq_dec ascii_dec) (u_name u) (map u_name l)) as [I|I].
        - apply in_map_iff in I as (x & Ex & Hx).
          assert (G : exists pre v post, l = pre ++ v :: post /\ u_name v = u_name u /\ forall u', In u' post -> u_name u' <> u_name v).
          { clear - Hx Ex. revert x Ex Hx. induction l as [|w l IH]; [intros x _ []|]. intros x Ex Hx.
            destruct (in_dec (list_eq_dec ascii_dec) (u_name u) (map u_name l)) as [I|I].
            - apply in_map_iff in I as (y & Ey & Hy). destruct (IH y Ey Hy) as (pre & v & post & -> & G1 & G2). exists (w :: pre), v, post. auto.
            - destruct Hx as [->|Hx]. + exists [], x, l. split; auto. split; auto. intros u' Hu' G. apply I. rewrite <- Ex, <- G. apply in_map; auto.
              + exfalso. apply I. rewrite <- Ex. apply in_map; auto. }
          destruct G as (pre & v & post & -> & G1 & G2). exists (w :: pre), v, post. auto.
        - destruct Hu as [->|Hu].
          + exists [], u, l. split; auto. split; auto. intros u' Hu' G. apply I. rewrite <- G. apply in_map; auto.
          + exfalso. apply I. apply in_map; auto. }
      destruct L as (pre & v & post & EL & En & Hl). rewrite <- En. pose proof (B pre v post EL Hl) as BB. unfold file_of in BB. rewrite BB. discriminate.
  - intros pre u post EL Hl. exact (B pre u post EL Hl).
Qed.

Lemma C34_round_trip_proof : forall (S : Type) (to_mesh : unode S -> mesh) (build : mesh -> outcome S) X f d mw mr s,
  fs_tree f -> is_map mw -> is_map mr -> granted mw "write" -> granted mr "read" ->
  no_nul d -> d <> [] -> f d = None -> f (removelast d) = Some Dir ->
  (forall u, In u (sc_terrain s :: sc_buildings s) -> file_safe (u_name u) /\ m_name (to_mesh u) = u_name u /\ storable (to_mesh u)) ->
  NoDup (map u_name (sc_buildings s)) -> u_name (sc_terrain s) = lit "terrain" ->
  (forall u, In u (sc_buildings s) -> u_name u <> lit "terrain") ->
  exists f', scene_write to_mesh f (mkSceneH d mw off) s = (f', Ok tt) /\
    forall ls, lists f' d ls -> exists bs ms t, Permutation bs (sc_buildings s) /\
      Forall2 (fun u x => m_name x = u_name u /\ rereads (to_mesh u) x) bs ms /\
      m_name t = lit "terrain" /\ rereads (to_mesh (sc_terrain s)) t /\
      scene_read X build f' ls (mkSceneH d mr off) = scene_make build ms t point_default 2154.
Proof.
  intros S to_mesh build X f d mw mr s Ht Hmw Hmr Hw Hr Hd Hne Hfresh Hpar Hu Hnd Htn Hbn.
  destruct (C34_write_proof S to_mesh f (mkSceneH d mw off) s) as (f' & E & Dd & Ls & Fl); auto.
  { intros u H. apply in_app_or in H as [H|[<-|[]]]; apply Hu; [right; auto|left; auto]. }
  cbn [sh_fmt sh_path sh_modes] in Dd, Ls, Fl. exists f'. split; auto. intros ls (Nd & Hls).
  apply (mode_granted mr "read" Hmr) in Hr. change (can_read mr = true) in Hr.
  assert (Fb : forall u, In u (sc_buildings s) -> f' (d ++ [off_name (u_name u)]) = Some (File (off_write (to_mesh u)))).
  { intros u H. apply in_split in H as (pre & post & Eb). apply (Fl pre u (post ++ [sc_terrain s])).
    - rewrite Eb, <- app_assoc. reflexivity.
    - intros u' Hu' G. rewrite Eb in Hnd. rewrite map_app in Hnd. cbn in Hnd. apply NoDup_remove_2 in Hnd. apply in_app_or in Hu' as [Hu'|[<-|[]]].
      + apply Hnd. apply in_or_app. right. rewrite <- G. apply in_map; auto.
      + rewrite Htn in G. apply (Hbn u); auto. rewrite Eb. apply in_or_app; right; left; auto. }
  assert (Sb : forall u, In u (sc_buildings s) -> file_safe (u_name u) /\ off_savable (to_mesh u) /\ u_name u <> s_terrain).
  { intros u H. destruct (Hu u) as (S1 & S2 & S3); [right; auto|]. split; auto. split; [|apply Hbn; auto].
    apply storable_savable; auto. rewrite S2. apply S1. }
  destruct (read_spec to_mesh f' d mr (sc_buildings s) Hd Hr Sb Fb ls) as (ms & bs & Er & F2 & I & M).
  { intros n Hn. apply Hls in Hn. apply Ls in Hn as (u & H & ->). apply in_app_or in H as [H|[<-|[]]].
    - right. exists u. auto.
    - left. rewrite Htn. reflexivity. }
  destruct (Hu (sc_terrain s)) as (T1 & T2 & T3); [left; auto|].
  destruct (read_one f' d mr (u_name (sc_terrain s)) (to_mesh (sc_terrain s))) as (t & Et & Nt & Rt); auto.
  { apply T1. } { apply storable_savable; auto. rewrite T2. apply T1. }
  { apply (Fl (sc_buildings s) (sc_terrain s) []); auto. }
  exists bs, ms, t. split; [|split; [exact F2|split; [congruence|split; [exact Rt|]]]].
  - assert (NdB : NoDup (sc_buildings s)) by (eapply NoDup_map_inv; eauto).
    apply NoDup_Permutation.
    + eapply NoDup_map_inv with (f := fun u => off_name (u_name u)). rewrite M. apply NoDup_filter; auto.
    + auto.
    + intros u. split; [apply I|]. intros Hu'.
      assert (G : In (off_name (u_name u)) (map (fun u => off_name (u_name u)) bs)).
      { rewrite M. apply filter_In. split.
        - apply Hls. rewrite (Fb u Hu'). discriminate.
        - apply negb_true_iff. apply str_eqb_neq. intros G. apply off_name_inj in G. now apply (Hbn u). }
      apply in_map_iff in G as (v & Ev & Hv). apply off_name_inj in Ev.
      rewrite <- (in_map_name (sc_buildings s) v u); auto.
  - unfold scene_read. cbn [sh_fmt sh_path sh_modes]. unfold is_directory. rewrite os_path_plain by auto. rewrite Dd. cbn [negb].
    rewrite Er. cbn [bind]. change s_terrain_off with (off_name s_terrain).
    rewrite path_join_off by (cbn; intuition discriminate). rewrite Htn in Et. change (lit "terrain") with s_terrain in Et.
    rewrite Et. reflexivity.
Qed.
Lemma C34_no_terrain_proof : forall (S : Type) (build : mesh -> outcome S) X f ls h s, sh_fmt h = off -> no_nul (sh_path h) ->
  ~ a_file f (sh_path h ++ [lit "terrain.off"]) -> scene_read X build f ls h <> Ok s.
Proof.
  intros S build X f ls [d m fm] s Hf Hd Hn. cbn [sh_fmt sh_path sh_modes] in *. subst fm. unfold scene_read. cbn [sh_fmt sh_path sh_modes].
  destruct (negb (is_directory f d)); [discriminate|]. destruct (read_off_entries f d m ls); cbn [bind]; try discriminate.
  change s_terrain_off with (off_name s_terrain). rewrite path_join_off by (cbn; intuition discriminate).
  unfold off_handler_read. destruct (can_read m); [|discriminate].
  destruct (is_regular_file f (d ++ [off_name s_terrain])) eqn:R; [|discriminate].
  apply is_reg_file in R. rewrite os_path_plain in R; [|apply no_nul_app; auto; apply off_name_no_nul; cbn; intuition discriminate].
  exfalso. apply Hn. exact R.
Qed.
Lemma C34_no_terrain_throws_proof : forall (S : Type) (build : mesh -> outcome S) X f ls h ms, sh_fmt h = off -> no_nul (sh_path h) ->
  f (sh_path h) = Some Dir -> ~ a_file f (sh_path h ++ [lit "terrain.off"]) -> read_off_entries f (sh_path h) (sh_modes h) ls = Ok ms ->
  scene_read X build f ls h = Throw FilesystemError.
Proof.
  intros S build X f ls [d m fm] ms Hf Hd Hdir Hn Hr. cbn [sh_fmt sh_path sh_modes] in *. subst fm. unfold scene_read. cbn [sh_fmt sh_path sh_modes].
  unfold is_directory. rewrite os_path_plain by auto. rewrite Hdir. cbn [negb]. rewrite Hr. cbn [bind].
  change s_terrain_off with (off_name s_terrain). rewrite path_join_off by (cbn; intuition discriminate).
  unfold off_handler_read. destruct (can_read m); [|reflexivity].
  destruct (is_regular_file f (d ++ [off_name s_terrain])) eqn:R; [|reflexivity].
  apply is_reg_file in R. rewrite os_path_plain in R; [|apply no_nul_app; auto; apply off_name_no_nul; cbn; intuition discriminate].
  exfalso. apply Hn. exact R.
Qed.
