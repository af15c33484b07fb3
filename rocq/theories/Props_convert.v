(** * Properties C91 and C92: scenes in OFF directories; conversions from end to end. *)
From Coq Require Import String.
From Verif Require Import Base Dbl Dbl_facts Geom Decimal Shadow Spec_shadow Shadow_proofs Streams Spec_text Handlers Spec_io Handlers_proofs Surface Spec_surface
  Surface_proofs Obj_proofs Edges_proofs Props_obj Objw_proofs Props_cli2 Props_surface Projection Raster Ogr Dq_proofs Export Spec_export Spec_arith Props_mesheq Scenefile_proofs Props_io Spec_scenes Scenes_proofs Props_scenes Props_export Cli Spec_cli Props_cli Spec_convert.
Import List.
Close Scope string_scope.
Open Scope nat_scope.

(** ** C91: reading an OFF directory *)
Lemma ci_off_no_dot w : same_ignoring_case w (lit ".off") -> exists w', w = ch_dot :: w' /\ ~ In ch_dot w' /\ List.length w' = 3.
Proof.
  intros S. inversion S as [|c d w' e H S']; subst. apply dot_not_letter in H. subst c. exists w'. split; auto. split; [eapply same_ci_no_dot; [exact S'|cbn; intuition discriminate]|]. apply Forall2_len in S'. exact S'.
Qed.
Lemma off_named_split n a : off_named n a -> exists w, split_dot n = Some (a, w) /\ same_ignoring_case w (lit ".off") /\ dots_only n = false.
Proof.
  intros (w & -> & S). exists w. destruct (ci_off_no_dot w S) as (w' & -> & N & L). split; [apply split_dot_spec; eauto|]. split; auto.
  unfold dots_only. apply orb_false_iff. split; apply not_true_iff_false; rewrite str_eqb_eq; intros E; apply (f_equal (@List.length _)) in E; rewrite app_length in E; cbn [List.length] in E; rewrite L in E; lia.
Qed.
Lemma off_named_stem d n a : off_named n a -> stem (d ++ [n]) = a.
Proof. intros H. destruct (off_named_split n a H) as (w & E & _ & D). unfold stem. rewrite filename_app. cbv zeta. now rewrite D, E. Qed.
Lemma off_named_ext d n : iequals (extension (d ++ [n])) [".";"o";"f";"f"]%char = true <-> exists a, off_named n a.
Proof.
  rewrite iequals_spec. unfold extension. rewrite filename_app. cbv zeta. split.
  - intros H. destruct (dots_only n); [inversion H|]. destruct (split_dot n) as [[a w]|] eqn:E; [|inversion H]. apply split_dot_spec in E as (-> & _). exists a, w. auto.
  - intros [a H]. destruct (off_named_split n a H) as (w & E & S & D). now rewrite D, E.
Qed.
Lemma entry_test f d n : no_nul d -> ~ In nul n ->
  is_regular_file f (d ++ [n]) && iequals (extension (d ++ [n])) [".";"o";"f";"f"]%char && negb (str_eqb (stem (d ++ [n])) s_terrain) = true <-> building_entry f d n.
Proof.
  intros N Nn. rewrite !andb_true_iff, is_reg_file, os_path_plain, off_named_ext, negb_true_iff, <- not_true_iff_false, str_eqb_eq by (apply no_nul_app; auto). unfold building_entry. split.
  - intros [[F [a A]] T]. split; auto. exists a. split; auto. intros ->. apply T. exact (off_named_stem d n _ A).
  - intros [F (a & A & T)]. split; [split; eauto|]. intros E. apply T. rewrite <- (off_named_stem d n a A). exact E.
Qed.
Lemma read_file f p m a : can_read m = true -> no_nul p -> stem p = a -> forall x, off_handler_read f p m = Ok x <-> stored_as f p a x.
Proof.
  intros R N <- x. unfold off_handler_read, stored_as. rewrite R. destruct (is_regular_file f p) eqn:E.
  - apply is_reg_file in E. rewrite os_path_plain in E by auto. destruct E as [c E]. unfold fread. rewrite (os_path_plain p N), E. split.
    + intros H. inv_bind H. apply Ok_inj in H. subst x. exists c, a. repeat split; auto.
    + intros (c' & r & E' & O & A1 & A2 & A3 & A4). assert (c' = c) as -> by congruence. rewrite O. cbn [bind]. f_equal. destruct x, r; cbn in *; subst; reflexivity.
  - split; [discriminate|]. intros (c & r & E' & _). exfalso. apply is_reg_file_false in E. apply E. rewrite os_path_plain by auto. now exists c.
Qed.
Lemma read_file_fails f p m c : can_read m = true -> no_nul p -> f p = Some (File c) -> (forall e, off_read c = Throw e -> off_handler_read f p m = Throw e) /\ (off_read c = UB -> off_handler_read f p m = UB).
Proof.
  intros R N F. unfold off_handler_read. rewrite R. assert (is_regular_file f p = true) as -> by (apply is_reg_file; rewrite os_path_plain by auto; now exists c). unfold fread. rewrite (os_path_plain p N), F.
  split; [intros e ->|intros ->]; reflexivity.
Qed.
Lemma read_entries f d m ls : can_read m = true -> no_nul d -> (forall n, In n ls -> ~ In nul n) -> forall ms, read_off_entries f d m ls = Ok ms <->
  exists ns rest, interleave ns rest ls /\ Forall2 (building_in f d) ns ms /\ forall n, In n rest -> ~ building_entry f d n.
Proof.
  intros R N. induction ls as [|n ls IH]; intros Nn ms; cbn [read_off_entries].
  - split.
    + intros H. apply Ok_inj in H. subst. exists [], []. split; [constructor|]. split; [constructor|intros ? []].
    + intros (ns & rest & I & F & _). inversion I; subst. inversion F; subst. reflexivity.
  - change (format_extension off) with (Ok [".";"o";"f";"f"]%char). cbn [bind]. specialize (IH (fun x I => Nn x (or_intror I))). pose proof (entry_test f d n N (Nn n (or_introl eq_refl))) as T.
    assert (no_nul (d ++ [n])) as Np by (apply no_nul_app; auto; apply Nn; now left).
    destruct (_ && negb _) eqn:E.
    + apply proj1 in T. specialize (T eq_refl). destruct T as [F0 (a & A & Na)]. pose proof (read_file f (d ++ [n]) m a R Np (off_named_stem d n a A)) as RF. split.
      * intros H. inv_bind H. inv_bind H. apply Ok_inj in H. subst ms. apply RF in E0. apply IH in E1. destruct E1 as (ns & rest & I & F & S). exists (n :: ns), rest. split; [now constructor|]. split; auto. constructor; auto. now exists a.
      * intros (ns & rest & I & F & S). inversion I as [|x a' b' l' I'|x a' b' l' I']; subst.
        -- inversion F as [|? y ? ms' (a2 & A2 & Na2 & B) F']; subst. assert (a2 = a) as -> by (rewrite <- (off_named_stem d n a2 A2); now apply off_named_stem). apply RF in B. match goal with |- context [off_handler_read f ?p m] => replace (off_handler_read f p m) with (Ok y) by (symmetry; exact B) end. cbn [bind].
           assert (read_off_entries f d m ls = Ok ms') as -> by (apply IH; eauto). reflexivity.
        -- exfalso. apply (S n (or_introl eq_refl)). split; eauto.
    + assert (~ building_entry f d n) as NB by (intros H; apply T in H; discriminate). rewrite IH. split; intros (ns & rest & I & F & S).
      * exists ns, (n :: rest). split; [now constructor|]. split; auto. intros x [<-|Hx]; auto.
      * inversion I as [|x a' b' l' I'|x a' b' l' I']; subst.
        -- exfalso. inversion F as [|? y ? ms' (a2 & A2 & Na2 & (c & r & B & _)) F']; subst. apply NB. split; [now exists c|eauto].
        -- exists ns, b'. split; auto. split; auto. intros x Hx. apply S. now right.
Qed.
Lemma granted_read m : is_map m -> granted m "read" <-> can_read m = true.
Proof. intros H. symmetry. apply (mode_granted m "read" H). Qed.
Lemma terrain_path d : path_join d s_terrain_off = d ++ [lit "terrain.off"].
Proof. reflexivity. Qed.
Lemma terrain_stem d : stem (d ++ [lit "terrain.off"]) = lit "terrain".
Proof. apply off_named_stem. exists (lit ".off"). split; [reflexivity|]. repeat constructor. Qed.
Lemma terrain_no_nul d : no_nul d -> no_nul (d ++ [lit "terrain.off"]).
Proof. intros N. apply no_nul_app; auto. cbn. intuition discriminate. Qed.
(** a scene has been read exactly when the path is a directory, the file terrain.off is there and
    stores the terrain, and every regular file named "*.off" but "terrain.*" stores a building,
    named as the file; other entries are ignored; the order is that of the directory *)
Theorem C91_directory : forall (S : Type) (build : mesh -> outcome S) X f ls d m s, is_map m -> granted m "read" -> no_nul d -> (forall n, In n ls -> ~ In nul n) ->
  (scene_read X build f ls (mkSceneH d m off) = Ok s <-> f d = Some Dir /\ exists ns rest ms t, interleave ns rest ls /\ Forall2 (building_in f d) ns ms /\
    (forall n, In n rest -> ~ building_entry f d n) /\ stored_as f (d ++ [lit "terrain.off"]) (lit "terrain") t /\ scene_make build ms t point_default 2154 = Ok s).
Proof.
  intros S build X f ls d m s Hm R N Nn. apply (granted_read m Hm) in R. unfold scene_read. cbn [sh_fmt sh_path sh_modes]. unfold is_directory. rewrite (os_path_plain d N), terrain_path.
  pose proof (read_file f _ m _ R (terrain_no_nul d N) (terrain_stem d)) as RT.
  assert (f d = Some Dir \/ f d <> Some Dir) as [D|D] by (destruct (f d) as [[|]|]; auto; right; discriminate).
  - rewrite D. cbn [negb]. split.
    + intros H. inv_bind H. inv_bind H. split; auto. apply (read_entries f d m ls R N Nn) in E. destruct E as (ns & rest & I & F & O). apply RT in E0. exists ns, rest, a, a0. auto.
    + intros (_ & ns & rest & ms & t & I & F & O & ST & M). assert (read_off_entries f d m ls = Ok ms) as -> by (apply (read_entries f d m ls R N Nn); eauto). cbn [bind]. apply RT in ST. rewrite ST. exact M.
  - destruct (f d) as [[|]|]; try congruence; cbn [negb]; split; try discriminate; intros [E _]; discriminate.
Qed.
(** the outcome is that of the scene when all files can be read *)
Theorem C91_scene : forall (S : Type) (build : mesh -> outcome S) X f ls d m ns rest ms t, is_map m -> granted m "read" -> no_nul d -> (forall n, In n ls -> ~ In nul n) ->
  f d = Some Dir -> interleave ns rest ls -> Forall2 (building_in f d) ns ms -> (forall n, In n rest -> ~ building_entry f d n) -> stored_as f (d ++ [lit "terrain.off"]) (lit "terrain") t ->
  scene_read X build f ls (mkSceneH d m off) = scene_make build ms t point_default 2154.
Proof.
  intros S build X f ls d m ns rest ms t Hm R N Nn D I F O ST. apply (granted_read m Hm) in R. unfold scene_read. cbn [sh_fmt sh_path sh_modes]. unfold is_directory. rewrite (os_path_plain d N), terrain_path, D. cbn [negb].
  assert (read_off_entries f d m ls = Ok ms) as -> by (apply (read_entries f d m ls R N Nn); eauto). cbn [bind]. apply (read_file f _ m _ R (terrain_no_nul d N) (terrain_stem d)) in ST. now rewrite ST.
Qed.
(** the first building that cannot be read decides; then the terrain; a path that is no directory
    is a runtime_error *)
Theorem C91_bad_building : forall (S : Type) (build : mesh -> outcome S) X f pre n post d m ns rest ms c, is_map m -> granted m "read" -> no_nul d -> (forall n', In n' (pre ++ n :: post) -> ~ In nul n') ->
  f d = Some Dir -> interleave ns rest pre -> Forall2 (building_in f d) ns ms -> (forall n', In n' rest -> ~ building_entry f d n') ->
  building_entry f d n -> f (d ++ [n]) = Some (File c) ->
  (forall e, off_read c = Throw e -> scene_read X build f (pre ++ n :: post) (mkSceneH d m off) = Throw e) /\
  (off_read c = UB -> scene_read X build f (pre ++ n :: post) (mkSceneH d m off) = UB).
Proof.
  intros S build X f pre n post d m ns rest ms c Hm R N Nn D I F O B Fc. apply (granted_read m Hm) in R. unfold scene_read. cbn [sh_fmt sh_path sh_modes]. unfold is_directory. rewrite (os_path_plain d N), D. cbn [negb].
  assert (read_off_entries f d m pre = Ok ms) as P. { apply (read_entries f d m pre R N); eauto. intros x Hx. apply Nn. apply in_or_app. now left. }
  assert (no_nul (d ++ [n])) as Np by (apply no_nul_app; auto; apply Nn; apply in_or_app; right; now left).
  destruct (read_file_fails f (d ++ [n]) m c R Np Fc) as [T U].
  assert (forall o, off_handler_read f (d ++ [n]) m = o -> (forall x, o <> Ok x) -> read_off_entries f d m (pre ++ n :: post) = match o with Ok _ => UB | Throw e => Throw e | UB => UB end) as G.
  { clear T U I F O. intros o Ho No. revert ms P Nn. induction pre as [|a pre IH]; intros ms P Nn; cbn [app read_off_entries] in *.
    - change (format_extension off) with (Ok [".";"o";"f";"f"]%char). cbn [bind]. pose proof (proj2 (entry_test f d n N (Nn n (or_introl eq_refl))) B) as ET. match goal with |- context [if ?b then _ else _] => replace b with true by (symmetry; exact ET) end. match goal with |- context [off_handler_read f ?p m] => replace (off_handler_read f p m) with o by (symmetry; exact Ho) end. destruct o as [x|e|]; [exfalso; now apply (No x)|reflexivity|reflexivity].
    - change (format_extension off) with (Ok [".";"o";"f";"f"]%char) in *. cbn [bind] in *. assert (forall n', In n' (pre ++ n :: post) -> ~ In nul n') as Nn' by (intros n' H'; apply Nn; now right).
      destruct (_ && negb _) eqn:E.
      + inv_bind P. inv_bind P. rewrite E0. cbn [bind]. rewrite (IH _ E1 Nn'). destruct o as [x|e|]; reflexivity.
      + exact (IH _ P Nn'). }
  split; [intros e H|intros H].
  - rewrite (G (Throw e)); [reflexivity|now apply T|discriminate].
  - rewrite (G UB); [reflexivity|now apply U|discriminate].
Qed.
Theorem C91_bad_terrain : forall (S : Type) (build : mesh -> outcome S) X f ls d m ns rest ms, is_map m -> granted m "read" -> no_nul d -> (forall n, In n ls -> ~ In nul n) ->
  f d = Some Dir -> interleave ns rest ls -> Forall2 (building_in f d) ns ms -> (forall n, In n rest -> ~ building_entry f d n) ->
  (~ a_file f (d ++ [lit "terrain.off"]) -> exists e, scene_read X build f ls (mkSceneH d m off) = Throw e) /\
  (forall c e, f (d ++ [lit "terrain.off"]) = Some (File c) -> off_read c = Throw e -> scene_read X build f ls (mkSceneH d m off) = Throw e).
Proof.
  intros S build X f ls d m ns rest ms Hm R N Nn D I F O. apply (granted_read m Hm) in R. unfold scene_read. cbn [sh_fmt sh_path sh_modes]. unfold is_directory. rewrite (os_path_plain d N), terrain_path, D. cbn [negb].
  assert (read_off_entries f d m ls = Ok ms) as -> by (apply (read_entries f d m ls R N Nn); eauto). cbn [bind]. pose proof (terrain_no_nul d N) as NT. split.
  - intros A. unfold off_handler_read. rewrite R. destruct (is_regular_file f _) eqn:E.
    + exfalso. apply is_reg_file in E. rewrite os_path_plain in E by exact NT. exact (A E).
    + eexists. reflexivity.
  - intros c e H1 H2. rewrite (proj1 (read_file_fails f _ m c R NT H1) e H2). reflexivity.
Qed.
Theorem C91_no_directory : forall (S : Type) (build : mesh -> outcome S) X f ls d m, no_nul d -> f d <> Some Dir -> scene_read X build f ls (mkSceneH d m off) = Throw RuntimeError.
Proof.
  intros S build X f ls d m N D. unfold scene_read. cbn [sh_fmt sh_path sh_modes]. unfold is_directory. rewrite (os_path_plain d N). destruct (f d) as [[|]|]; try congruence; reflexivity.
Qed.

(** ** C92: conversions from end to end *)
Lemma taken_node T tod ref epsg m : exact_on_doubles tod -> taken_as_is T m -> exists u, Handlers.unode_of_mesh (body_of_mesh T) ref epsg m = Ok u /\ u_name u = m_name m /\ same_mesh m (node_mesh tod u).
Proof.
  intros E (S & R & P & s & A & O & B & U & D). destruct (C85_round_trip T tod m P s ref epsg E S R A O B U D) as (u & m' & H & N & _ & _ & _ & M & Nm & Q & _).
  exists u. split; [exact H|]. split; auto. unfold node_mesh. rewrite M. split; auto.
Qed.
Lemma scene_taken T tod ms t pv ep : exact_on_doubles tod -> (forall x, In x (ms ++ [t]) -> taken_as_is T x) -> exists us ut, scene_make (body_of_mesh T) ms t pv ep = Ok (mkScene pv ep us ut) /\
  Forall2 (fun x u => u_name u = m_name x /\ same_mesh x (node_mesh tod u)) (ms ++ [t]) (us ++ [ut]).
Proof.
  intros E H. assert (exists us, omapM (Handlers.unode_of_mesh (body_of_mesh T) pv ep) ms = Ok us /\ Forall2 (fun x u => u_name u = m_name x /\ same_mesh x (node_mesh tod u)) ms us) as (us & M & F).
  { assert (forall x, In x ms -> taken_as_is T x) as H' by (intros x Hx; apply H, in_or_app; auto). clear H. induction ms as [|x ms IH]; [exists []; split; [reflexivity|constructor]|].
    destruct IH as (us & M & F); [intros y Hy; apply H'; now right|]. destruct (taken_node T tod pv ep x E (H' x (or_introl eq_refl))) as (u & U & N & Q).
    exists (u :: us). cbn [omapM]. rewrite U. cbn [bind]. rewrite M. split; [reflexivity|constructor; auto]. }
  destruct (taken_node T tod pv ep t E) as (u & U & N & Q); [apply H, in_or_app; right; now left|].
  exists us, u. unfold scene_make. rewrite M. cbn [bind]. rewrite U. split; [reflexivity|]. apply Forall2_app; auto.
Qed.
Lemma Forall2_In_l {A B} (R : A -> B -> Prop) l k : Forall2 R l k -> forall a, In a l -> exists b, In b k /\ R a b.
Proof. induction 1 as [|x y l k H F IH]; intros a []; [subst; exists y; split; [now left|auto]|]. destruct (IH a H0) as (b & I & Q). exists b. split; [now right|auto]. Qed.
Lemma Forall2_names {A B} (f : A -> str) (g : B -> str) (Q : A -> B -> Prop) l k : Forall2 (fun a b => g b = f a /\ Q a b) l k -> map g k = map f l.
Proof. induction 1 as [|a b l k [E _] F IH]; cbn; congruence. Qed.
Lemma write_files_only {S} (to_mesh : unode S -> mesh) d m us : no_nul d -> (forall u, In u us -> file_safe (u_name u)) -> forall f, only_in [d] f (fst (write_off_files to_mesh f d m us)).
Proof.
  intros N. induction us as [|u us IH]; intros H f; cbn [write_off_files]; [apply only_in_refl|]. change (format_extension off) with (Ok [".";"o";"f";"f"]%char). cbv beta iota.
  assert (only_in [d] f (fst (off_handler_write f (path_join d (u_name u ++ [".";"o";"f";"f"]%char)) m (to_mesh u)))) as W.
  { unfold off_handler_write. destruct (can_write m); cbn [fst]; [|apply only_in_refl]. unfold path_join. now apply fwrite_only. }
  match goal with |- context [off_handler_write f ?p m (to_mesh u)] => change (only_in [d] f (fst (off_handler_write f p m (to_mesh u)))) in W; destruct (off_handler_write f p m (to_mesh u)) as [g [[]|e|]] end; cbn [fst] in W; auto. eapply only_in_trans; [exact W|]. apply IH. intros v Hv. apply H. now right.
Qed.
Lemma scene_write_only {S} (to_mesh : unode S -> mesh) f d m s : no_nul d -> (forall u, In u (sc_buildings s ++ [sc_terrain s]) -> file_safe (u_name u)) -> only_in [d] f (fst (scene_write to_mesh f (mkSceneH d m off) s)).
Proof.
  intros N H. unfold scene_write. cbn [sh_fmt sh_path sh_modes].
  assert (only_in [d] f (fst (if negb (fs_exists f d) then create_directory f d else if is_directory f d then (f, Ok tt) else (f, Throw RuntimeError)))) as W.
  { destruct (negb _); [now apply create_only|]. destruct (is_directory f d); apply only_in_refl. }
  destruct (if negb _ then _ else _) as [g [[]|e|]]; cbn [fst] in *; auto.
  assert (only_in [d] g (fst (write_off_files to_mesh g d m (sc_buildings s)))) as W1. { apply write_files_only; auto. intros u Hu. apply H, in_or_app. now left. }
  destruct (write_off_files to_mesh g d m (sc_buildings s)) as [g1 [[]|e|]]; cbn [fst] in W1; [|eapply only_in_trans; eauto|eapply only_in_trans; eauto].
  eapply only_in_trans; [exact W|]. eapply only_in_trans; [exact W1|]. apply write_files_only; auto. intros u Hu. apply H, in_or_app. now right.
Qed.

Section CONVERT.
Context (T : soup_tools) (tod : Qc -> dbl) (E : exact_on_doubles tod) (X : externals) (prune : body -> outcome body) (line : surface -> nat -> outcome str) (listing : fs -> path -> list str).
Notation convert := (format_main X (body_of_mesh T) b_surface (node_mesh tod) prune line listing).
(** a conversion, without pruning and dual graphs, of a file whose meshes are [ms] (buildings)
    and [t] (terrain), all of them taken as they are *)
Definition about_to_convert (m : list (str * value)) (a : format_arguments) (w : world) (ms : list mesh) (t : mesh) : Prop :=
  format_given m a /\ fa_prune a = false /\ fa_graphs a = false /\
  (exists h d pv ep, scene_handler_named (fa_path a) [(lit "read", true)] (fa_format a) = Ok h /\ resolves (fa_path a) d /\
    scene_read X (body_of_mesh T) (w_fs w) (listing (w_fs w) d) (mkSceneH d [(lit "read", true)] (sh_fmt h)) = scene_make (body_of_mesh T) ms t pv ep) /\
  forall x, In x (ms ++ [t]) -> taken_as_is T x.
Lemma convert_run m a w ms t : about_to_convert m a w ms t -> exists s, Forall2 (fun x u => u_name u = m_name x /\ same_mesh x (node_mesh tod u)) (ms ++ [t]) (sc_buildings s ++ [sc_terrain s]) /\
  forall h f r, scene_handler_named (fa_out a) [(lit "write", true)] (fa_outfmt a) = Ok h -> scene_write (node_mesh tod) (w_fs w) h s = (f, Ok r) ->
    convert (PArgs m) w = (mkWorld f (w_vectors w) (w_rasters w), Exit 0 None, []).
Proof.
  intros (G & Pr & Gr & (h0 & d0 & pv & ep & H0 & D0 & R0) & A). destruct (scene_taken T tod ms t pv ep E A) as (us & ut & M & F). exists (mkScene pv ep us ut). split; [exact F|].
  intros h f r H W. rewrite (format_given_run X (body_of_mesh T) b_surface (node_mesh tod) prune line listing m a w G). unfold format_body. unfold bnd at 1. rewrite Gr.
  rewrite (input_quiet X (body_of_mesh T) b_surface prune line listing (fa_path a) (fa_format a) (fa_prune a) (fa_terrain a) w (mkScene pv ep us ut)).
  - unfold write_scene, bnd, lift. change write_modes with [(lit "write", true)]. rewrite H. unfold on_fs. rewrite W. reflexivity.
  - exists h0, d0, (mkScene pv ep us ut). split; auto. split; auto. rewrite Pr. split; [congruence|reflexivity].
Qed.
Lemma write_map : is_map [(lit "write", true)] /\ granted [(lit "write", true)] "write".
Proof. split; [repeat constructor; intros []|now left]. Qed.
Lemma named_ok p m : scene_handler_named p m (lit "OFF") = Ok (mkSceneH p m off) /\ (ends_with_ci (filename p) (lit ".obj") -> scene_handler_named p m (lit "OBJ") = Ok (mkSceneH p m obj)).
Proof.
  split.
  - exact (proj1 (C33_extension_check p m off) (or_introl eq_refl)).
  - intros H. exact (proj1 (C33_extension_check p m obj) (or_intror H)).
Qed.
Lemma obj_not_dot p : ends_with_ci (filename p) (lit ".obj") -> forall q, p <> q ++ [lit "."].
Proof.
  intros (u & v & Ev & S) q ->. unfold filename in Ev. rewrite last_last in Ev. apply (f_equal (@List.length ascii)) in Ev. rewrite app_length in Ev. change (List.length (lit ".")) with 1 in Ev.
  assert (List.length v = 4) as L by (rewrite (Forall2_len S); reflexivity). lia.
Qed.
(** to OFF: a directory with one file per mesh, each holding an equal mesh; nothing else changes *)
Theorem C92_to_off : forall m a w ms t, about_to_convert m a w ms t -> fa_outfmt a = lit "OFF" -> let d := fa_out a in
  fs_tree (w_fs w) -> no_nul d -> d <> [] -> w_fs w d = None -> w_fs w (removelast d) = Some Dir ->
  (forall x, In x (ms ++ [t]) -> file_safe (m_name x)) -> NoDup (map m_name (ms ++ [t])) ->
  exists f, convert (PArgs m) w = (mkWorld f (w_vectors w) (w_rasters w), Exit 0 None, []) /\ only_in [d] (w_fs w) f /\ f d = Some Dir /\
    (forall n, f (d ++ [n]) <> None <-> exists x, In x (ms ++ [t]) /\ n = m_name x ++ lit ".off") /\
    forall x, In x (ms ++ [t]) -> exists y, same_mesh x y /\ f (d ++ [m_name x ++ lit ".off"]) = Some (File (off_write y)).
Proof.
  intros m a w ms t C O d Ft N Dn Fr Fd Fs Nd. destruct (convert_run m a w ms t C) as (s & F & R).
  assert (forall u, In u (sc_buildings s ++ [sc_terrain s]) -> file_safe (u_name u)) as Fu. { intros u Hu. destruct (Forall2_In_r _ _ _ F u Hu) as (x & Hx & Q & _). rewrite Q. auto. }
  pose proof (Forall2_names m_name u_name _ _ _ F) as Nm.
  destruct (C34_write_directory body (node_mesh tod) (w_fs w) (mkSceneH d [(lit "write", true)] off) s eq_refl Ft (proj1 write_map) (proj2 write_map) N Dn Fr Fd Fu) as (f & W & D & L & V). cbn [sh_path] in *.
  exists f. split; [|split; [|split; [exact D|split]]].
  - apply (R _ f tt) in W; [exact W|]. rewrite O. apply named_ok.
  - pose proof (scene_write_only (node_mesh tod) (w_fs w) d [(lit "write", true)] s N Fu) as Q. rewrite W in Q. exact Q.
  - intros n. rewrite L. split.
    + intros (u & Hu & ->). destruct (Forall2_In_r _ _ _ F u Hu) as (x & Hx & Q & _). exists x. split; auto. congruence.
    + intros (x & Hx & ->). destruct (Forall2_In_l _ _ _ F x Hx) as (u & Hu & Q & _). exists u. split; auto. congruence.
  - intros x Hx. destruct (Forall2_In_l _ _ _ F x Hx) as (u & Hu & Q & Sm). exists (node_mesh tod u). split; auto. destruct (in_split _ _ Hu) as (pre & post & Sp). rewrite <- Q. apply (V pre u post Sp).
    intros u' Hu' Eq. rewrite <- Nm, Sp, map_app in Nd. apply NoDup_remove_2 in Nd. apply Nd. rewrite <- Eq. apply in_or_app. right. now apply in_map.
Qed.
(** to OBJ: one file, holding equal meshes in the same order, the terrain last *)
Theorem C92_to_obj : forall m a w ms t, about_to_convert m a w ms t -> fa_outfmt a = lit "OBJ" -> let p := fa_out a in
  ends_with_ci (filename p) (lit ".obj") -> no_nul p -> p <> [] -> w_fs w p <> Some Dir -> w_fs w (removelast p) = Some Dir -> (sum_points (ms ++ [t]) < two64)%N ->
  exists f ys c, convert (PArgs m) w = (mkWorld f (w_vectors w) (w_rasters w), Exit 0 None, []) /\ differ_only_at p (w_fs w) f /\
    Forall2 same_mesh (ms ++ [t]) ys /\ obj_write ys = Ok c /\ f p = Some (File c).
Proof.
  intros m a w ms t C O p Ex N Pn Fp Fd Sz. destruct (convert_run m a w ms t C) as (s & F & R). set (ys := map (node_mesh tod) (sc_buildings s) ++ [node_mesh tod (sc_terrain s)]).
  assert (Forall2 same_mesh (ms ++ [t]) ys) as FS. { unfold ys. change [node_mesh tod (sc_terrain s)] with (map (node_mesh tod) [sc_terrain s]). rewrite <- map_app. clear -F. induction F as [|x u l k [_ H] F IH]; constructor; auto. }
  assert (sum_points ys = sum_points (ms ++ [t])) as SP. { clear -FS. induction FS as [|x y l k [_ H] F IH]; auto. cbn [sum_points map fold_right] in *. unfold sum_points in *. cbn [map fold_right]. rewrite IH. f_equal. unfold mesh_eqb in H.
    destruct (Nat.eqb_spec (List.length (m_points x)) (List.length (m_points y))) as [L|]; [|discriminate H]. unfold nsize. congruence. }
  destruct (C30_defined_iff_nonempty ys ltac:(now rewrite SP)) as [[_ D] _]. destruct D as [c Hc]; [unfold ys; destruct (map (node_mesh tod) (sc_buildings s)); discriminate|].
  destruct (C32_obj_write_value (w_fs w) (mkObjH p [(lit "write", true)] ys) (proj1 write_map) (proj2 write_map)) as (f & W & _ & _ & Df & _ & Cr). cbn [oh_path oh_meshes] in *. rewrite (os_path_plain p N) in *.
  destruct Cr as (c' & Fc & Ec); [apply C32_creatable; rewrite (os_path_plain p N); auto|]. exists f, ys, c. split; [|split; [exact Df|split; [exact FS|split; [exact Hc|]]]].
  - apply (R (mkSceneH p [(lit "write", true)] obj) f tt); [rewrite O; now apply named_ok|]. exact (W c Hc).
  - now rewrite Fc, (Ec c Hc).
Qed.
(** an OBJ file converted to OFF: one file per object *)
Theorem C92_obj_to_off : forall m a w c rs, format_given m a -> fa_prune a = false -> fa_graphs a = false -> fa_format a = lit "OBJ" -> fa_outfmt a = lit "OFF" ->
  ends_with_ci (filename (fa_path a)) (lit ".obj") -> no_nul (fa_path a) -> w_fs w (fa_path a) = Some (File c) -> obj_read c = Ok rs ->
  exists ms out t, interleave ms out rs /\ (forall x, In x ms -> m_name x <> lit "terrain") /\ (forall x, In x out -> m_name x = lit "terrain") /\ m_name t = lit "terrain" /\ joins out t /\
  let d := fa_out a in (forall x, In x (ms ++ [t]) -> taken_as_is T x /\ file_safe (m_name x)) ->
  fs_tree (w_fs w) -> no_nul d -> d <> [] -> w_fs w d = None -> w_fs w (removelast d) = Some Dir ->
  exists f, convert (PArgs m) w = (mkWorld f (w_vectors w) (w_rasters w), Exit 0 None, []) /\ only_in [d] (w_fs w) f /\ f d = Some Dir /\
    (forall n, f (d ++ [n]) <> None <-> exists x, In x (ms ++ [t]) /\ n = m_name x ++ lit ".off") /\
    forall x, In x (ms ++ [t]) -> exists y, same_mesh x y /\ f (d ++ [m_name x ++ lit ".off"]) = Some (File (off_write y)).
Proof.
  intros m a w c rs G Pr Gr Fi Fo Ex N Fc R.
  destruct (C79_obj_scene body (body_of_mesh T) X (w_fs w) (fa_path a) [(lit "read", true)] c rs) as (ms & out & t & Sc & I & Nb & Nt & Tn & J); auto; [repeat constructor; intros []|now left|rewrite (os_path_plain _ N); auto|].
  exists ms, out, t. do 5 (split; auto). intros d A Ft Nd Dn Fr Fd. apply C92_to_off; auto.
  - split; [exact G|]. do 2 (split; auto). split; [|intros x Hx; now apply A]. exists (mkSceneH (fa_path a) [(lit "read", true)] obj), (fa_path a), point_default, 2154%N. split; [rewrite Fi; now apply named_ok|]. split; [right; split; auto; now apply obj_not_dot|apply Sc].
  - intros x Hx. now apply A.
  - destruct (C27_ordered_first_kept c rs R) as (_ & _ & _ & Inc & _). rewrite map_app. apply NoDup_join.
    + apply increasing_NoDup in Inc. clear -I Inc. induction I as [|x ms out rs I IH|x ms out rs I IH]; cbn [map] in *; [constructor| |]; apply NoDup_cons_iff in Inc as [Ni Nd]; auto.
      constructor; auto. intros Hx. apply Ni. apply in_map_iff in Hx as (y & <- & Hy). apply in_map. apply (interleave_In _ _ _ y) in I. tauto.
    + repeat constructor. intros [].
    + intros n Hn [<-|[]]. apply in_map_iff in Hn as (x & Ex' & Hx). apply (Nb x Hx). now rewrite Ex'.
Qed.
(** an OFF directory converted to OBJ *)
Theorem C92_off_to_obj : forall m a w d ns rest ms t, format_given m a -> fa_prune a = false -> fa_graphs a = false -> fa_format a = lit "OFF" -> fa_outfmt a = lit "OBJ" ->
  resolves (fa_path a) d -> no_nul d -> w_fs w d = Some Dir -> (forall n, In n (listing (w_fs w) d) -> ~ In nul n) -> interleave ns rest (listing (w_fs w) d) ->
  Forall2 (building_in (w_fs w) d) ns ms -> (forall n, In n rest -> ~ building_entry (w_fs w) d n) -> stored_as (w_fs w) (d ++ [lit "terrain.off"]) (lit "terrain") t ->
  (forall x, In x (ms ++ [t]) -> taken_as_is T x) -> let p := fa_out a in
  ends_with_ci (filename p) (lit ".obj") -> no_nul p -> p <> [] -> w_fs w p <> Some Dir -> w_fs w (removelast p) = Some Dir -> (sum_points (ms ++ [t]) < two64)%N ->
  exists f ys c, convert (PArgs m) w = (mkWorld f (w_vectors w) (w_rasters w), Exit 0 None, []) /\ differ_only_at p (w_fs w) f /\
    Forall2 same_mesh (ms ++ [t]) ys /\ obj_write ys = Ok c /\ f p = Some (File c).
Proof.
  intros m a w d ns rest ms t G Pr Gr Fi Fo Rd N D Nn I B O St A p Ex Np Pn Fp Fd Sz. apply (C92_to_obj m a w ms t); auto. split; [exact G|]. do 2 (split; auto). split; auto.
  exists (mkSceneH (fa_path a) [(lit "read", true)] off), d, point_default, 2154%N. split; [rewrite Fi; apply named_ok|]. split; [exact Rd|]. cbn [sh_fmt]. apply (C91_scene body (body_of_mesh T) X (w_fs w) _ d [(lit "read", true)] ns rest ms t); auto; [repeat constructor; intros []|now left].
Qed.
End CONVERT.

(** ** Examples *)
Definition flat_points : list point := [mkPoint (dofZ 0) (dofZ 0) (dofZ 0); mkPoint (dofZ 1) (dofZ 0) (dofZ 0); mkPoint (dofZ 1) (dofZ 1) (dofZ 0); mkPoint (dofZ 0) (dofZ 1) (dofZ 0)].
Definition flat_faces : list face := [[1; 2; 0]; [3; 0; 2]]%N.
Lemma flat_taken x : m_points x = flat_points -> m_faces x = flat_faces -> taken_as_is square_tools x.
Proof.
  intros P F. destruct C85_round_trip_example as (_ & _ & _ & Bu & Bo & _). replace (m_faces square_mesh) with flat_faces in Bu by (vm_compute; reflexivity).
  split. { unfold simple_faces. rewrite F. intros f [<-|[<-|[]]]; (split; [repeat constructor; cbn; intuition discriminate|discriminate]). }
  split. { rewrite P. intros p H. cbn in H. repeat (destruct H as [<-|H]; [repeat split; vm_compute; reflexivity|]). destruct H. }
  exists (points square2), square2. rewrite P, F. split; [repeat constructor; apply Qc_is_canon; vm_compute; reflexivity|]. do 2 (split; [reflexivity|]). split; auto.
Qed.
Definition flat_text : str := off_write (mesh_make [] flat_points flat_faces).
Definition town_disk : fs := fun p =>
  if path_eqb p [] then Some Dir else if path_eqb p [lit "town"] then Some Dir else if path_eqb p [lit "town"; lit "Hut.OFF"] then Some (File flat_text) else
  if path_eqb p [lit "town"; lit "terrain.off"] then Some (File flat_text) else if path_eqb p [lit "town"; lit "notes.txt"] then Some (File (lit "hello")) else None.
Definition town_ls : list str := [lit "notes.txt"; lit "terrain.off"; lit "Hut.OFF"].
Definition town_map : list (str * value) :=
  [(lit "--formats", VBool false); (lit "<scene>", VStr (lit "town")); (lit "--input-format", VStr (lit "OFF")); (lit "--prune", VBool false); (lit "--graphs", VBool false);
   (lit "--terrain", VBool true); (lit "output", VBool true); (lit "<path>", VStr (lit "town.obj")); (lit "--output-format", VStr (lit "OBJ"))].
Definition town_a : format_arguments := mkFormat [lit "town"] (lit "OFF") false false true [lit "town.obj"] (lit "OBJ").
Lemma flat_read : exists r, off_read flat_text = Ok r /\ m_points r = flat_points /\ m_faces r = flat_faces.
Proof. eexists. split; [vm_compute; reflexivity|]. split; vm_compute; reflexivity. Qed.
Lemma flat_stored p a : town_disk p = Some (File flat_text) -> exists x, stored_as town_disk p a x /\ m_points x = flat_points /\ m_faces x = flat_faces.
Proof. intros H. destruct flat_read as (r & O & P & F). exists (mkMesh a (m_points r) (m_faces r) (m_bbox r)). split; [|now split]. exists flat_text, r. repeat split; auto. Qed.
Definition listed (f : fs) (d : path) : list str := if path_eqb d [lit "town"] then town_ls else [].
Example C91_example : exists ms t, interleave [lit "Hut.OFF"] [lit "notes.txt"; lit "terrain.off"] town_ls /\ Forall2 (building_in town_disk [lit "town"]) [lit "Hut.OFF"] ms /\
  (forall n, In n [lit "notes.txt"; lit "terrain.off"] -> ~ building_entry town_disk [lit "town"] n) /\ stored_as town_disk ([lit "town"] ++ [lit "terrain.off"]) (lit "terrain") t /\
  map m_name ms = [lit "Hut"] /\ (forall x, In x (ms ++ [t]) -> taken_as_is square_tools x) /\ sum_points (ms ++ [t]) = 8%N.
Proof.
  destruct (flat_stored [lit "town"; lit "Hut.OFF"] (lit "Hut")) as (x & Sx & Px & Fx); [reflexivity|]. destruct (flat_stored [lit "town"; lit "terrain.off"] (lit "terrain")) as (t & St & Pt & Ft); [reflexivity|].
  exists [x], t. split; [repeat constructor|]. split; [constructor; [|constructor]|].
  { exists (lit "Hut"). split; [|split; [discriminate|exact Sx]]. exists (lit ".OFF"). split; [reflexivity|]. constructor; [now left|]. assert (forall c d, upper c /\ N_of_ascii d = (N_of_ascii c + 32)%N -> same_letter c d) as U by (intros; right; now left).
    repeat (constructor; [apply U; split; [unfold upper; cbn; lia|reflexivity]|]). constructor. }
  split. { intros n [<-|[<-|[]]] [_ (b & H & Nb)]; destruct H as (v & En & Sv).
    - destruct (off_named_ext [lit "town"] (lit "notes.txt")) as [_ H]. assert (iequals (extension ([lit "town"] ++ [lit "notes.txt"])) [".";"o";"f";"f"]%char = true) as K by (apply H; exists b, v; auto). vm_compute in K. discriminate.
    - apply Nb. assert (stem ([lit "town"] ++ [lit "terrain.off"]) = b) as <- by (apply off_named_stem; exists v; auto). reflexivity. }
  split; [exact St|]. destruct Sx as (? & ? & _ & _ & Nx & _). split; [cbn; now rewrite Nx|]. split; [intros y [<-|[<-|[]]]; now apply flat_taken|]. unfold sum_points. cbn [app map fold_right]. rewrite Px, Pt. reflexivity.
Qed.
(** the conversion of this directory to OBJ *)
Example C92_example : format_given town_map town_a /\ exists f ys c, format_main no_ext (body_of_mesh square_tools) b_surface (node_mesh dq) (fun s => Ok s) (fun _ _ => Ok []) listed (PArgs town_map) (mkWorld town_disk [] []) = (mkWorld f [] [], Exit 0 None, []) /\
  f [lit "town.obj"] = Some (File c) /\ obj_write ys = Ok c /\ map m_name ys = [lit "Hut"; lit "terrain"].
Proof.
  assert (format_given town_map town_a) as G by (apply C75_arguments; vm_compute; reflexivity). split; auto.
  destruct C91_example as (ms & t & I & B & O & St & Nm & Tk & Sz).
  destruct (C92_off_to_obj square_tools dq exact_dq no_ext (fun s => Ok s) (fun _ _ => Ok []) listed town_map town_a (mkWorld town_disk [] []) [lit "town"] [lit "Hut.OFF"] [lit "notes.txt"; lit "terrain.off"] ms t G eq_refl eq_refl eq_refl eq_refl) as (f & ys & c & R & _ & F & W & Fc).
  - apply resolves_location. reflexivity.
  - intros k [<-|[]]. now apply no_nul_check.
  - reflexivity.
  - intros n H. change (In n town_ls) in H. destruct H as [<-|[<-|[<-|[]]]]; now apply no_nul_check.
  - exact I.
  - exact B.
  - exact O.
  - exact St.
  - exact Tk.
  - exists (lit "town"), (lit ".obj"). split; [reflexivity|]. repeat constructor.
  - intros k [<-|[]]. now apply no_nul_check.
  - discriminate.
  - discriminate.
  - reflexivity.
  - rewrite Sz. reflexivity.
  - exists f, ys, c. split; [exact R|]. split; [exact Fc|]. split; [exact W|]. replace (map m_name ys) with (map m_name (ms ++ [t])).
    + rewrite map_app, Nm. destruct St as (? & ? & _ & _ & Nt & _). cbn. now rewrite Nt.
    + clear -F. induction F as [|x y l k [H _] F IH]; cbn; [reflexivity|]. now rewrite H, IH.
Qed.
