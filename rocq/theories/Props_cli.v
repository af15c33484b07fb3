(** * Theorems on the two programs: C73 - C75. *)
From Verif Require Import Base Dbl Geom Decimal Shadow Streams Handlers Surface Projection Raster Ogr Spec_text Spec_io Handlers_proofs Scenefile_proofs Cli Spec_cli Props_surface Rect.
From Coq Require Import Strings.String.
Open Scope nat_scope.

(** ** Maps *)
Lemma str_eqb_eq' a b : str_eqb a b = true <-> a = b.
Proof. apply str_eqb_eq. Qed.
Lemma lookup_gives m k v : lookup m (lit k) = Some v <-> gives m k v.
Proof.
  induction m as [|[k' v'] m IH]; cbn [lookup].
  - split; [discriminate|]. intros (a & b & E & _). destruct a; discriminate.
  - destruct (str_eqb k' (lit k)) eqn:E.
    + apply str_eqb_eq in E. subst k'. split.
      * intros H. injection H as ->. exists [], m. split; [reflexivity|]. intros v' [].
      * intros (a & b & H & N). destruct a as [|c a]; [injection H; intros; now subst|]. exfalso. apply (N v'). injection H. intros _ <-. now left.
    + assert (k' <> lit k) as D by (intros D; apply str_eqb_eq in D; congruence). rewrite IH. split; intros (a & b & H & N).
      * exists ((k', v') :: a), b. split; [now rewrite H|]. intros w [F|F]; [congruence|now apply (N w)].
      * destruct a as [|c a]; [exfalso; injection H; intros; congruence|]. injection H. intros H2 _. exists a, b. split; auto. intros w F. apply (N w). now right.
Qed.
Lemma lookup_lacks m k : lookup m (lit k) = None <-> lacks m k.
Proof.
  unfold lacks. induction m as [|[k' v'] m IH]; cbn [lookup]; [split; auto|]. destruct (str_eqb k' (lit k)) eqn:E.
  - apply str_eqb_eq in E. subst. split; [discriminate|]. intros H. exfalso. apply (H v'). now left.
  - assert (k' <> lit k) as D by (intros D; apply str_eqb_eq in D; congruence). rewrite IH. split; intros H v.
    + intros [F|F]; [congruence|now apply (H v)].
    + intros F. apply (H v). now right.
Qed.
Lemma arg_bool_Ok m k b : arg_bool m (lit k) = Ok b <-> flag m k b.
Proof.
  unfold arg_bool, arg, flag. rewrite <- lookup_gives. destruct (lookup m (lit k)) as [v|]; cbn [bind]; [|split; discriminate].
  destruct v; cbn [as_bool]; split; intros H; try discriminate; [apply Ok_inj in H|injection H as H]; now subst.
Qed.
Lemma arg_string_Ok m k s : arg_string m (lit k) = Ok s <-> word m k s.
Proof.
  unfold arg_string, arg, word. rewrite <- lookup_gives. destruct (lookup m (lit k)) as [v|]; cbn [bind]; [|split; discriminate].
  destruct v; cbn [as_string]; split; intros H; try discriminate; [apply Ok_inj in H|injection H as H]; now subst.
Qed.
Lemma arg_not_UB m k : arg_bool m k <> UB /\ arg_string m k <> UB.
Proof. unfold arg_bool, arg_string, arg. destruct (lookup m k) as [[]|]; split; discriminate. Qed.
Ltac keys := change k_scene with (lit "<scene>") in *; change k_infmt with (lit "--input-format") in *; change k_prune with (lit "--prune") in *; change k_cache with (lit "--cache") in *;
  change k_graphs with (lit "--graphs") in *; change k_terrain with (lit "--terrain") in *; change k_save with (lit "save") in *; change k_sum with (lit "--scene") in *; change k_labels with (lit "--labels") in *;
  change k_rasterize with (lit "rasterize") in *; change k_pixel with (lit "--pixel-size") in *; change k_formats with (lit "--formats") in *; change k_path with (lit "<path>") in *; change k_outfmt with (lit "--output-format") in *.
Lemma bind_Ok_inv {A B} (x : outcome A) (f : A -> outcome B) b : bind x f = Ok b -> exists a, x = Ok a /\ f a = Ok b.
Proof. destruct x; try discriminate. eauto. Qed.
Ltac inv_bind H := let a := fresh "a" in let E := fresh "E" in apply bind_Ok_inv in H; destruct H as (a & E & H).

(** *** C74: the arguments of orthoproject *)
Theorem C74_arguments stod m a : ortho_args stod m = Ok a <-> ortho_given stod m a.
Proof.
  unfold ortho_args. keys. split.
  - intros H. do 11 inv_bind H. apply Ok_inj in H. subst a. apply arg_string_Ok in E, E0. apply arg_bool_Ok in E1, E2, E3, E4, E5, E8.
    constructor; cbn [oa_path oa_format oa_prune oa_cache oa_graphs oa_terrain oa_save oa_sum oa_labels oa_pixel]; auto.
    + eauto.
    + destruct a6; [now apply arg_bool_Ok|now apply Ok_inj in E6].
    + destruct a6; [now apply arg_bool_Ok|now apply Ok_inj in E7].
    + destruct a9; [left|right; split; auto; now apply Ok_inj in E9]. split; auto. apply bind_Ok_inv in E9. destruct E9 as (s & W & V). apply arg_string_Ok in W. eauto.
  - intros [(s & W & P) Hf Hp Hc Hg Ht Hs Hsum Hl Hpx]. destruct a as [p f pr c g t sv sm lb px]. cbn [oa_path oa_format oa_prune oa_cache oa_graphs oa_terrain oa_save oa_sum oa_labels oa_pixel] in *.
    rewrite (proj2 (arg_string_Ok _ _ _) W), (proj2 (arg_string_Ok _ _ _) Hf), (proj2 (arg_bool_Ok _ _ _) Hp), (proj2 (arg_bool_Ok _ _ _) Hc), (proj2 (arg_bool_Ok _ _ _) Hg), (proj2 (arg_bool_Ok _ _ _) Ht), (proj2 (arg_bool_Ok _ _ _) Hs). cbn [bind].
    replace (if sv then arg_bool m (lit "--scene") else Ok false) with (@Ok bool sm) by (destruct sv; [symmetry; now apply arg_bool_Ok|now subst]).
    replace (if sv then arg_bool m (lit "--labels") else Ok false) with (@Ok bool lb) by (destruct sv; [symmetry; now apply arg_bool_Ok|now subst]). cbn [bind].
    destruct Hpx as [(R & s' & W' & V)|(R & V)]; rewrite (proj2 (arg_bool_Ok _ _ _) R); cbn [bind].
    + rewrite (proj2 (arg_string_Ok _ _ _) W'). cbn [bind]. rewrite V. cbn [bind]. now rewrite P.
    + now rewrite V, P.
Qed.
(** *** C75: the arguments of cityformat *)
Theorem C75_arguments m : (format_args m = Ok None <-> flag m "--formats" true) /\ forall a, format_args m = Ok (Some a) <-> format_given m a.
Proof.
  unfold format_args. keys. split.
  - split.
    + intros H. inv_bind H. destruct a; [now apply arg_bool_Ok|]. do 7 inv_bind H. discriminate.
    + intros H. now rewrite (proj2 (arg_bool_Ok _ _ _) H).
  - intros a. split.
    + intros H. inv_bind H. destruct a0; [discriminate|]. do 7 inv_bind H. apply Ok_inj in H. injection H as <-. apply arg_bool_Ok in E, E2, E3, E4. apply arg_string_Ok in E0, E1, E5, E6.
      constructor; cbn [fa_path fa_format fa_prune fa_graphs fa_terrain fa_out fa_outfmt]; eauto.
    + intros [F (s & W & P) Hf Hp Hg Ht (s' & W' & P') Ho]. destruct a as [p f pr g t o of]. cbn [fa_path fa_format fa_prune fa_graphs fa_terrain fa_out fa_outfmt] in *.
      rewrite (proj2 (arg_bool_Ok _ _ _) F), (proj2 (arg_string_Ok _ _ _) W), (proj2 (arg_string_Ok _ _ _) Hf), (proj2 (arg_bool_Ok _ _ _) Hp), (proj2 (arg_bool_Ok _ _ _) Hg), (proj2 (arg_bool_Ok _ _ _) Ht), (proj2 (arg_string_Ok _ _ _) W'), (proj2 (arg_string_Ok _ _ _) Ho).
      cbn [bind]. now rewrite P, P'.
Qed.
Lemma if_not_UB {A} (b : bool) (x y : outcome A) : x <> UB -> y <> UB -> (if b then x else y) <> UB.
Proof. now destruct b. Qed.
Lemma bind_not_UB {A B} (x : outcome A) (f : A -> outcome B) : x <> UB -> (forall a, f a <> UB) -> bind x f <> UB.
Proof. destruct x; cbn [bind]; auto; discriminate. Qed.
Lemma ortho_args_cases stod m : (forall s, stod s <> UB) -> ortho_args stod m <> UB.
Proof.
  intros H. unfold ortho_args. repeat (apply bind_not_UB; [first [apply arg_not_UB|apply if_not_UB; first [apply arg_not_UB|discriminate|apply bind_not_UB; [apply arg_not_UB|apply H]]]|intros ?]). discriminate.
Qed.
Lemma format_args_cases m : format_args m <> UB.
Proof.
  unfold format_args. apply bind_not_UB; [apply arg_not_UB|intros b]. apply if_not_UB; [discriminate|]. repeat (apply bind_not_UB; [apply arg_not_UB|intros ?]). discriminate.
Qed.

(** ** Actions *)
Lemma bnd_eq {A B} (x : act A) (k : A -> act B) w : bnd x k w = match x w with (w, Ok a) => k a w | (w, Throw e) => (w, Throw e) | (w, UB) => (w, UB) end.
Proof. reflexivity. Qed.
Lemma bnd_Ok {A B} (x : act A) (k : A -> act B) w w' b : bnd x k w = (w', Ok b) <-> exists a w1, x w = (w1, Ok a) /\ k a w1 = (w', Ok b).
Proof.
  unfold bnd. destruct (x w) as [w1 [a|e|]].
  - split; [intros H; eauto|]. intros (a' & w2 & E & H). injection E as <- <-. exact H.
  - split; [discriminate|]. intros (a' & w2 & E & _). discriminate.
  - split; [discriminate|]. intros (a' & w2 & E & _). discriminate.
Qed.
Section KEEPS.
Context (R : world -> world -> Prop).
Hypothesis R_refl : forall w, R w w.
Hypothesis R_trans : forall a b c, R a b -> R b c -> R a c.
Definition keeps {A} (x : act A) : Prop := forall w, R w (fst (x w)).
Lemma keeps_ret {A} (a : A) : keeps (ret a).
Proof. intros w. apply R_refl. Qed.
Lemma keeps_lift {A} (o : outcome A) : keeps (lift o).
Proof. intros w. apply R_refl. Qed.
Lemma keeps_bnd {A B} (x : act A) (k : A -> act B) : keeps x -> (forall a, keeps (k a)) -> keeps (bnd x k).
Proof.
  intros Hx Hk w. unfold bnd. specialize (Hx w). destruct (x w) as [w1 [a|e|]]; cbn [fst] in *; auto. apply (R_trans _ w1); auto. apply Hk.
Qed.
Lemma keeps_each {A} (g : A -> act unit) l : (forall a, In a l -> keeps (g a)) -> keeps (each g l).
Proof. induction l as [|a l IH]; intros H; cbn [each]; [apply keeps_ret|]. apply keeps_bnd; [apply H; now left|]. intros _. apply IH. intros; apply H; now right. Qed.
Lemma keeps_when b x : (b = true -> keeps x) -> keeps (when b x).
Proof. intros H. destruct b; cbn [when]; [now apply H|apply keeps_ret]. Qed.
End KEEPS.

(** nothing leaves a directory *)
Lemma only_in_refl ds f : only_in ds f f.
Proof. intros p _. reflexivity. Qed.
Lemma only_in_trans ds a b c : only_in ds a b -> only_in ds b c -> only_in ds a c.
Proof. intros H1 H2 p N. now rewrite H2, H1. Qed.
Lemma only_in_more ds ds' a b : (forall d, In d ds -> In d ds') -> only_in ds a b -> only_in ds' a b.
Proof. intros I H p N. apply H. intros d q D. apply N. auto. Qed.
Lemma os_path_under d r : no_nul d -> exists q, os_path (d ++ r) = d ++ q.
Proof.
  intros N. induction d as [|c d IH]; cbn [app]; [eauto|]. cbn [os_path]. rewrite existsb_zero_false by (apply N; now left).
  destruct IH as [q E]; [intros x I; apply N; now right|]. exists q. now rewrite E.
Qed.
Lemma fs_set_only d q f e : only_in [d] f (fs_set f (d ++ q) e).
Proof. intros p N. unfold fs_set. rewrite path_eqb_neq; auto. apply N. now left. Qed.
Lemma fwrite_only d r f t : no_nul d -> only_in [d] f (fwrite f (d ++ r) t).
Proof. intros N. unfold fwrite. destruct (can_create f (d ++ r)); [|apply only_in_refl]. destruct (os_path_under d r N) as [q ->]. apply fs_set_only. Qed.
Lemma create_only d f : no_nul d -> only_in [d] f (fst (create_directory f d)).
Proof.
  intros N. unfold create_directory. rewrite (os_path_plain d N). destruct d as [|c d]; [apply only_in_refl|].
  destruct (f (removelast (c :: d))) as [[|]|]; destruct (f (c :: d)) as [[|]|]; cbn [fst]; try apply only_in_refl.
  replace (fs_set f (c :: d) Dir) with (fs_set f ((c :: d) ++ []) Dir) by now rewrite app_nil_r. apply fs_set_only.
Qed.

Lemma no_nul_check s : existsb (Ascii.eqb nul) s = false -> ~ In nul s.
Proof. intros H I. assert (existsb (Ascii.eqb nul) s = true); [|congruence]. apply existsb_exists. exists nul. split; auto. Qed.
Lemma join_no_nul root n : no_nul root -> existsb (Ascii.eqb nul) n = false -> path_join root n = root ++ [n] -> no_nul (path_join root n).
Proof. intros N E ->. apply no_nul_app; auto. now apply no_nul_check. Qed.
Lemma no_slash_check s : existsb (Ascii.eqb ch_slash) s = false -> ~ In ch_slash s.
Proof. intros H I. assert (existsb (Ascii.eqb ch_slash) s = true); [|congruence]. apply existsb_exists. exists ch_slash. split; auto. Qed.
(** what an action may do: files in [ds] only; shapes or images only if allowed *)
Definition confined (ds : list path) (vectors rasters : bool) (w w' : world) : Prop :=
  only_in ds (w_fs w) (w_fs w') /\ (vectors = false -> w_vectors w' = w_vectors w) /\ (rasters = false -> w_rasters w' = w_rasters w).
Lemma confined_refl ds v r w : confined ds v r w w.
Proof. split; [apply only_in_refl|auto]. Qed.
Lemma confined_trans ds v r a b c : confined ds v r a b -> confined ds v r b c -> confined ds v r a c.
Proof. intros (A & B & C) (A' & B' & C'). split; [eapply only_in_trans; eauto|]. split; intros H; [now rewrite B', B|now rewrite C', C]. Qed.
Lemma confined_more ds ds' v v' r r' a b : (forall d, In d ds -> In d ds') -> (v' = false -> v = false) -> (r' = false -> r = false) -> confined ds v r a b -> confined ds' v' r' a b.
Proof. intros D V R (A & B & C). split; [eapply only_in_more; eauto|auto]. Qed.

Section CLI.
Context {S : Type} (X : externals) (build : mesh -> outcome S) (surf : S -> surface) (to_mesh : unode S -> mesh)
  (prune : S -> outcome S) (line : surface -> nat -> outcome str) (listing : fs -> path -> list str) (K : kernel) (G : gdal) (stod : str -> outcome dbl).
Notation ortho := (ortho_main X build surf prune line listing K G stod).
Notation format := (format_main X build surf to_mesh prune line listing).

(** ** C73 *)
(** once docopt has accepted the command line, the status is 0, whatever happened *)
Theorem C73_status m w : (snd (ortho (PArgs m) w) = Undefined \/ exists e, snd (ortho (PArgs m) w) = Exit 0 e) /\
  (snd (fst (format (PArgs m) w)) = Undefined \/ exists e, snd (fst (format (PArgs m) w)) = Exit 0 e).
Proof.
  split; cbn [ortho_main format_main].
  - unfold finish. destruct (bnd _ _ w) as [w' [a|e|]]; cbn [snd]; eauto.
  - destruct (bnd _ _ w) as [w' [a|e|]]; cbn [fst snd]; eauto.
Qed.
(** docopt's own exits are passed on; nothing is read or written *)
Theorem C73_docopt c w : ortho (PExit c) w = (w, Exit c None) /\ format (PExit c) w = (w, Exit c None, []).
Proof. now split. Qed.
(** so the status does not tell a failure: any exception before the end is reported with 0 *)
Theorem C73_failure_hidden m w e : ortho_args stod m = Throw e -> ortho (PArgs m) w = (w, Exit 0 (Some e)).
Proof. intros H. cbn [ortho_main]. unfold bnd, lift. now rewrite H. Qed.
Theorem C73_format_failure_hidden m w e : format_args m = Throw e -> format (PArgs m) w = (w, Exit 0 (Some e), []).
Proof. intros H. cbn [format_main]. unfold bnd, lift. now rewrite H. Qed.
(** a scene file that is not there is such a failure *)
Lemma resolves_location p d : resolves p d <-> d = location p.
Proof.
  unfold resolves, location. change (lit ".") with [ch_dot]. destruct (str_eqb (last p []) [ch_dot]) eqn:E; [apply str_eqb_eq in E|apply str_eqb_neq in E].
  - assert (p = removelast p ++ [[ch_dot]]) as P. { rewrite <- E. apply app_removelast_last. intros ->. discriminate E. }
    split; [intros [H|[_ H]]|intros ->; auto].
    + rewrite H. now rewrite removelast_last.
    + exfalso. exact (H _ P).
  - assert (forall q, p <> q ++ [[ch_dot]]) as N by (intros q ->; apply E; apply last_last).
    split; [intros [H|[H _]]; [exfalso; exact (N _ H)|auto]|intros ->; auto].
Qed.
Lemma handler_named_fields p m fmt h : scene_handler_named p m fmt = Ok h -> sh_path h = p /\ sh_modes h = m.
Proof.
  unfold scene_handler_named, scene_handler_make. intros H. inv_bind H. inv_bind H. apply Ok_inj in H. subst h. split; reflexivity.
Qed.
Lemma dot_has_no_extension p : str_eqb (last p []) [ch_dot] = true -> extension p = [].
Proof. intros H. assert (filename p = [ch_dot]) as E by (apply str_eqb_eq; exact H). unfold extension. rewrite E. reflexivity. Qed.
Lemma read_scene_missing p f w : ~ a_file (w_fs w) (os_path p) -> f = lit "OBJ" ->
  exists e, read_scene X build listing p f w = (w, Throw e).
Proof.
  intros H ->. unfold read_scene. unfold scene_handler_named. change (scene_format (lit "OBJ")) with (Ok obj). cbn [bind]. unfold scene_handler_make.
  destruct (check_extension p obj) as [[]|e|] eqn:E; cbn [bind]; eauto.
  - assert (location p = p) as ->. { unfold location. destruct (str_eqb (last p []) [ch_dot]) eqn:D; auto. exfalso. unfold check_extension in E. rewrite (dot_has_no_extension _ D) in E. discriminate E. }
    cbn [scene_read sh_fmt sh_path sh_modes]. unfold obj_get_scene, obj_handler_read. cbn [oh_modes oh_path]. change (can_read read_modes) with true. cbv iota.
    rewrite (proj2 (is_reg_file_false _ _) H). cbn [bind]. eauto.
  - unfold check_extension in E. change (format_extension obj) with (Ok [".";"o";"b";"j"]%char) in E. cbn [bind] in E. destruct (iequals _ _); discriminate.
Qed.
Theorem C73_missing_scene m a w : ortho_given stod m a -> oa_format a = lit "OBJ" -> ~ a_file (w_fs w) (os_path (oa_path a)) -> exists e, ortho (PArgs m) w = (w, Exit 0 (Some e)).
Proof.
  intros H F N. apply C74_arguments in H. cbn [ortho_main]. unfold bnd at 1, lift. rewrite H. unfold ortho_body, input_scene.
  destruct (read_scene_missing (oa_path a) (oa_format a) w N F) as [e E]. exists e. unfold bnd at 1. unfold bnd at 1. now rewrite E.
Qed.

(** ** C74 *)
(** nothing is read or written when an argument is missing or of the wrong kind; the usage
    text must give '--cache' *)
Theorem C74_incomplete m w : (forall s, stod s <> UB) -> (forall a, ~ ortho_given stod m a) -> exists e, ortho (PArgs m) w = (w, Exit 0 (Some e)).
Proof.
  intros U N. destruct (ortho_args stod m) as [a|e|] eqn:E.
  - exfalso. apply (N a). now apply C74_arguments.
  - exists e. now apply C73_failure_hidden.
  - exfalso. now apply (ortho_args_cases stod m U).
Qed.
Theorem C74_cache_needed m w : (forall s, stod s <> UB) -> lacks m "--cache" -> exists e, ortho (PArgs m) w = (w, Exit 0 (Some e)).
Proof.
  intros U L. apply C74_incomplete; auto. intros a [_ _ _ H _ _ _ _ _ _]. destruct H as (x & y & -> & _). apply (L (VBool (oa_cache a))). apply in_or_app. right. now left.
Qed.

Lemma duals_confined root s : no_nul root -> keeps (confined [path_join root (lit "dual_graphs")] false false) (save_building_duals surf line root s).
Proof.
  intros N. assert (no_nul (path_join root (lit "dual_graphs"))) as ND by (apply join_no_nul; auto).
  unfold save_building_duals. apply keeps_bnd; [apply confined_trans| |intros _; apply keeps_each; [apply confined_refl|apply confined_trans|intros u _]].
  - intros w. unfold on_fs. pose proof (create_only _ (w_fs w) ND) as C. change d_duals with (lit "dual_graphs"). destruct (create_directory (w_fs w) _) as [f r]. cbn [fst] in *. split; auto.
  - apply keeps_bnd; [apply confined_trans|apply keeps_lift; apply confined_refl|intros t]. intros w. unfold write_text, on_fs. cbn [fst]. split; auto.
    change d_duals with (lit "dual_graphs"). unfold path_join at 2. now apply fwrite_only.
Qed.
Lemma vector_write_effect p labels fp w : let r := vector_write K G p labels fp w in w_fs (fst r) = w_fs w /\ w_rasters (fst r) = w_rasters w /\
  match snd r with
  | Ok _ => exists ly, w_vectors (fst r) = w_vectors w ++ [(p, ly)] /\ foot_out K (g_geog G) (g_layer G p) (g_feature G) labels fp = Ok ly
  | _ => w_vectors (fst r) = w_vectors w
  end.
Proof.
  cbv zeta. unfold vector_write. destruct (can_write write_modes); [|cbn [fst snd]; auto]. destruct (g_shp G); [|cbn [fst snd]; auto]. destruct (g_create G p); [|cbn [fst snd]; auto].
  destruct (foot_out _ _ _ _ _ _) as [ly|e|]; cbn [fst snd w_fs w_rasters w_vectors]; eauto 6.
Qed.
Lemma raster_write_effect p x w : let r := raster_write G p x w in w_fs (fst r) = w_fs w /\ w_vectors (fst r) = w_vectors w /\
  match snd r with
  | Ok _ => exists d, w_rasters (fst r) = w_rasters w ++ [(p, d)] /\ raster_store doubles (g_geog G) (g_io G p) x = Ok d
  | _ => w_rasters (fst r) = w_rasters w
  end.
Proof.
  cbv zeta. unfold raster_write. destruct (can_write write_modes); [|cbn [fst snd]; auto]. destruct (g_tiff G); [|cbn [fst snd]; auto]. destruct (g_create G p); [|cbn [fst snd]; auto].
  destruct (raster_store _ _ _ _) as [ly|e|]; cbn [fst snd w_fs w_rasters w_vectors]; eauto 6.
Qed.
Lemma vector_confined ds p labels fp : keeps (confined ds true false) (vector_write K G p labels fp).
Proof. intros w. destruct (vector_write_effect p labels fp w) as (A & B & _). split; [rewrite A; apply only_in_refl|]. split; [discriminate|auto]. Qed.
Lemma raster_confined ds p x : keeps (confined ds false true) (raster_write G p x).
Proof. intros w. destruct (raster_write_effect p x w) as (A & B & _). split; [rewrite A; apply only_in_refl|]. split; [auto|discriminate]. Qed.
Lemma prints_confined root l labels : no_nul root -> keeps (confined [path_join root (lit "vectors")] true false) (save_building_prints K G root l labels).
Proof.
  intros N. assert (no_nul (path_join root (lit "vectors"))) as ND by (apply join_no_nul; auto).
  unfold save_building_prints. change d_vectors with (lit "vectors"). apply keeps_bnd; [apply confined_trans| |intros _; apply keeps_each; [apply confined_refl|apply confined_trans|intros fp _]].
  - intros w. unfold on_fs. pose proof (create_only _ (w_fs w) ND) as C. destruct (create_directory (w_fs w) _) as [f r]. cbn [fst] in *. split; auto.
  - apply keeps_bnd; [apply confined_trans|apply vector_confined|intros _]. intros w. unfold write_text, on_fs. cbn [fst]. split; auto. unfold path_join at 2. now apply fwrite_only.
Qed.
Lemma rasters_confined root l : no_nul root -> keeps (confined [path_join root (lit "rasters")] false true) (save_building_rasters G root l).
Proof.
  intros N. assert (no_nul (path_join root (lit "rasters"))) as ND by (apply join_no_nul; auto).
  unfold save_building_rasters. change d_rasters with (lit "rasters"). apply keeps_bnd; [apply confined_trans| |intros _; apply keeps_each; [apply confined_refl|apply confined_trans|intros fp _; apply raster_confined]].
  intros w. unfold on_fs. pose proof (create_only _ (w_fs w) ND) as C. destruct (create_directory (w_fs w) _) as [f r]. cbn [fst] in *. split; auto.
Qed.
Lemma scene_prints_confined root name l ras px : keeps (confined [] true ras) (save_scene_prints K G root name l ras px).
Proof.
  unfold save_scene_prints. apply keeps_bnd; [apply confined_trans|apply keeps_lift; apply confined_refl|intros fp].
  apply keeps_bnd; [apply confined_trans|intros w; apply (confined_more [] [] true true false ras); auto; apply vector_confined|intros _].
  apply keeps_when; [apply confined_refl|intros ->]. apply keeps_bnd; [apply confined_trans|apply keeps_lift; apply confined_refl|intros r].
  intros w. apply (confined_more [] [] false true true true); auto. apply raster_confined.
Qed.
Lemma read_scene_keeps p fmt w : fst (read_scene X build listing p fmt w) = w.
Proof. unfold read_scene. destruct (scene_handler_named p read_modes fmt); reflexivity. Qed.
Lemma input_confined p fmt (pr graphs terrain : bool) : no_nul (parent_path p) ->
  keeps (confined (if graphs then [path_join (parent_path p) (lit "dual_graphs")] else []) false false) (input_scene X build surf prune line listing p fmt pr graphs terrain).
Proof.
  intros N. unfold input_scene. apply keeps_bnd; [apply confined_trans|intros w; rewrite read_scene_keeps; apply confined_refl|intros s].
  apply keeps_bnd; [apply confined_trans|apply keeps_lift; apply confined_refl|intros s']. apply keeps_bnd; [apply confined_trans| |intros _; apply keeps_ret; apply confined_refl].
  apply keeps_when; [apply confined_refl|intros ->]. now apply duals_confined.
Qed.
(** the files touched by a run, finished or not *)
Definition touched (a : ortho_arguments) : list path :=
  let dir := parent_path (oa_path a) in
  (if oa_graphs a then [path_join dir (lit "dual_graphs")] else []) ++
  (if oa_save a then path_join dir (lit "vectors") :: (if rasterizing a then [path_join dir (lit "rasters")] else []) else []).
Lemma body_confined a : no_nul (parent_path (oa_path a)) ->
  keeps (confined (touched a) (oa_save a) (oa_save a && rasterizing a)) (ortho_body X build surf prune line listing K G a).
Proof.
  intros N. unfold ortho_body. apply keeps_bnd; [apply confined_trans| |intros s].
  - intros w. eapply confined_more; [| | |apply input_confined; auto]; auto. intros d I. unfold touched. apply in_or_app. now left.
  - apply keeps_when; [apply confined_refl|intros Sv]. rewrite Sv. apply keeps_bnd; [apply confined_trans|apply keeps_lift; apply confined_refl|intros l].
    apply keeps_bnd; [apply confined_trans| |intros _].
    { intros w. eapply confined_more; [| | |apply prints_confined; auto]; auto. intros d [<-|[]]. unfold touched. rewrite Sv. apply in_or_app. right. now left. }
    apply keeps_bnd; [apply confined_trans| |intros _].
    { apply keeps_when; [apply confined_refl|intros _]. intros w. eapply confined_more; [| | |apply scene_prints_confined]; auto. intros d []. }
    apply keeps_when; [apply confined_refl|intros Rs]. apply keeps_bnd; [apply confined_trans|apply keeps_lift; apply confined_refl|intros rs].
    intros w. eapply confined_more; [| | |apply rasters_confined; auto]; auto; [|rewrite Rs; discriminate].
    intros d [<-|[]]. unfold touched. rewrite Sv, Rs. apply in_or_app. right. right. now left.
Qed.
Lemma ortho_given_run m a w : ortho_given stod m a -> ortho (PArgs m) w = finish (ortho_body X build surf prune line listing K G a w).
Proof. intros H. apply C74_arguments in H. cbn [ortho_main]. unfold bnd at 1, lift. now rewrite H. Qed.
Lemma finish_fst r : fst (finish r) = fst r.
Proof. destruct r as [w [|e|]]; reflexivity. Qed.
(** *** whatever happens, shapes are stored only with 'save', images only with 'save' and a pixel
    size other than 0, files only in the three directories *)
Theorem C74_confined m a w : ortho_given stod m a -> no_nul (parent_path (oa_path a)) ->
  let w' := fst (ortho (PArgs m) w) in
  only_in (touched a) (w_fs w) (w_fs w') /\ (oa_save a = false -> w_vectors w' = w_vectors w) /\ (oa_save a = false \/ ~ wants_images a -> w_rasters w' = w_rasters w).
Proof.
  intros H N w'. unfold w'. rewrite (ortho_given_run m a w H), finish_fst. destruct (body_confined a N w) as (A & B & C). split; auto. split; auto.
  intros I. apply C. unfold rasterizing, wants_images in *. destruct (oa_save a); auto. destruct I as [I|I]; [discriminate|]. destruct (deqb _ _); auto. now destruct I.
Qed.
(** *** nothing to do but reading: nothing changes *)
Theorem C74_only_reads m a w : ortho_given stod m a -> oa_save a = false -> oa_graphs a = false -> fst (ortho (PArgs m) w) = w.
Proof.
  intros H Sv Gr. rewrite (ortho_given_run m a w H), finish_fst. unfold ortho_body, input_scene. rewrite Sv, Gr. unfold bnd, when, lift, ret.
  pose proof (read_scene_keeps (oa_path a) (oa_format a) w) as R. destruct (read_scene X build listing (oa_path a) (oa_format a) w) as [w1 [s|e|]]; cbn [fst] in *; auto.
  destruct (if oa_prune a then _ else _); cbn [fst]; auto.
Qed.
(** *** a finished run with 'save': every shape and image, in order *)
Lemma each_vectors dir labels l : forall w w', each (fun fp => bnd (vector_write K G (path_join dir (fp_name fp ++ e_shp)) labels fp) (fun _ => write_text (path_join dir (fp_name fp ++ e_txt)) (attributes K fp))) l w = (w', Ok tt) ->
  exists V, w_vectors w' = w_vectors w ++ V /\ w_rasters w' = w_rasters w /\ Forall2 (fun fp e => shape_in K G dir labels (fp_name fp) fp e) l V.
Proof.
  induction l as [|fp l IH]; intros w w' E; cbn [each] in E.
  - unfold ret in E. injection E as <-. exists []. rewrite app_nil_r. auto.
  - apply bnd_Ok in E. destruct E as ([] & w2 & E1 & E2). apply bnd_Ok in E1. destruct E1 as ([] & w1 & E0 & E1).
    destruct (vector_write_effect (path_join dir (fp_name fp ++ e_shp)) labels fp w) as (_ & B & C). rewrite E0 in B, C. cbn [fst snd] in B, C. destruct C as (ly & C & O).
    unfold write_text, on_fs in E1. injection E1 as <-. destruct (IH _ _ E2) as (V & V1 & V2 & V3). cbn [w_vectors w_rasters] in V1, V2.
    exists ((path_join dir (fp_name fp ++ e_shp), ly) :: V). split; [rewrite V1, C, <- app_assoc; reflexivity|]. split; [congruence|]. constructor; auto. split; auto.
Qed.
Lemma prints_complete root l labels w w' : save_building_prints K G root l labels w = (w', Ok tt) ->
  exists V, w_vectors w' = w_vectors w ++ V /\ w_rasters w' = w_rasters w /\ Forall2 (fun fp e => shape_in K G (path_join root (lit "vectors")) labels (fp_name fp) fp e) l V.
Proof.
  intros E. unfold save_building_prints in E. apply bnd_Ok in E. destruct E as ([] & w1 & E1 & E2). apply each_vectors in E2. destruct E2 as (V & A & B & C).
  unfold on_fs in E1. destruct (create_directory _ _) as [f r]. injection E1 as <- ->. cbn [w_vectors w_rasters] in A, B. eauto.
Qed.
Lemma raster_name fp px r : raster_of doubles K fp px = Ok r -> r_name doubles r = fp_name fp.
Proof.
  unfold raster_of. destruct (br_box (fp_proj fp)); [|discriminate]. intros H. inv_bind H. inv_bind H. destruct (_ <? _)%N; [discriminate|]. inv_bind H.
  unfold vertical_offset in H. cbn [r_offset] in H. inv_bind H. apply Ok_inj in H. now subst.
Qed.
Lemma each_rasters dir l : forall w w', each (fun r => raster_write G (path_join dir (r_name doubles r ++ e_tiff)) r) l w = (w', Ok tt) ->
  exists R, w_rasters w' = w_rasters w ++ R /\ w_vectors w' = w_vectors w /\ Forall2 (fun r e => fst e = path_join dir (r_name doubles r ++ lit ".tiff") /\ raster_store doubles (g_geog G) (g_io G (fst e)) r = Ok (snd e)) l R.
Proof.
  induction l as [|r l IH]; intros w w' E; cbn [each] in E.
  - unfold ret in E. injection E as <-. exists []. rewrite app_nil_r. auto.
  - apply bnd_Ok in E. destruct E as ([] & w1 & E1 & E2). destruct (raster_write_effect (path_join dir (r_name doubles r ++ e_tiff)) r w) as (_ & B & C). rewrite E1 in B, C. cbn [fst snd] in B, C. destruct C as (d & C & O).
    destruct (IH _ _ E2) as (R & R1 & R2 & R3). exists ((path_join dir (r_name doubles r ++ e_tiff), d) :: R). split; [rewrite R1, C, <- app_assoc; reflexivity|]. split; [congruence|]. constructor; auto.
Qed.
Lemma omapM_Forall2 {A B} (g : A -> outcome B) l : forall r, omapM g l = Ok r -> Forall2 (fun a b => g a = Ok b) l r.
Proof. induction l as [|a l IH]; intros r H; cbn [omapM] in H; [apply Ok_inj in H; subst; constructor|]. inv_bind H. inv_bind H. apply Ok_inj in H. subst. constructor; auto. Qed.
Lemma Forall2_compose {A B C} (P : A -> B -> Prop) (Q : B -> C -> Prop) (R : A -> C -> Prop) l m n : (forall a b c, P a b -> Q b c -> R a c) -> Forall2 P l m -> Forall2 Q m n -> Forall2 R l n.
Proof. intros H F. revert n. induction F; intros n F'; inversion F'; subst; constructor; eauto. Qed.
Lemma rasters_complete root l rs px w w' : rasterize_scene doubles K l px = Ok rs -> save_building_rasters G root rs w = (w', Ok tt) ->
  exists R, w_rasters w' = w_rasters w ++ R /\ w_vectors w' = w_vectors w /\ Forall2 (fun fp e => image_in K G (path_join root (lit "rasters")) px (fp_name fp) fp e) l R.
Proof.
  intros O E. unfold save_building_rasters in E. apply bnd_Ok in E. destruct E as ([] & w1 & E1 & E2). apply each_rasters in E2. destruct E2 as (R & A & B & C).
  unfold on_fs in E1. destruct (create_directory _ _) as [f r]. injection E1 as <- ->. cbn [w_vectors w_rasters] in A, B. exists R. split; auto. split; auto.
  apply omapM_Forall2 in O. refine (Forall2_compose _ _ _ _ _ _ _ O C). intros fp r e H [P Q]. cbn beta in H. split; [now rewrite <- (raster_name _ _ _ H)|eauto].
Qed.
Lemma scene_prints_complete root name l ras px w w' : save_scene_prints K G root name l ras px w = (w', Ok tt) ->
  exists sum V R, foot_sum K l = Ok sum /\ w_vectors w' = w_vectors w ++ [V] /\ shape_in K G root false name sum V /\ w_rasters w' = w_rasters w ++ R /\
    if ras then exists e, R = [e] /\ image_in K G root px name sum e else R = [].
Proof.
  intros E. unfold save_scene_prints in E. apply bnd_Ok in E. destruct E as (sum & w0 & E0 & E). unfold lift in E0. injection E0 as <- E0.
  apply bnd_Ok in E. destruct E as ([] & w1 & E1 & E). destruct (vector_write_effect (path_join root (name ++ e_shp)) false sum w) as (_ & B & C). rewrite E1 in B, C. cbn [fst snd] in B, C. destruct C as (ly & C & O).
  exists sum, (path_join root (name ++ e_shp), ly). destruct ras; cbn [when] in E.
  - apply bnd_Ok in E. destruct E as (r & w2 & E2 & E). unfold lift in E2. injection E2 as <- E2. destruct (raster_write_effect (path_join root (name ++ e_tiff)) r w1) as (_ & B' & C'). rewrite E in B', C'. cbn [fst snd] in B', C'. destruct C' as (d & C' & O').
    exists [(path_join root (name ++ e_tiff), d)]. split; auto. split; [congruence|]. split; [split; auto|]. split; [congruence|]. exists (path_join root (name ++ e_tiff), d). split; auto. split; auto. eauto.
  - unfold ret in E. injection E as <-. exists []. rewrite app_nil_r. repeat (split; auto).
Qed.
Lemma input_complete p fmt pr graphs terrain w w' s : input_scene X build surf prune line listing p fmt pr graphs terrain w = (w', Ok s) ->
  scene_of X build prune listing (w_fs w) p fmt pr terrain s /\ w_vectors w' = w_vectors w /\ w_rasters w' = w_rasters w.
Proof.
  intros E. unfold input_scene in E. apply bnd_Ok in E. destruct E as (s0 & w0 & E0 & E). pose proof (read_scene_keeps p fmt w) as Kp. rewrite E0 in Kp. cbn [fst] in Kp. subst w0.
  apply bnd_Ok in E. destruct E as (s1 & w1 & E1 & E). unfold lift in E1. injection E1 as <- E1. apply bnd_Ok in E. destruct E as ([] & w2 & E2 & E). unfold ret in E. injection E as <- <-.
  split.
  - unfold read_scene in E0. destruct (scene_handler_named p read_modes fmt) as [h|e|] eqn:H; [|discriminate|discriminate]. injection E0 as E0. exists h, (location p), s0. split; auto. split; [now apply resolves_location|]. destruct (handler_named_fields _ _ _ _ H) as [_ Hm]. rewrite Hm in E0. split; [exact E0|].
    destruct pr; auto. now apply Ok_inj in E1.
  - destruct graphs; cbn [when] in E2; [|unfold ret in E2; injection E2 as <-; auto].
    unfold save_building_duals in E2. apply bnd_Ok in E2. destruct E2 as ([] & w3 & E2 & E3).
    assert (keeps (fun a b => w_vectors b = w_vectors a /\ w_rasters b = w_rasters a) (each (fun u : unode S => bnd (lift (dual_text line (surf (u_surf u)))) (fun t => write_text (path_join (path_join (parent_path p) d_duals) (u_name u ++ e_txt)) t)) (sc_buildings s1))) as Kp.
    { apply keeps_each; auto; [intros a b c [] []; split; congruence|]. intros u _. apply keeps_bnd; [intros a b c [] []; split; congruence|apply keeps_lift; auto|]. intros t x. unfold write_text, on_fs. cbn [fst]. auto. }
    specialize (Kp w3). rewrite E3 in Kp. cbn [fst] in Kp. unfold on_fs in E2. destruct (create_directory _ _) as [f r]. injection E2 as <- ->. exact Kp.
Qed.
Theorem C74_complete m a w w' : ortho_given stod m a -> oa_save a = true -> ortho (PArgs m) w = (w', Exit 0 None) ->
  let dir := parent_path (oa_path a) in
  exists s l V Vs R Rs, scene_of X build prune listing (w_fs w) (oa_path a) (oa_format a) (oa_prune a) (oa_terrain a) s /\
    orthoproject K surf s (oa_terrain a) = Ok l /\
    w_vectors w' = w_vectors w ++ V ++ Vs /\ w_rasters w' = w_rasters w ++ Rs ++ R /\
    Forall2 (fun fp e => shape_in K G (path_join dir (lit "vectors")) (oa_labels a) (fp_name fp) fp e) l V /\
    (if oa_sum a then exists sum e, foot_sum K l = Ok sum /\ Vs = [e] /\ shape_in K G dir false (stem (oa_path a)) sum e /\
                      ((wants_images a /\ exists i, Rs = [i] /\ image_in K G dir (oa_pixel a) (stem (oa_path a)) sum i) \/ (~ wants_images a /\ Rs = []))
     else Vs = [] /\ Rs = []) /\
    ((wants_images a /\ Forall2 (fun fp e => image_in K G (path_join dir (lit "rasters")) (oa_pixel a) (fp_name fp) fp e) l R) \/ (~ wants_images a /\ R = [])).
Proof.
  intros H Sv E dir. rewrite (ortho_given_run m a w H) in E.
  destruct (ortho_body X build surf prune line listing K G a w) as [w1 [[]|e|]] eqn:B; cbn [finish] in E; try discriminate. injection E as ->.
  unfold ortho_body in B. apply bnd_Ok in B. destruct B as (s & w0 & E0 & B). apply input_complete in E0. destruct E0 as (Sc & V0 & R0).
  rewrite Sv in B. cbn [when] in B. apply bnd_Ok in B. destruct B as (l & w2 & E1 & B). unfold lift in E1. injection E1 as <- E1.
  apply bnd_Ok in B. destruct B as ([] & w3 & E2 & B). apply prints_complete in E2. destruct E2 as (V & V1 & R1 & F1).
  apply bnd_Ok in B. destruct B as ([] & w4 & E3 & B).
  assert (exists Vs Rs, w_vectors w4 = w_vectors w3 ++ Vs /\ w_rasters w4 = w_rasters w3 ++ Rs /\
    if oa_sum a then exists sum e, foot_sum K l = Ok sum /\ Vs = [e] /\ shape_in K G dir false (stem (oa_path a)) sum e /\
                      ((wants_images a /\ exists i, Rs = [i] /\ image_in K G dir (oa_pixel a) (stem (oa_path a)) sum i) \/ (~ wants_images a /\ Rs = []))
     else Vs = [] /\ Rs = []) as (Vs & Rs & V2 & R2 & F2).
  { destruct (oa_sum a); cbn [when] in E3; [|unfold ret in E3; injection E3 as <-; exists [], []; rewrite !app_nil_r; auto].
    apply scene_prints_complete in E3. destruct E3 as (sum & e & Rs & A1 & A2 & A3 & A4 & A5). exists [e], Rs. split; auto. split; auto. exists sum, e. split; auto. split; auto. split; auto.
    unfold rasterizing, wants_images in *. destruct (deqb _ _); cbn [negb] in A5; [right; split; [discriminate|auto]|left; auto]. }
  assert (exists R, w_vectors w' = w_vectors w4 /\ w_rasters w' = w_rasters w4 ++ R /\
    ((wants_images a /\ Forall2 (fun fp e => image_in K G (path_join dir (lit "rasters")) (oa_pixel a) (fp_name fp) fp e) l R) \/ (~ wants_images a /\ R = []))) as (R & V3 & R3 & F3).
  { unfold rasterizing, wants_images in *. destruct (deqb _ _); cbn [when negb] in B; [unfold ret in B; injection B as <-; exists []; rewrite app_nil_r; split; [auto|split; [auto|right; split; [discriminate|auto]]]|].
    apply bnd_Ok in B. destruct B as (rs & w5 & E4 & B). unfold lift in E4. injection E4 as <- E4. destruct (rasters_complete _ _ _ _ _ _ E4 B) as (R & A1 & A2 & A3). exists R. auto 6. }
  exists s, l, V, Vs, R, Rs. split; auto. split; auto. split; [rewrite V3, V2, V1, V0, <- app_assoc; reflexivity|]. split; [rewrite R3, R2, R1, R0, <- app_assoc; reflexivity|]. auto.
Qed.

(** *** the text files *)
Lemma each_texts {A} (g : A -> act unit) (dir : path) (nm tx : A -> str) l : no_nul dir -> (forall a, In a l -> file_safe (nm a)) ->
  (forall a w w', g a w = (w', Ok tt) -> w_fs w' = fwrite (w_fs w) (path_join dir (nm a ++ e_txt)) (tx a)) ->
  NoDup (map nm l) -> forall w w', w_fs w dir = Some Dir -> (forall a, In a l -> w_fs w (dir ++ [nm a ++ e_txt]) <> Some Dir) ->
  each g l w = (w', Ok tt) -> w_fs w' dir = Some Dir /\ (forall a, In a l -> w_fs w' (dir ++ [nm a ++ e_txt]) = Some (File (tx a))) /\
    forall q, (forall a, In a l -> q <> dir ++ [nm a ++ e_txt]) -> w_fs w' q = w_fs w q.
Proof.
  intros Nd Sf Hg. induction l as [|a l IH]; intros ND w w' D F E; cbn [each] in E.
  - unfold ret in E. injection E as <-. split; auto. split; [intros a []|auto].
  - apply bnd_Ok in E. destruct E as ([] & w1 & E1 & E2). apply Hg in E1. inversion ND as [|x y Nin ND']; subst.
    destruct (Sf a (or_introl eq_refl)) as (S1 & S2 & S3).
    assert (path_join dir (nm a ++ e_txt) = dir ++ [nm a ++ e_txt]) as P. { unfold path_join. rewrite split_slash_plain; [destruct (nm a); reflexivity|]. intros I. apply in_app_or in I. destruct I as [I|I]; auto. revert I. apply no_slash_check. reflexivity. }
    assert (no_nul (dir ++ [nm a ++ e_txt])) as Np. { apply no_nul_app; auto. intros I. apply in_app_or in I. destruct I as [I|I]; auto. revert I. now apply no_nul_check. }
    assert (forall q, w_fs w1 q = if path_eqb q (dir ++ [nm a ++ e_txt]) then Some (File (tx a)) else w_fs w q) as W.
    { intros q. rewrite E1, P. unfold fwrite, can_create. rewrite (os_path_plain _ Np). destruct (dir ++ [nm a ++ e_txt]) as [|c r] eqn:Ed; [destruct dir; discriminate|]. rewrite <- Ed.
      rewrite removelast_last, D. pose proof (F a (or_introl eq_refl)) as Fa. destruct (w_fs w (dir ++ [nm a ++ e_txt])) as [[|]|]; [congruence| |]; reflexivity. }
    destruct (IH ltac:(intros; apply Sf; now right) ND' w1 w') as (A1 & A2 & A3); auto.
    + rewrite W, path_eqb_neq; auto. intros Eq. symmetry in Eq. now apply path_app_neq in Eq.
    + intros b Ib. rewrite W. destruct (path_eqb _ _); [discriminate|]. apply F. now right.
    + split; auto. split.
      * intros b [<-|Ib]; [|now apply A2]. rewrite A3; [rewrite W, path_eqb_refl; auto|]. intros b Ib Eq. apply app_inv_head in Eq. injection Eq as Eq. apply app_inv_tail in Eq. apply Nin. rewrite Eq. now apply in_map.
      * intros q Hq. rewrite A3 by (intros b Ib; apply Hq; now right). rewrite W, path_eqb_neq; auto. apply Hq. now left.
Qed.
Lemma create_Ok f d f' : no_nul d -> create_directory f d = (f', Ok tt) -> f' d = Some Dir /\ forall q, q <> d -> f' q = f q.
Proof.
  intros N. unfold create_directory. rewrite (os_path_plain d N). destruct d as [|c d]; [discriminate|].
  destruct (f (removelast (c :: d))) as [[|]|]; destruct (f (c :: d)) as [[|]|] eqn:E; intros H; try discriminate; injection H as <-; auto.
  unfold fs_set. rewrite path_eqb_refl. split; auto. intros q Hq. now rewrite path_eqb_neq.
Qed.
Lemma not_under (r : path) (d e n : str) q : d <> e -> r ++ [d; n] <> (r ++ [e]) ++ q.
Proof. intros D E. rewrite <- app_assoc in E. apply app_inv_head in E. injection E as E _. now apply D. Qed.
Definition txt_file (dir : path) (d : string) (n : str) : path := dir ++ [lit d; n ++ lit ".txt"].
(** areas of the facets, then lengths of the edges of the outline, of every print *)
Theorem C74_attributes m a w w' l s : ortho_given stod m a -> oa_save a = true -> ortho (PArgs m) w = (w', Exit 0 None) ->
  let dir := parent_path (oa_path a) in no_nul dir ->
  scene_of X build prune listing (w_fs w) (oa_path a) (oa_format a) (oa_prune a) (oa_terrain a) s -> orthoproject K surf s (oa_terrain a) = Ok l ->
  NoDup (map fp_name l) -> (forall fp, In fp l -> file_safe (fp_name fp) /\ w_fs w (txt_file dir "vectors" (fp_name fp)) <> Some Dir) ->
  forall fp, In fp l -> w_fs w' (txt_file dir "vectors" (fp_name fp)) = Some (File (attributes K fp)).
Proof.
  intros H Sv E dir N Sc O ND Sf fp I. rewrite (ortho_given_run m a w H) in E.
  destruct (ortho_body X build surf prune line listing K G a w) as [w1 [[]|e|]] eqn:B; cbn [finish] in E; try discriminate. injection E as ->.
  unfold ortho_body in B. apply bnd_Ok in B. destruct B as (s' & w0 & E0 & B). pose proof (input_confined (oa_path a) (oa_format a) (oa_prune a) (oa_graphs a) (oa_terrain a) N w) as C0. rewrite E0 in C0. cbn [fst] in C0.
  apply input_complete in E0. destruct E0 as (Sc' & _ & _). assert (s' = s) as ->. { destruct Sc as (h & d & s0 & A1 & D1 & A2 & A3), Sc' as (h' & d' & s0' & B1 & D2 & B2 & B3). rewrite A1 in B1. apply Ok_inj in B1. subst h'. apply resolves_location in D1, D2. subst d d'. rewrite A2 in B2. apply Ok_inj in B2. subst s0'. destruct (oa_prune a); congruence. }
  rewrite Sv in B. cbn [when] in B. apply bnd_Ok in B. destruct B as (l' & w2 & E1 & B). unfold lift in E1. injection E1 as <- E1. assert (l' = l) as -> by congruence.
  apply bnd_Ok in B. destruct B as ([] & w3 & E2 & B).
  assert (forall n, txt_file dir "vectors" n = path_join dir (lit "vectors") ++ [n ++ e_txt]) as T. { intros n. unfold txt_file. change (path_join dir (lit "vectors")) with (dir ++ [lit "vectors"]). now rewrite <- app_assoc. }
  assert (forall n, w_fs w0 (txt_file dir "vectors" n) = w_fs w (txt_file dir "vectors" n)) as F0.
  { intros n. apply C0. intros d q Id. destruct (oa_graphs a); [|destruct Id]. destruct Id as [<-|[]]. apply not_under. discriminate. }
  assert (no_nul (path_join dir (lit "vectors"))) as NV by (apply join_no_nul; auto).
  assert (w_fs w3 (txt_file dir "vectors" (fp_name fp)) = Some (File (attributes K fp))) as W3.
  { unfold save_building_prints in E2. apply bnd_Ok in E2. destruct E2 as ([] & w4 & E2 & E3). change d_vectors with (lit "vectors") in *. unfold on_fs in E2.
    destruct (create_directory (w_fs w0) (path_join (parent_path (oa_path a)) (lit "vectors"))) as [f r] eqn:Cd. injection E2 as <- ->. apply create_Ok in Cd; auto. destruct Cd as [C1 C2].
    rewrite T. refine (proj1 (proj2 (each_texts _ (path_join dir (lit "vectors")) fp_name (attributes K) l NV (fun x Ix => proj1 (Sf x Ix)) _ ND _ _ _ _ E3)) fp I); cbn [w_fs]; auto.
    - intros x u u' Eq. apply bnd_Ok in Eq. destruct Eq as ([] & u1 & Q1 & Q2). destruct (vector_write_effect (path_join (path_join dir (lit "vectors")) (fp_name x ++ e_shp)) (oa_labels a) x u) as (Fs & _). fold dir in Q1. rewrite Q1 in Fs. cbn [fst] in Fs.
      unfold write_text, on_fs in Q2. injection Q2 as <-. cbn [w_fs]. now rewrite Fs.
    - intros x Ix. rewrite C2, <- T, F0; [now apply Sf|]. apply path_app_neq. }
  apply bnd_Ok in B. destruct B as ([] & w4 & E3 & B).
  assert (confined [] true (rasterizing a) w3 w4) as C4. { pose proof (keeps_when _ (confined_refl [] true (rasterizing a)) (oa_sum a) _ (fun _ => scene_prints_confined (parent_path (oa_path a)) (stem (oa_path a)) l (rasterizing a) (oa_pixel a)) w3) as Kp. now rewrite E3 in Kp. }
  assert (confined [path_join dir (lit "rasters")] true true w4 w') as C5.
  { assert (keeps (confined [path_join dir (lit "rasters")] true true) (when (rasterizing a) (bnd (lift (rasterize_scene doubles K l (oa_pixel a))) (fun rs => save_building_rasters G (parent_path (oa_path a)) rs)))) as Kp.
    { apply keeps_when; [apply confined_refl|intros _]. apply keeps_bnd; [apply confined_trans|apply keeps_lift; apply confined_refl|]. intros rs x. eapply confined_more; [| | |apply rasters_confined; auto]; auto. }
    specialize (Kp w4). now rewrite B in Kp. }
  rewrite (proj1 C5); [rewrite (proj1 C4); [exact W3|intros ? ? []]|]. intros d q [<-|[]]. apply not_under. discriminate.
Qed.
(** the dual graph of every building *)
Lemma dual_texts p fmt pr terrain w w' s : no_nul (parent_path p) -> input_scene X build surf prune line listing p fmt pr true terrain w = (w', Ok s) ->
  NoDup (map u_name (sc_buildings s)) -> (forall u, In u (sc_buildings s) -> file_safe (u_name u) /\ w_fs w (txt_file (parent_path p) "dual_graphs" (u_name u)) <> Some Dir) ->
  forall u, In u (sc_buildings s) -> exists t, dual_text line (surf (u_surf u)) = Ok t /\ w_fs w' (txt_file (parent_path p) "dual_graphs" (u_name u)) = Some (File t).
Proof.
  intros N E ND Sf u I. unfold input_scene in E. apply bnd_Ok in E. destruct E as (s0 & w0 & E0 & E). pose proof (read_scene_keeps p fmt w) as Kp. rewrite E0 in Kp. cbn [fst] in Kp. subst w0.
  apply bnd_Ok in E. destruct E as (s1 & w1 & E1 & E). unfold lift in E1. injection E1 as <- E1. apply bnd_Ok in E. destruct E as ([] & w2 & E2 & E). unfold ret in E. injection E as <- <-. cbn [when] in E2.
  assert (forall n, txt_file (parent_path p) "dual_graphs" n = path_join (parent_path p) (lit "dual_graphs") ++ [n ++ e_txt]) as T. { intros n. unfold txt_file. change (path_join (parent_path p) (lit "dual_graphs")) with (parent_path p ++ [lit "dual_graphs"]). now rewrite <- app_assoc. }
  assert (no_nul (path_join (parent_path p) (lit "dual_graphs"))) as NV by (apply join_no_nul; auto).
  unfold save_building_duals in E2. apply bnd_Ok in E2. destruct E2 as ([] & w3 & E2 & E3). change d_duals with (lit "dual_graphs") in *. unfold on_fs in E2.
  destruct (create_directory (w_fs w) (path_join (parent_path p) (lit "dual_graphs"))) as [f r] eqn:Cd. injection E2 as <- ->. apply create_Ok in Cd; auto. destruct Cd as [C1 C2].
  assert (forall l x y, each (fun u : unode S => bnd (lift (dual_text line (surf (u_surf u)))) (fun t => write_text (path_join (path_join (parent_path p) (lit "dual_graphs")) (u_name u ++ e_txt)) t)) l x = (y, Ok tt) -> In u l -> exists t, dual_text line (surf (u_surf u)) = Ok t) as D.
  { induction l as [|v l IH]; [intros x y _ []|]. intros x y Eq [->|Iu]; cbn [each] in Eq; apply bnd_Ok in Eq; destruct Eq as ([] & x1 & Q1 & Q2).
    - apply bnd_Ok in Q1. destruct Q1 as (t & x2 & Q1 & _). unfold lift in Q1. injection Q1 as _ Q1. eauto.
    - eapply IH; eauto. }
  destruct (D _ _ _ E3 I) as [t Et]. exists t. split; auto. rewrite T.
  pose proof (fun Hg Hd => proj1 (proj2 (each_texts _ (path_join (parent_path p) (lit "dual_graphs")) u_name (fun u => match dual_text line (surf (u_surf u)) with Ok t => t | _ => [] end) _ NV (fun x Ix => proj1 (Sf x Ix)) Hg ND (mkWorld f (w_vectors w) (w_rasters w)) w2 C1 Hd E3)) u I) as W. cbn beta in W. rewrite Et in W. apply W.
  - intros x y z Eq. apply bnd_Ok in Eq. destruct Eq as (t' & y1 & Q1 & Q2). unfold lift in Q1. injection Q1 as <- Q1. unfold write_text, on_fs in Q2. injection Q2 as <-. cbn [w_fs]. now rewrite Q1.
  - intros x Ix. cbn [w_fs]. rewrite C2, <- T; [now apply Sf|]. apply path_app_neq.
Qed.

(** ** dual graphs: same text in both programs *)
Theorem C74_duals m a w w' s : ortho_given stod m a -> oa_graphs a = true -> ortho (PArgs m) w = (w', Exit 0 None) ->
  let dir := parent_path (oa_path a) in no_nul dir ->
  scene_of X build prune listing (w_fs w) (oa_path a) (oa_format a) (oa_prune a) (oa_terrain a) s ->
  NoDup (map u_name (sc_buildings s)) -> (forall u, In u (sc_buildings s) -> file_safe (u_name u) /\ w_fs w (txt_file dir "dual_graphs" (u_name u)) <> Some Dir) ->
  forall u, In u (sc_buildings s) -> exists t, dual_text line (surf (u_surf u)) = Ok t /\ w_fs w' (txt_file dir "dual_graphs" (u_name u)) = Some (File t).
Proof.
  intros H Gr E dir N Sc ND Sf u I. rewrite (ortho_given_run m a w H) in E.
  destruct (ortho_body X build surf prune line listing K G a w) as [w1 [[]|e|]] eqn:B; cbn [finish] in E; try discriminate. injection E as ->.
  unfold ortho_body in B. apply bnd_Ok in B. destruct B as (s' & w0 & E0 & B). pose proof E0 as E0'. 
  apply input_complete in E0'. destruct E0' as (Sc' & _ & _). assert (s' = s) as ->. { destruct Sc as (h & d & s0 & A1 & D1 & A2 & A3), Sc' as (h' & d' & s0' & B1 & D2 & B2 & B3). rewrite A1 in B1. apply Ok_inj in B1. subst h'. apply resolves_location in D1, D2. subst d d'. rewrite A2 in B2. apply Ok_inj in B2. subst s0'. destruct (oa_prune a); congruence. }
  rewrite Gr in E0. destruct (dual_texts _ _ _ _ _ _ _ N E0 ND Sf u I) as (t & T1 & T2). exists t. split; auto. rewrite <- T2.
  assert (keeps (confined [path_join dir (lit "vectors"); path_join dir (lit "rasters")] true true) (when (oa_save a)
    (bnd (lift (orthoproject K surf s (oa_terrain a))) (fun l => bnd (save_building_prints K G dir l (oa_labels a)) (fun _ =>
     bnd (when (oa_sum a) (save_scene_prints K G dir (stem (oa_path a)) l (rasterizing a) (oa_pixel a))) (fun _ =>
     when (rasterizing a) (bnd (lift (rasterize_scene doubles K l (oa_pixel a))) (fun rs => save_building_rasters G dir rs)))))))) as Kp.
  { apply keeps_when; [apply confined_refl|intros Sv]. apply keeps_bnd; [apply confined_trans|apply keeps_lift; apply confined_refl|intros l].
    apply keeps_bnd; [apply confined_trans| |intros _].
    { intros x. eapply confined_more; [| | |apply prints_confined; auto]; auto. intros d [<-|[]]. now left. }
    apply keeps_bnd; [apply confined_trans| |intros _].
    { apply keeps_when; [apply confined_refl|intros _]. intros x. eapply confined_more; [| | |apply scene_prints_confined]; auto; try discriminate. intros d []. }
    apply keeps_when; [apply confined_refl|intros Rs]. apply keeps_bnd; [apply confined_trans|apply keeps_lift; apply confined_refl|intros rs].
    intros x. eapply confined_more; [| | |apply rasters_confined; auto]; auto. intros d [<-|[]]. right. now left. }
  specialize (Kp w0). fold dir in B. rewrite B in Kp. cbn [fst] in Kp. apply (proj1 Kp). intros d q [<-|[<-|[]]]; apply not_under; discriminate.
Qed.

(** ** C75 *)
Theorem C75_formats m w : flag m "--formats" true -> format (PArgs m) w = (w, Exit 0 None, lit "Possible formats are: 3DS XML, 3DS, OFF, OBJ" ++ [newline]).
Proof. intros H. apply C75_arguments in H. cbn [format_main]. unfold bnd, lift. rewrite H. reflexivity. Qed.
(** nothing is read or written without complete arguments, the output included *)
Theorem C75_incomplete m w : ~ flag m "--formats" true -> (forall a, ~ format_given m a) -> exists e, format (PArgs m) w = (w, Exit 0 (Some e), []).
Proof.
  intros F N. destruct (format_args m) as [[a|]|e|] eqn:E.
  - exfalso. apply (N a). now apply C75_arguments.
  - exfalso. apply F. now apply C75_arguments.
  - exists e. now apply C73_format_failure_hidden.
  - exfalso. now apply (format_args_cases m).
Qed.
Lemma gives_fun m k v v' : gives m k v -> gives m k v' -> v = v'.
Proof. rewrite <- !lookup_gives. congruence. Qed.
Theorem C75_output_needed m w : flag m "--formats" false -> gives m "<path>" VNone \/ gives m "--output-format" VNone -> exists e, format (PArgs m) w = (w, Exit 0 (Some e), []).
Proof.
  intros F O. apply C75_incomplete.
  - intros T. pose proof (gives_fun _ _ _ _ F T). discriminate.
  - intros a [_ _ _ _ _ _ (s & W & _) W']. destruct O as [O|O]; [pose proof (gives_fun _ _ _ _ W O)|pose proof (gives_fun _ _ _ _ W' O)]; discriminate.
Qed.
Lemma format_given_run m a w : format_given m a -> format (PArgs m) w =
  match format_body X build surf to_mesh prune line listing (Some a) w with (w, Ok t) => (w, Exit 0 None, t) | (w, Throw e) => (w, Exit 0 (Some e), []) | (w, UB) => (w, Undefined, []) end.
Proof. intros H. apply C75_arguments in H. cbn [format_main]. unfold bnd at 1, lift. now rewrite H. Qed.
(** a finished conversion has read the scene, pruned it if asked, saved the dual graphs if asked,
    and written the scene in the output format *)
Theorem C75_complete m a w w' t : format_given m a -> format (PArgs m) w = (w', Exit 0 None, t) ->
  no_nul (parent_path (fa_path a)) ->
  t = [] /\ w_vectors w' = w_vectors w /\ w_rasters w' = w_rasters w /\
  exists s f h, scene_of X build prune listing (w_fs w) (fa_path a) (fa_format a) (fa_prune a) (fa_terrain a) s /\
    only_in (if fa_graphs a then [path_join (parent_path (fa_path a)) (lit "dual_graphs")] else []) (w_fs w) f /\
    scene_handler_named (fa_out a) [(lit "write", true)] (fa_outfmt a) = Ok h /\ scene_write to_mesh f h s = (w_fs w', Ok tt).
Proof.
  intros H E N. rewrite (format_given_run m a w H) in E.
  destruct (format_body X build surf to_mesh prune line listing (Some a) w) as [w1 [t1|e|]] eqn:B; try discriminate. injection E as -> ->.
  cbn [format_body] in B. apply bnd_Ok in B. destruct B as (s & w0 & E0 & B). pose proof (input_confined (fa_path a) (fa_format a) (fa_prune a) (fa_graphs a) (fa_terrain a) N w) as C. rewrite E0 in C. cbn [fst] in C.
  apply input_complete in E0. destruct E0 as (Sc & V0 & R0). apply bnd_Ok in B. destruct B as ([] & w2 & E1 & B). unfold ret in B. injection B as <- <-.
  unfold write_scene in E1. apply bnd_Ok in E1. destruct E1 as (h & w3 & E1 & E2). unfold lift in E1. injection E1 as <- E1. unfold on_fs in E2. destruct (scene_write to_mesh (w_fs w0) h s) as [f r] eqn:W. injection E2 as <- ->.
  cbn [w_vectors w_rasters w_fs]. split; auto. split; auto. split; auto. exists s, (w_fs w0), h. split; auto. split; [apply C|auto].
Qed.
(** a 3DS output is never written: whatever the scene, the run ends with an exception (or before)
    and touches nothing but the dual graphs *)
Theorem C75_3ds m a w : format_given m a -> fa_outfmt a = lit "3DS" \/ fa_outfmt a = lit "3DS XML" -> no_nul (parent_path (fa_path a)) ->
  (snd (fst (format (PArgs m) w)) = Undefined \/ exists e, snd (fst (format (PArgs m) w)) = Exit 0 (Some e)) /\
  only_in (if fa_graphs a then [path_join (parent_path (fa_path a)) (lit "dual_graphs")] else []) (w_fs w) (w_fs (fst (fst (format (PArgs m) w)))).
Proof.
  intros H O N. rewrite (format_given_run m a w H). cbn [format_body].
  pose proof (input_confined (fa_path a) (fa_format a) (fa_prune a) (fa_graphs a) (fa_terrain a) N w) as C.
  rewrite !(bnd_eq (input_scene X build surf prune line listing _ _ _ _ _)). destruct (input_scene X build surf prune line listing (fa_path a) (fa_format a) (fa_prune a) (fa_graphs a) (fa_terrain a) w) as [w1 [s|e|]]; cbn [fst snd] in *; [|split; [eauto|apply C]|split; [eauto|apply C]].
  assert (exists e, write_scene to_mesh (fa_out a) (fa_outfmt a) s w1 = (w1, Throw e)) as [e E].
  { unfold write_scene, scene_handler_named, scene_handler_make. destruct O as [-> | ->].
    - change (scene_format (lit "3DS")) with (Ok t3ds). cbn [bind]. unfold bnd, lift. destruct (check_extension (fa_out a) t3ds) as [[]|e|] eqn:E; cbn [bind]; eauto.
      + unfold on_fs. cbn [scene_write sh_fmt]. exists LogicError. now destruct w1.
      + unfold check_extension in E. change (format_extension t3ds) with (Ok [".";"3";"d";"s"]%char) in E. cbn [bind] in E. destruct (iequals _ _); discriminate.
    - change (scene_format (lit "3DS XML")) with (Ok t3ds_xml). cbn [bind]. unfold bnd, lift. destruct (check_extension (fa_out a) t3ds_xml) as [[]|e|] eqn:E; cbn [bind]; eauto.
      + unfold on_fs. cbn [scene_write sh_fmt]. exists LogicError. now destruct w1.
      + unfold check_extension in E. change (format_extension t3ds_xml) with (Ok [".";"3";"d";"s"]%char) in E. cbn [bind] in E. destruct (iequals _ _); discriminate. }
  rewrite !bnd_eq, E. cbn [fst snd]. split; [eauto|apply C].
Qed.
End CLI.

(** ** Examples *)
Definition plate : surface := build_surface [pt 0 0 1; pt 4 0 1; pt 4 4 1; pt 0 4 1] [[0; 1; 2; 3]].
Definition no_ext : externals := mkExt (fun _ => None) (fun _ => []) (fun _ => None) (fun _ => None) (fun _ => None).
Definition gdal_fine : gdal := mkGdal true true (fun _ => true) (fun _ => true) (fun _ => true) (fun _ => true) (fun _ => 4171%Z).
Definition stod_one (s : str) : outcome dbl := if str_eqb s (lit "1") then Ok (dofZ 1) else Throw LogicError.
Definition nl : str := [newline].
Definition city_text : str := lit "v 0 0 0" ++ nl ++ lit "v 4 0 0" ++ nl ++ lit "v 0 4 0" ++ nl ++ lit "o hut" ++ nl ++ lit "f 1 2 3" ++ nl.
Definition disk : fs := fun p =>
  if path_eqb p [] then Some Dir else if path_eqb p [lit "d"] then Some Dir else if path_eqb p [lit "d"; lit "city.obj"] then Some (File city_text) else None.
Definition start : world := mkWorld disk [] [].
Definition ortho_ex := ortho_main no_ext (fun _ => Ok plate) (fun s => s) (fun s => Ok s) (fun _ _ => Ok (lit "facet" ++ nl)) (fun _ _ => []) rects gdal_fine stod_one.
Definition format_ex := format_main no_ext (fun _ => Ok plate) (fun s => s) (fun u => snd (mesh_set_name mesh_empty (u_name u))) (fun s => Ok s) (fun _ _ => Ok (lit "facet" ++ nl)) (fun _ _ => []).
Definition ortho_map : list (str * value) :=
  [(lit "<scene>", VStr (lit "d/city.obj")); (lit "--input-format", VStr (lit "OBJ")); (lit "--prune", VBool true); (lit "--cache", VBool false); (lit "--graphs", VBool true);
   (lit "--terrain", VBool false); (lit "save", VBool true); (lit "--scene", VBool true); (lit "--labels", VBool false); (lit "rasterize", VBool true); (lit "--pixel-size", VStr (lit "1"))].
Definition ortho_a : ortho_arguments := mkOrtho [lit "d"; lit "city.obj"] (lit "OBJ") true false true false true true false (dofZ 1).
Example C74_example : ortho_given stod_one ortho_map ortho_a /\ oa_save ortho_a = true /\ wants_images ortho_a /\ no_nul (parent_path (oa_path ortho_a)) /\
  snd (ortho_ex (PArgs ortho_map) start) = Exit 0 None /\
  map fst (w_vectors (fst (ortho_ex (PArgs ortho_map) start))) = [[lit "d"; lit "vectors"; lit "hut.shp"]; [lit "d"; lit "city.shp"]] /\
  map fst (w_rasters (fst (ortho_ex (PArgs ortho_map) start))) = [[lit "d"; lit "city.tiff"]; [lit "d"; lit "rasters"; lit "hut.tiff"]] /\
  w_fs (fst (ortho_ex (PArgs ortho_map) start)) [lit "d"; lit "dual_graphs"; lit "hut.txt"] = Some (File (lit "facet" ++ nl ++ lit "1" ++ nl ++ nl)) /\
  w_fs (fst (ortho_ex (PArgs ortho_map) start)) [lit "d"; lit "vectors"; lit "hut.txt"] = Some (File (lit "16 " ++ nl ++ lit "4 4 4 4 " ++ nl)).
Proof.
  split; [apply C74_arguments; vm_compute; reflexivity|]. split; [reflexivity|]. split; [reflexivity|]. split; [intros c [<-|[]]; now apply no_nul_check|].
  repeat split; vm_compute; reflexivity.
Qed.
Definition remove_key (k : str) (m : list (str * value)) := filter (fun e => negb (str_eqb (fst e) k)) m.
Example C73_example : lacks (remove_key (lit "--cache") ortho_map) "--cache" /\ snd (ortho_ex (PArgs (remove_key (lit "--cache") ortho_map)) start) = Exit 0 (Some OutOfRange) /\
  snd (ortho_ex (PArgs ortho_map) (mkWorld (fun p => if path_eqb p [lit "d"; lit "city.obj"] then None else disk p) [] [])) = Exit 0 (Some FilesystemError).
Proof. split; [apply lookup_lacks; reflexivity|]. split; vm_compute; reflexivity. Qed.
Definition format_map (out : str) (fmt : str) : list (str * value) :=
  [(lit "--formats", VBool false); (lit "<scene>", VStr (lit "d/city.obj")); (lit "--input-format", VStr (lit "OBJ")); (lit "--prune", VBool true); (lit "--graphs", VBool true);
   (lit "--terrain", VBool false); (lit "output", VBool true); (lit "<path>", VStr out); (lit "--output-format", VStr fmt)].
Example C75_example : format_given (format_map (lit "d/out") (lit "OFF")) (mkFormat [lit "d"; lit "city.obj"] (lit "OBJ") true true false [lit "d"; lit "out"] (lit "OFF")) /\
  snd (fst (format_ex (PArgs (format_map (lit "d/out") (lit "OFF"))) start)) = Exit 0 None /\
  (exists t, w_fs (fst (fst (format_ex (PArgs (format_map (lit "d/out") (lit "OFF"))) start))) [lit "d"; lit "out"; lit "hut.off"] = Some (File t)) /\
  snd (fst (format_ex (PArgs (format_map (lit "d/out.3ds") (lit "3DS"))) start)) = Exit 0 (Some LogicError) /\
  snd (fst (format_ex (PArgs (format_map (lit "d/out") (lit "3DS"))) start)) = Exit 0 (Some RuntimeError).
Proof.
  split; [apply C75_arguments; vm_compute; reflexivity|]. split; [vm_compute; reflexivity|]. split; [eexists; vm_compute; reflexivity|]. split; vm_compute; reflexivity.
Qed.
