(** * More theorems on orthoproject: the text of the attributes, and what happens when GDAL fails
    (C74). *)
From Coq Require Import Strings.String.
From Verif Require Import Base Dbl Geom Decimal Round_proofs Scan_proofs Shadow Streams Lines_proofs Spec_shadow Spec_text Off_proofs Handlers Surface Projection Raster Ogr Spec_io Handlers_proofs Scenefile_proofs Cli Spec_cli Props_surface Rect Textout Props_textout Props_cli.
From Verif Require Props_io.
Import List.
Open Scope nat_scope.

Lemma numbers_line l : Cli.numbers l = print_line (concat (map (fun x => print_dbl x ++ [ch_sp]) l)).
Proof. reflexivity. Qed.
Lemma numbers_no_nl l : ~ In ch_nl (concat (map (fun x => print_dbl x ++ [ch_sp]) l)).
Proof.
  intros H. apply in_concat in H. destruct H as (t & I & J). apply in_map_iff in I. destruct I as (x & <- & _). apply in_app_or in J. destruct J as [J|[J|[]]]; [|discriminate]. now apply print_dbl_no_nl in J.
Qed.
Lemma numbers_toks l : Forall real_double l -> toks scan_double (concat (map (fun x => print_dbl x ++ [ch_sp]) l)) (map via_text l).
Proof.
  induction l as [|x l IH]; intros H; cbn [map concat]; [apply toks_end|]. inversion H as [|? ? [V F] Hl]; subst. rewrite <- app_assoc. apply tok_app_cons; [now apply tok_double|reflexivity|]. apply toks_sp. auto.
Qed.
Lemma numbers_scan l : Forall real_double l -> Forall2 reads_back l (scan_doubles (concat (map (fun x => print_dbl x ++ [ch_sp]) l))).
Proof.
  intros H. rewrite (scan_doubles_toks _ _ (numbers_toks l H)). induction H as [|x l R _ IH]; cbn [map]; constructor; auto. now apply reads_back_via.
Qed.
(** ** C74: the text file of a print has two lines: the areas of its faces in their order, and the
    lengths of the edges of its outline; both with the six digits of the streams *)
Theorem C74_attributes_text : forall K fp, let areas := map face_area_d (br_facets (fp_proj fp)) in
  let lengths := brick_edge_lengths K (fp_proj fp) in
  exists first second, readlines (attributes K fp) = [first; second] /\
    (Forall real_double areas -> Forall2 reads_back areas (scan_doubles first)) /\
    (Forall real_double lengths -> Forall2 reads_back lengths (scan_doubles second)).
Proof.
  intros K fp areas lengths. exists (concat (map (fun x => print_dbl x ++ [ch_sp]) areas)), (concat (map (fun x => print_dbl x ++ [ch_sp]) lengths)).
  split; [|split; apply numbers_scan]. unfold attributes. rewrite !numbers_line. change (brick_areas (fp_proj fp)) with areas.
  fold lengths. pose proof (readlines_text [concat (map (fun x => print_dbl x ++ [ch_sp]) areas); concat (map (fun x => print_dbl x ++ [ch_sp]) lengths)]) as R.
  cbn [map concat] in R. rewrite app_nil_r in R. apply R. repeat (apply Forall_cons; [apply numbers_no_nl|]). apply Forall_nil.
Qed.

Section CLI.
Context {S : Type} (X : externals) (build : mesh -> outcome S) (surf : S -> surface)
  (prune : S -> outcome S) (line : surface -> nat -> outcome str) (listing : fs -> path -> list str) (K : kernel) (G : gdal) (stod : str -> outcome dbl).
Notation ortho := (ortho_main X build surf prune line listing K G stod).

(** a directory that can be used: there already, or to be created in an existing one *)
Definition usable (f : fs) (dir : path) (n : str) : Prop := f (dir ++ [n]) = Some Dir \/ (f dir = Some Dir /\ f (dir ++ [n]) = None).
Lemma create_usable f dir (d : path) : no_nul d -> removelast d = dir -> d <> [] -> f d = Some Dir \/ (f dir = Some Dir /\ f d = None) -> exists f', create_directory f d = (f', Ok tt) /\ f' d = Some Dir /\ only_in [d] f f'.
Proof.
  intros NN R D U. pose proof (create_only _ f NN) as C. unfold create_directory in *. rewrite (os_path_plain _ NN) in *. destruct d as [|c q]; [congruence|]. rewrite R in *. destruct U as [U|[U1 U2]].
  - exists f. rewrite U. split; [now destruct (f dir) as [[|]|]|]. split; [auto|apply only_in_refl].
  - rewrite U1, U2 in *. eexists. split; [reflexivity|]. split; [unfold fs_set; now rewrite path_eqb_refl|]. exact C.
Qed.
Lemma usable_create f dir n : no_nul dir -> ~ In nul n -> path_join dir n = dir ++ [n] -> usable f dir n -> exists f', create_directory f (path_join dir n) = (f', Ok tt) /\ f' (dir ++ [n]) = Some Dir /\ only_in [dir ++ [n]] f f'.
Proof.
  intros N Nn Pj U. rewrite Pj. apply (create_usable f dir (dir ++ [n])); auto.
  - apply no_nul_app; auto.
  - apply removelast_last.
  - intros E. destruct dir; discriminate E.
Qed.
Lemma input_quiet p fmt pr terrain w s : scene_of X build prune listing (w_fs w) p fmt pr terrain s -> input_scene X build surf prune line listing p fmt pr false terrain w = (w, Ok s).
Proof.
  intros (h & d & s0 & A & D & B & C). apply resolves_location in D. subst d. destruct (handler_named_fields _ _ _ _ A) as [_ Hm]. unfold input_scene, read_scene. unfold bnd at 1. change read_modes with [(lit "read", true)]. rewrite A, Hm, B. unfold bnd at 1, lift.
  assert ((if pr then scene_prune (unode_prune prune) s0 terrain else Ok s0) = Ok s) as -> by (destruct pr; [auto|now subst]). reflexivity.
Qed.
(** the state in which the shapes are to be written *)
Definition about_to_save (m : list (str * value)) (a : ortho_arguments) (w : world) (l : list footprint) : Prop :=
  ortho_given stod m a /\ oa_save a = true /\ oa_graphs a = false /\
  (exists s, scene_of X build prune listing (w_fs w) (oa_path a) (oa_format a) (oa_prune a) (oa_terrain a) s /\ orthoproject K surf s (oa_terrain a) = Ok l) /\
  no_nul (parent_path (oa_path a)) /\ usable (w_fs w) (parent_path (oa_path a)) (lit "vectors").
Lemma saving_run m a w l : about_to_save m a w l -> let dir := parent_path (oa_path a) in exists f,
  only_in [dir ++ [lit "vectors"]] (w_fs w) f /\ f (dir ++ [lit "vectors"]) = Some Dir /\
  ortho (PArgs m) w = finish (bnd (each (fun fp => bnd (vector_write K G (path_join (path_join dir (lit "vectors")) (fp_name fp ++ e_shp)) (oa_labels a) fp) (fun _ =>
                  write_text (path_join (path_join dir (lit "vectors")) (fp_name fp ++ e_txt)) (attributes K fp))) l) (fun _ =>
     bnd (when (oa_sum a) (save_scene_prints K G dir (stem (oa_path a)) l (rasterizing a) (oa_pixel a))) (fun _ =>
     when (rasterizing a) (bnd (lift (rasterize_scene doubles K l (oa_pixel a))) (fun rs => save_building_rasters G dir rs)))) (mkWorld f (w_vectors w) (w_rasters w))).
Proof.
  intros (H & Sv & Gr & (s & Sc & O) & N & U) dir. destruct (usable_create (w_fs w) dir (lit "vectors") N) as (f & C & D & F); auto; [now apply no_nul_check|].
  exists f. split; auto. split; auto. rewrite (ortho_given_run X build surf prune line listing K G stod m a w H). f_equal. unfold ortho_body. rewrite Gr, Sv. unfold bnd at 1. rewrite (input_quiet _ _ _ _ _ _ Sc). cbn [when].
  unfold bnd at 1, lift at 1. rewrite O. fold dir. unfold bnd at 1. unfold save_building_prints. change d_vectors with (lit "vectors"). unfold bnd at 1. unfold on_fs at 1. rewrite C. reflexivity.
Qed.
(** ** GDAL lacks the driver for shapes: a runtime_error, and no shape, no text, no image *)
Theorem C74_no_driver : forall m a w fp l, about_to_save m a w (fp :: l) -> g_shp G = false ->
  exists w', ortho (PArgs m) w = (w', Exit 0 (Some RuntimeError)) /\ w_vectors w' = w_vectors w /\ w_rasters w' = w_rasters w /\
    only_in [parent_path (oa_path a) ++ [lit "vectors"]] (w_fs w) (w_fs w').
Proof.
  intros m a w fp l A D. destruct (saving_run m a w _ A) as (f & F & _ & ->). exists (mkWorld f (w_vectors w) (w_rasters w)). split; [|split; [|split]]; auto.
  cbn [each]. unfold bnd, vector_write. change (can_write write_modes) with true. cbv iota. now rewrite D.
Qed.
(** ** the first shape cannot be created: a filesystem_error *)
Theorem C74_not_created : forall m a w fp l, about_to_save m a w (fp :: l) -> g_shp G = true ->
  g_create G (path_join (parent_path (oa_path a) ++ [lit "vectors"]) (fp_name fp ++ lit ".shp")) = false ->
  exists w', ortho (PArgs m) w = (w', Exit 0 (Some FilesystemError)) /\ w_vectors w' = w_vectors w /\ w_rasters w' = w_rasters w /\
    only_in [parent_path (oa_path a) ++ [lit "vectors"]] (w_fs w) (w_fs w').
Proof.
  intros m a w fp l A D C. destruct (saving_run m a w _ A) as (f & F & _ & ->). exists (mkWorld f (w_vectors w) (w_rasters w)). split; [|split; [|split]]; auto.
  cbn [each]. unfold bnd, vector_write. change (can_write write_modes) with true. cbv iota. rewrite D.
  change (path_join (path_join (parent_path (oa_path a)) (lit "vectors")) (fp_name fp ++ e_shp)) with (path_join (parent_path (oa_path a) ++ [lit "vectors"]) (fp_name fp ++ lit ".shp")). now rewrite C.
Qed.
Lemma shapes_run dir labels l : (forall fp, In fp l -> g_create G (path_join dir (fp_name fp ++ lit ".shp")) = true /\ exists ly, foot_out K (g_geog G) (g_layer G (path_join dir (fp_name fp ++ lit ".shp"))) (g_feature G) labels fp = Ok ly) ->
  g_shp G = true -> no_nul dir -> forall w, exists w', each (fun fp => bnd (vector_write K G (path_join dir (fp_name fp ++ e_shp)) labels fp) (fun _ => write_text (path_join dir (fp_name fp ++ e_txt)) (attributes K fp))) l w = (w', Ok tt) /\
    w_rasters w' = w_rasters w /\ only_in [dir] (w_fs w) (w_fs w').
Proof.
  intros H D N. induction l as [|fp l IH]; intros w; cbn [each]; [exists w; repeat split; apply only_in_refl|].
  destruct (H fp (or_introl eq_refl)) as (C & ly & O).
  set (w1 := mkWorld (fwrite (w_fs w) (path_join dir (fp_name fp ++ e_txt)) (attributes K fp)) (w_vectors w ++ [(path_join dir (fp_name fp ++ lit ".shp"), ly)]) (w_rasters w)).
  destruct (IH (fun x I => H x (or_intror I)) w1) as (w' & E & R & F). exists w'. split; [|split; [exact R|]].
  - unfold bnd at 1. unfold bnd at 1. unfold vector_write at 1. change (can_write write_modes) with true. cbv iota. rewrite D. change e_shp with (lit ".shp"). rewrite C, O. exact E.
  - apply (only_in_trans _ _ (w_fs w1)); auto. unfold w1, path_join. cbn [w_fs]. now apply fwrite_only.
Qed.
(** ** the first image: without the driver a runtime_error; with the driver but without a file
    GDAL gives a null pointer, which is used *)
Theorem C74_images_fail : forall m a w fp l, about_to_save m a w (fp :: l) -> oa_sum a = false -> wants_images a -> g_shp G = true ->
  let dir := parent_path (oa_path a) in
  (forall p, In p (fp :: l) -> let out := path_join (dir ++ [lit "vectors"]) (fp_name p ++ lit ".shp") in g_create G out = true /\ exists ly, foot_out K (g_geog G) (g_layer G out) (g_feature G) (oa_labels a) p = Ok ly) ->
  (exists rs, rasterize_scene doubles K (fp :: l) (oa_pixel a) = Ok rs) -> usable (w_fs w) dir (lit "rasters") ->
  let out := path_join (dir ++ [lit "rasters"]) (fp_name fp ++ lit ".tiff") in
  snd (ortho (PArgs m) w) = (if g_tiff G then if g_create G out then snd (ortho (PArgs m) w) else Undefined else Exit 0 (Some RuntimeError)) /\
  (g_tiff G = false \/ g_create G out = false -> w_rasters (fst (ortho (PArgs m) w)) = w_rasters w).
Proof.
  intros m a w fp l A Sm W D dir Sh (rs & Rs) U out. destruct (saving_run m a w _ A) as (f & F & Fd & Run). fold dir in F, Fd, Run. destruct A as (_ & _ & _ & _ & N & _). fold dir in N.
  assert (no_nul (path_join dir (lit "vectors"))) as NV by (apply join_no_nul; auto).
  destruct (shapes_run (path_join dir (lit "vectors")) (oa_labels a) (fp :: l)) with (w := mkWorld f (w_vectors w) (w_rasters w)) as (w1 & E & R1 & F1); auto.
  cbn [w_fs w_rasters] in *.
  assert (forall q, q = dir \/ q = dir ++ [lit "rasters"] -> w_fs w1 q = w_fs w q) as Same.
  { intros q Hq. assert (forall d0 r, In d0 [dir ++ [lit "vectors"]] -> q <> d0 ++ r) as Q.
    { intros d0 r [<-|[]] Eq. destruct Hq as [-> | ->]; rewrite <- app_assoc in Eq.
      - apply (f_equal (@List.length _)) in Eq. rewrite !app_length in Eq. cbn in Eq. lia.
      - apply app_inv_head in Eq. discriminate. }
    rewrite F1, F; auto. }
  destruct (usable_create (w_fs w1) dir (lit "rasters") N) as (f2 & C & _ & _); [now apply no_nul_check|reflexivity| |].
  { unfold usable. now rewrite !Same by auto. }
  assert (Nm : exists r rs', rs = r :: rs' /\ r_name doubles r = fp_name fp).
  { unfold rasterize_scene in Rs. apply omapM_Ok in Rs. inversion Rs as [|? r ? rs' Hr Hrs]; subst. exists r, rs'. split; auto. apply (raster_name K _ _ _ Hr). }
  destruct Nm as (r & rs' & -> & Nm).
  assert (ortho (PArgs m) w = finish (bnd (raster_write G out r) (fun _ => each (fun r0 => raster_write G (path_join (path_join dir (lit "rasters")) (r_name doubles r0 ++ e_tiff)) r0) rs') (mkWorld f2 (w_vectors w1) (w_rasters w1)))) as Run2.
  { rewrite Run. f_equal. unfold bnd at 1. rewrite E. rewrite Sm. unfold bnd at 1. cbn [when]. unfold ret at 1. unfold wants_images in W. unfold rasterizing. rewrite W. cbn [negb when]. unfold bnd at 1. unfold lift at 1. rewrite Rs.
    unfold save_building_rasters. change d_rasters with (lit "rasters"). unfold bnd at 1. unfold on_fs at 1. rewrite C. cbn [each]. rewrite Nm. reflexivity. }
  rewrite Run2. unfold bnd, raster_write at 1 3 5. change (can_write write_modes) with true. cbv iota.
  destruct (g_tiff G); [|split; [reflexivity|intros _; exact R1]]. destruct (g_create G out); [split; [reflexivity|intros [|]; discriminate]|]. split; [reflexivity|intros _; exact R1].
Qed.
End CLI.

(** ** Examples *)
Definition quiet_map : list (str * value) :=
  [(lit "<scene>", VStr (lit "d/city.obj")); (lit "--input-format", VStr (lit "OBJ")); (lit "--prune", VBool true); (lit "--cache", VBool false); (lit "--graphs", VBool false);
   (lit "--terrain", VBool false); (lit "save", VBool true); (lit "--scene", VBool false); (lit "--labels", VBool false); (lit "rasterize", VBool true); (lit "--pixel-size", VStr (lit "1"))].
Definition quiet_a : ortho_arguments := mkOrtho [lit "d"; lit "city.obj"] (lit "OBJ") true false false false true false false (dofZ 1).
Definition broken (shp tiff : bool) (create : path -> bool) : gdal := mkGdal shp tiff create (fun _ => true) (fun _ => true) (fun _ => true) (fun _ => 4171%Z).
Definition no_images (p : path) : bool := match p with [_; d; _] => negb (str_eqb d (lit "rasters")) | _ => true end.
Notation run_with G := (ortho_main no_ext (fun _ => Ok plate) (fun s => s) (fun s => Ok s) (fun _ _ => Ok (lit "facet" ++ nl)) (fun _ _ => []) rects G stod_one (PArgs quiet_map) start).
Example C74_about_to_save : exists fp l, about_to_save no_ext (fun _ => Ok plate) (fun s => s) (fun s => Ok s) (fun _ _ => []) rects stod_one quiet_map quiet_a start (fp :: l) /\ oa_sum quiet_a = false /\ wants_images quiet_a /\
  (exists rs, rasterize_scene doubles rects (fp :: l) (oa_pixel quiet_a) = Ok rs) /\ usable (w_fs start) (parent_path (oa_path quiet_a)) (lit "rasters").
Proof.
  assert (ortho_given stod_one quiet_map quiet_a) as H by (apply C74_arguments; vm_compute; reflexivity).
  assert (snd (run_with gdal_fine) = Exit 0 None /\ List.length (w_vectors (fst (run_with gdal_fine))) = 1) as [E Ln] by (split; vm_compute; reflexivity).
  remember (run_with gdal_fine) as o eqn:Eo. destruct o as [w' r]. cbn [fst snd] in E, Ln. subst r. symmetry in Eo.
  pose proof (fun P => C74_complete no_ext (fun _ => Ok plate) (fun s => s) (fun s => Ok s) (fun _ _ => Ok (lit "facet" ++ nl)) (fun _ _ => []) rects gdal_fine stod_one quiet_map quiet_a start w' H P Eo) as Cp. clear Eo.
  destruct (Cp eq_refl) as (s & l & V & Vs & R & Rs & Sc & O & EV & ER & FV & Sm & FR). clear Cp.
  cbv iota zeta in Sm. destruct Sm as [-> ->]. rewrite EV in Ln. cbn [w_vectors start] in Ln. rewrite app_nil_r in Ln.
  destruct l as [|fp l]; [inversion FV; subst; discriminate|]. exists fp, l. split; [|split; [reflexivity|split; [reflexivity|split]]].
  - split; [exact H|]. split; [reflexivity|]. split; [reflexivity|]. split; [exists s; auto|]. split; [intros c [<-|[]]; now apply no_nul_check|]. right. split; reflexivity.
  - destruct FR as [[_ FR]|[W _]]; [|exfalso; apply W; reflexivity]. clear -FR. unfold rasterize_scene. revert R FR. generalize (fp :: l). induction l0 as [|x l0 IH]; intros R F; [now exists []|].
    inversion F as [|? ? ? ? (_ & r & Er & _) F']; subst. destruct (IH _ F') as [rs Ers]. exists (r :: rs). cbn [omapM]. rewrite Er. cbn [bind]. now rewrite Ers.
  - right. split; reflexivity.
Qed.
Example C74_failures : snd (run_with (broken false true (fun _ => true))) = Exit 0 (Some RuntimeError) /\ snd (run_with (broken true true (fun _ => false))) = Exit 0 (Some FilesystemError) /\
  snd (run_with (broken true false (fun _ => true))) = Exit 0 (Some RuntimeError) /\ snd (run_with (broken true true no_images)) = Undefined.
Proof. repeat split; vm_compute; reflexivity. Qed.

(** ** The path that a text names *)
Lemma split_name n : ~ In "/"%char n -> forall cur t, split_slash cur (n ++ t) = split_slash (rev n ++ cur) t.
Proof.
  induction n as [|c n IH]; intros N cur t; auto. cbn [app split_slash rev]. destruct (Ascii.eqb_spec c ch_slash) as [->|_]; [exfalso; apply N; now left|].
  rewrite IH by (intros I'; apply N; now right). now rewrite <- app_assoc.
Qed.
Lemma split_slashes sl t : (forall c, In c sl -> c = "/"%char) -> split_slash [] (sl ++ t) = split_slash [] t.
Proof. induction sl as [|c sl IH]; intros H; auto. rewrite (H c) by (now left). cbn. apply IH. intros x I'. apply H. now right. Qed.
Lemma split_name_slashes n sl t : a_name n -> slashes sl -> split_slash [] (n ++ sl ++ t) = n :: split_slash [] t.
Proof.
  intros [N1 N2] [S1 S2]. rewrite split_name by auto. rewrite app_nil_r. destruct sl as [|c sl]; [easy|]. rewrite (S2 c) by (now left). cbn [app split_slash]. change (Ascii.eqb "/"%char ch_slash) with true. cbv iota.
  rewrite split_slashes by (intros x I'; apply S2; now right). destruct (rev n) as [|a r] eqn:E; [apply (f_equal (@rev ascii)) in E; rewrite rev_involutive in E; easy|]. rewrite <- E, rev_involutive. reflexivity.
Qed.
Lemma split_names t ns : names_text t ns -> split_slash [] t = ns.
Proof.
  induction 1 as [n N|n sl N S|n sl t ns N S _ IH].
  - destruct N as [N1 N2]. rewrite <- (app_nil_r n) at 1. rewrite split_name by auto. cbn [split_slash]. rewrite app_nil_r. destruct (rev n) as [|a r] eqn:E; [apply (f_equal (@rev ascii)) in E; rewrite rev_involutive in E; easy|]. now rewrite <- E, rev_involutive.
  - rewrite <- (app_nil_r sl). rewrite split_name_slashes by auto. reflexivity.
  - rewrite split_name_slashes by auto. now rewrite IH.
Qed.
Lemma names_head t ns : names_text t ns -> exists c r, t = c :: r /\ c <> "/"%char.
Proof.
  assert (forall n, a_name n -> exists c r, n = c :: r /\ c <> "/"%char) as K by (intros [|c n] [N1 N2]; [easy|]; exists c, n; split; auto; intros ->; apply N2; now left).
  intros [n N|n sl N S|n sl t' ns' N S _]; destruct (K n N) as (c & r & -> & H); cbn [app]; eauto.
Qed.
Lemma text_cases s : exists sl t, s = sl ++ t /\ (forall c, In c sl -> c = "/"%char) /\ (t = [] \/ exists ns, names_text t ns).
Proof.
  assert (forall k s, List.length s <= k -> exists sl t, s = sl ++ t /\ (forall c, In c sl -> c = "/"%char) /\ (t = [] \/ exists ns, names_text t ns)) as G; [|apply (G (List.length s)); auto]. clear s.
  induction k as [|k IH]; intros s L; [destruct s; [exists [], []; repeat split; auto; intros ? []|cbn in L; lia]|].
  destruct s as [|c s]; [exists [], []; repeat split; auto; intros ? []|]. cbn [List.length] in L.
  destruct (Ascii.eqb_spec c "/"%char) as [-> |N].
  - destruct (IH s) as (sl & t & -> & A & B); [lia|]. exists ("/"%char :: sl), t. repeat split; auto. intros x [<-|I']; auto.
  - assert (exists n r, c :: s = n ++ r /\ a_name n /\ match r with [] => True | d :: _ => d = "/"%char end) as (n & r & E & A & B).
    { clear -N. revert c N. induction s as [|d s IH]; intros c N; [exists [c], []; repeat split; auto; [discriminate|intros [->|[]]; auto]|]. destruct (Ascii.eqb_spec d "/"%char) as [-> |M].
      - exists [c], ("/"%char :: s). repeat split; auto; [discriminate|]. intros [->|[]]; auto.
      - destruct (IH d M) as (n & r & E & [A1 A2] & B). exists (c :: n), r. rewrite E. repeat split; auto; [discriminate|]. intros [->|I']; auto. }
    assert (List.length r <= k) as Lr. { apply (f_equal (@List.length ascii)) in E. rewrite app_length in E. cbn [List.length] in E. destruct A as [A _]. destruct n; [easy|]. cbn [List.length] in E. lia. }
    rewrite E. exists [], (n ++ r). split; [auto|]. split; [intros ? []|]. right. destruct (IH r Lr) as (sl & t & -> & A' & B'). destruct sl as [|d sl].
    + cbn [app] in *. destruct B' as [-> |[ns B']]; [exists [n]; rewrite app_nil_r; now constructor|]. exfalso. apply names_head in B' as (x & y & -> & X). now apply X.
    + destruct B' as [-> |[ns B']]; [exists [n]; rewrite app_nil_r; constructor|exists (n :: ns); constructor]; auto; split; auto; discriminate.
Qed.
Theorem C74_path s p : path_of s = p <-> path_text s p.
Proof.
  assert (forall s p, path_text s p -> path_of s = p) as K.
  { clear. intros s p [|t ns N|sl [S1 S2]|sl t ns [S1 S2] N]; auto; unfold path_of.
    - rewrite (split_names t ns N). apply names_head in N as (c & r & -> & H). destruct (Ascii.eqb_spec c ch_slash) as [->|_]; [easy|reflexivity].
    - rewrite <- (app_nil_r sl) at 2. rewrite split_slashes by auto. destruct sl as [|c sl]; [easy|]. rewrite (S2 c) by (now left). reflexivity.
    - rewrite split_slashes by auto. rewrite (split_names t ns N). destruct sl as [|c sl]; [easy|]. rewrite (S2 c) by (now left). reflexivity. }
  split; [|apply K]. intros <-. destruct (text_cases s) as (sl & t & -> & A & B). destruct sl as [|c sl].
  - cbn [app]. destruct B as [-> |[ns B]]; [constructor|]. pose proof (relative_path t ns B) as P. now rewrite (K _ _ P).
  - assert (slashes (c :: sl)) as S by (split; [discriminate|auto]). destruct B as [-> |[ns B]].
    + rewrite app_nil_r. pose proof (root_path (c :: sl) S) as P. now rewrite (K _ _ P).
    + pose proof (absolute_path (c :: sl) t ns S B) as P. now rewrite (K _ _ P).
Qed.
Lemma no_names s : split_slash [] s = [] -> forall c, In c s -> c = "/"%char.
Proof.
  induction s as [|c s IH]; intros E x I; [destruct I|]. cbn [split_slash] in E. destruct (Ascii.eqb_spec c ch_slash) as [->|N].
  - destruct I as [<-|I]; [reflexivity|exact (IH E x I)].
  - exfalso. clear IH I. assert (forall s cur, cur <> [] -> split_slash cur s <> []) as G.
    { clear. induction s as [|d s IH]; intros cur H; cbn [split_slash]; [destruct cur; [easy|discriminate]|]. destruct (Ascii.eqb d ch_slash); [destruct cur; [easy|discriminate]|]. apply IH. discriminate. }
    exact (G s [c] ltac:(discriminate) E).
Qed.
Lemma ends_slash s : ends_with_slash s = true <-> exists u, s = u ++ lit "/".
Proof.
  unfold ends_with_slash. split.
  - destruct (rev s) as [|c r] eqn:E; [discriminate|]. intros H. apply Ascii.eqb_eq in H. subst c. exists (rev r). rewrite <- (rev_involutive s), E. reflexivity.
  - intros [u ->]. rewrite rev_app_distr. reflexivity.
Qed.
(** the path of a scene, as boost takes it apart *)
Theorem C74_scene_path s p : scene_path s = p <-> scene_text s p.
Proof.
  assert (forall s, slashes s -> split_slash [] s = []) as Z by (intros t [_ H]; rewrite <- (app_nil_r t); rewrite split_slashes by auto; reflexivity).
  split.
  - intros <-. unfold scene_path. pose proof (proj1 (C74_path s _) eq_refl) as P. destruct (split_slash [] s) as [|n ns] eqn:N.
    + rewrite app_nil_r. pose proof (no_names s N) as A. destruct s as [|c s]; [apply as_named; [exact P|intros [|? ?]; discriminate]|].
      assert (slashes (c :: s)) as S by (split; [discriminate|exact A]). unfold path_of. rewrite N. assert (c = "/"%char) as -> by (apply A; now left). exact (only_slashes _ S).
    + assert (~ slashes s) as NS by (intros S; rewrite (Z s S) in N; discriminate N). destruct (ends_with_slash s) eqn:E.
      * apply (with_slash s (path_of s)); auto. now apply ends_slash.
      * rewrite app_nil_r. apply as_named; auto. intros u H. assert (ends_with_slash s = true) as K by (apply ends_slash; eauto). rewrite K in E. discriminate.
  - unfold scene_path. intros [t q P H|sl S|t q P H NS].
    + apply C74_path in P. assert (ends_with_slash t = false) as E by (destruct (ends_with_slash t) eqn:E; auto; apply ends_slash in E as [u ->]; exfalso; exact (H u eq_refl)). rewrite E, P. destruct (split_slash [] t); apply app_nil_r.
    + rewrite (Z sl S), app_nil_r. apply C74_path. now constructor.
    + apply C74_path in P. rewrite P. f_equal. apply ends_slash in H. rewrite H. destruct (split_slash [] t) eqn:N; [|reflexivity]. exfalso. apply NS. split; [intros ->; discriminate H|]. now apply no_names.
Qed.
(** a slash at the end decides where the results go: into the directory of that name, and not
    beside it; the stem, after which the scene's own results are called, is then a dot *)
Theorem C74_slash s n : path_text s n -> ~ slashes s ->
  ((exists u, s = u ++ lit "/") -> parent_path (scene_path s) = n /\ stem (scene_path s) = lit "." /\ resolves (scene_path s) n) /\
  ((forall u, s <> u ++ lit "/") -> parent_path (scene_path s) = removelast n /\ scene_path s = n).
Proof.
  intros P NS. split; intros H.
  - rewrite (proj2 (C74_scene_path s (n ++ [lit "."])) (with_slash s n P H NS)). split; [apply removelast_last|]. split; [|now left].
    assert (filename (n ++ [lit "."]) = lit ".") as F by (apply last_last). unfold stem. now rewrite F.
  - rewrite (proj2 (C74_scene_path s n) (as_named s n P H)). now split.
Qed.
(** only the OFF format takes such a path *)
Theorem C74_slash_formats s m f : (exists u, s = u ++ lit "/") -> ~ slashes s ->
  (f = lit "OFF" -> exists h, scene_handler_named (scene_path s) m f = Ok h) /\ (f <> lit "OFF" -> scene_handler_named (scene_path s) m f = Throw RuntimeError).
Proof.
  intros H NS. pose proof (proj1 (C74_path s _) eq_refl) as P.
  pose proof (proj2 (C74_scene_path s _) (with_slash s _ P H NS)) as ->. split.
  - intros ->. eexists. reflexivity.
  - intros N. assert (extension (path_of s ++ [lit "."]) = []) as E. { apply dot_has_no_extension. apply str_eqb_eq. apply last_last. }
    unfold scene_handler_named, scene_handler_make, check_extension. destruct (scene_format f) as [[| | |]|e|] eqn:F; cbn [bind]; auto; try (rewrite E; reflexivity).
    + exfalso. apply N. exact (proj1 (proj1 (proj2 (proj2 (Props_io.C33_format_names f)))) F).
    + unfold scene_format in F. destruct (str_find f supported_formats); [discriminate|]. injection F as <-. reflexivity.
    + unfold scene_format in F. destruct (str_find f supported_formats); discriminate.
Qed.
Example C74_slash_example : scene_text (lit "d/town/") [lit "d"; lit "town"; lit "."] /\ parent_path (scene_path (lit "d/town/")) = [lit "d"; lit "town"] /\
  stem (scene_path (lit "d/town/")) ++ lit ".shp" = lit "..shp" /\ parent_path (scene_path (lit "d/town")) = [lit "d"] /\ stem (scene_path (lit "d/town")) ++ lit ".shp" = lit "town.shp".
Proof. split; [apply C74_scene_path; reflexivity|]. repeat split; reflexivity. Qed.
Example C74_path_example : path_text (lit "/home/city.obj") [lit "/"; lit "home"; lit "city.obj"] /\ path_text (lit "d//city.obj") [lit "d"; lit "city.obj"] /\ parent_path (path_of (lit "/city.obj")) = [lit "/"].
Proof. split; [|split]; [apply C74_path; reflexivity..|reflexivity]. Qed.
