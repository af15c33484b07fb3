(** * Properties C79, C80 and further parts of C14, C31, C32: contents of files, scenes
    assembled from OBJ and 3DS files. *)
From Coq Require Import String.
From Verif Require Import Base Dbl Dbl_facts Decimal Shadow Spec_shadow Streams Spec_text
  Shadow_proofs Props_text Props_obj Handlers Spec_io Handlers_proofs Scenefile_proofs T3ds_proofs Xml_proofs Props_io Spec_scenes Scenes_proofs.
Close Scope string_scope.

(** C14: what a 3DS mesh is read as, for any stored mesh *)
Theorem C14_import : forall lm, (indices_fine lm -> exists r, mesh_of_3ds lm = Ok r /\ imported lm r /\ mesh_wf r) /\ (~ indices_fine lm -> mesh_of_3ds lm = UB).
Proof. exact mesh_of_3ds_outcome. Qed.
Print Assumptions C14_import.

(** C31: add_mesh appends a copy *)
Theorem C31_add_mesh : forall h x, oh_path (add_mesh h x) = oh_path h /\ oh_modes (add_mesh h x) = oh_modes h /\ exists y,
  oh_meshes (add_mesh h x) = oh_meshes h ++ [y] /\ m_name y = m_name x /\ m_points y = m_points x /\ m_faces y = m_faces x /\ m_bbox y = m_bbox x.
Proof. intros h x. split; [reflexivity|]. split; [reflexivity|]. exists (mesh_copy x). repeat split; reflexivity. Qed.
Print Assumptions C31_add_mesh.

(** C32: values and file contents *)
Theorem C32_obj_read_value : forall f h h', is_map (oh_modes h) -> (obj_handler_read f h = Ok h' <->
  granted (oh_modes h) "read" /\ oh_path h' = oh_path h /\ oh_modes h' = oh_modes h /\
  exists c, f (os_path (oh_path h)) = Some (File c) /\ obj_read c = Ok (oh_meshes h')).
Proof. exact obj_read_value. Qed.
Print Assumptions C32_obj_read_value.
Theorem C32_obj_read_failures : forall f h c, is_map (oh_modes h) -> granted (oh_modes h) "read" -> f (os_path (oh_path h)) = Some (File c) ->
  (forall e, obj_read c = Throw e -> obj_handler_read f h = Throw e) /\ (obj_read c = UB -> obj_handler_read f h = UB).
Proof. exact obj_read_fails. Qed.
Print Assumptions C32_obj_read_failures.
Theorem C32_obj_write_value : forall f h, is_map (oh_modes h) -> granted (oh_modes h) "write" -> exists f',
  (forall t, obj_write (oh_meshes h) = Ok t -> obj_handler_write f h = (f', Ok tt)) /\
  (forall e, obj_write (oh_meshes h) = Throw e -> obj_handler_write f h = (f', Throw e)) /\
  (obj_write (oh_meshes h) = UB -> obj_handler_write f h = (f', UB)) /\
  differ_only_at (os_path (oh_path h)) f f' /\
  (can_create f (oh_path h) = false -> f' = f) /\
  (can_create f (oh_path h) = true -> exists c, f' (os_path (oh_path h)) = Some (File c) /\ forall t, obj_write (oh_meshes h) = Ok t -> c = t).
Proof. exact obj_write_value. Qed.
Print Assumptions C32_obj_write_value.
(** a file can be created in an existing directory, unless it names a directory *)
Theorem C32_creatable : forall f p, can_create f p = true <-> os_path p <> [] /\ f (removelast (os_path p)) = Some Dir /\ f (os_path p) <> Some Dir.
Proof. exact can_create_spec. Qed.
Print Assumptions C32_creatable.
(** paths without NUL are used as they are; others are cut at the first NUL *)
Theorem C32_paths : forall p, (no_nul p -> os_path p = p) /\
  (forall q c d s, no_nul q -> p = q ++ (c ++ nul :: d) :: s -> ~ In nul c -> os_path p = q ++ [c]).
Proof.
  intros p. split; [apply os_path_plain|]. intros q c d s Hq -> Hc. induction q as [|a q IH]; cbn [app os_path].
  - replace (existsb (Ascii.eqb zero) (c ++ nul :: d)) with true.
    2:{ symmetry. apply existsb_exists. exists nul. split; [apply in_or_app; right; left; auto|reflexivity]. }
    f_equal. clear -Hc. induction c as [|b c IH]; [reflexivity|]. cbn [app c_str]. destruct (Ascii.eqb b zero) eqn:E.
    + exfalso. apply Ascii.eqb_eq in E. apply Hc. left. exact E.
    + f_equal. apply IH. intros H; apply Hc; right; auto.
  - rewrite existsb_zero_false by (apply Hq; left; auto). f_equal. apply IH. intros c' H. apply Hq; right; auto.
Qed.
Print Assumptions C32_paths.
(** the name given to what is read: the file name up to its last dot *)
Theorem C32_stem : forall p n, filename p = n -> n <> lit "." -> n <> lit ".." ->
  (forall a b, n = a ++ "."%char :: b -> ~ In "."%char b -> stem p = a) /\ (~ In "."%char n -> stem p = n).
Proof.
  intros p n Hn H1 H2. unfold stem. rewrite Hn. cbv zeta.
  assert (D : dots_only n = false).
  { unfold dots_only. apply orb_false_iff. split; apply str_eqb_neq; auto. }
  rewrite D. split.
  - intros a b E Hb. assert (S : split_dot n = Some (a, "."%char :: b)). { apply split_dot_spec. split; auto. exists b. auto. } now rewrite S.
  - intros H. destruct (split_dot n) as [[a b]|] eqn:E; auto. apply split_dot_spec in E as (-> & w & -> & _). exfalso. apply H. apply in_or_app. right; left; auto.
Qed.
Print Assumptions C32_stem.
Theorem C32_filename : forall d n, filename (d ++ [n]) = n.
Proof. exact filename_app. Qed.
Print Assumptions C32_filename.
Theorem C32_3ds_values : forall X f p m h, is_map m -> t3ds_make X f p m = Ok h -> th_path h = p /\ th_modes h = m /\
  (granted m "read" -> ~ granted m "write" /\ exists c, f (os_path p) = Some (File c) /\ th_file h = load_3ds X c /\
     (load_3ds X c = None -> t3ds_get_meshes h = UB) /\
     (forall x, load_3ds X c = Some x -> (forall ms, t3ds_get_meshes h = Ok ms <-> Forall2 (fun lm r => mesh_of_3ds lm = Ok r) (f_meshes x) ms))) /\
  (~ granted m "read" -> granted m "write" /\ th_file h = Some (mk3ds [] []) /\
     forall g ms, (ms = [] -> write_meshes X g h ms = (g, UB)) /\
       (ms <> [] -> forall ls, Forall2 (fun a l => mesh_to_3ds a = Ok l) ms ls ->
          exists g', write_meshes X g h ms = (g', Ok tt) /\ differ_only_at (os_path p) g g' /\
            (can_create g p = true -> g' (os_path p) = Some (File (save_3ds X (mk3ds [] ls)))) /\ (can_create g p = false -> g' = g))).
Proof.
  intros X f p m h Hm E. destruct (t3ds_make_read _ _ _ _ _ E) as (P & M & R & W). split; auto. split; auto.
  pose proof (mode_granted m "read" Hm) as Gr. pose proof (mode_granted m "write" Hm) as Gw. pose proof (mode_granted_false m "write" Hm) as Gw'.
  unfold can_read, can_write in *. change s_read with (lit "read") in *. change s_write with (lit "write") in *. split.
  - intros H. apply Gr in H. destruct (R H) as (R1 & c & R2 & R3). split; [now apply Gw'|]. exists c. split; auto. split; auto.
    unfold t3ds_get_meshes, t3ds_file. unfold can_read. change s_read with (lit "read"). rewrite M, H, R3. split; [intros ->; reflexivity|].
    intros x -> ms. cbn [bind]. apply omapM_Ok.
  - intros H. assert (Hr : mode_of m (lit "read") = false) by (apply (mode_granted_false m "read" Hm); auto). destruct (W Hr) as (W1 & W2). split; [now apply Gw|]. split; auto.
    intros g ms. unfold write_meshes. unfold can_write. change s_write with (lit "write"). rewrite M, W1, W2, P. split; [intros ->; reflexivity|].
    intros Hn ls F. destruct ms as [|a ms]; [congruence|]. replace (omapM mesh_to_3ds (a :: ms)) with (Ok ls) by (symmetry; now apply omapM_Ok).
    eexists. split; [reflexivity|]. cbn [f_nodes]. split; [apply fwrite_other|]. apply fwrite_cases.
Qed.
Print Assumptions C32_3ds_values.

(** C79: OBJ scenes *)
Theorem C79_obj_scene : forall (S : Type) (build : mesh -> outcome S) X f p m c rs, is_map m -> granted m "read" ->
  f (os_path p) = Some (File c) -> obj_read c = Ok rs ->
  exists ms out t, (forall ls, scene_read X build f ls (mkSceneH p m obj) = scene_make build ms t point_default 2154) /\
    interleave ms out rs /\ (forall x, In x ms -> m_name x <> lit "terrain") /\ (forall x, In x out -> m_name x = lit "terrain") /\
    m_name t = lit "terrain" /\ joins out t.
Proof. intros S. exact (@obj_scene_read S). Qed.
Print Assumptions C79_obj_scene.
(** without a terrain object the terrain is empty *)
Theorem C79_no_terrain : forall (S : Type) (build : mesh -> outcome S) X f p m c rs, is_map m -> granted m "read" ->
  f (os_path p) = Some (File c) -> obj_read c = Ok rs -> (forall x, In x rs -> m_name x <> lit "terrain") ->
  exists t, m_name t = lit "terrain" /\ m_points t = [] /\ polygons t = [] /\
    forall ls, scene_read X build f ls (mkSceneH p m obj) = scene_make build rs t point_default 2154.
Proof.
  intros S build X f p m c rs Hm Hr Hf Ho Hn. destruct (@obj_scene_read S build X f p m c rs Hm Hr Hf Ho) as (ms & out & t & E & I & K & O & N & J).
  assert (out = []). { destruct out as [|a out]; auto. exfalso. apply (Hn a); [apply (interleave_In _ _ _ a) in I; apply I; right; left; auto|apply O; left; auto]. }
  subst out. assert (ms = rs). { clear -I. remember [] as o. induction I; auto; [f_equal; auto|discriminate]. } subst ms.
  exists t. split; auto. destruct J as [J1 J2]. split; [exact J1|]. split; [|exact E]. apply J2; [intros ? []|]. vm_compute. discriminate.
Qed.
Print Assumptions C79_no_terrain.
Theorem C79_obj_scene_round_trip : forall (S : Type) (to_mesh : unode S -> mesh) (build : mesh -> outcome S) X f p mw mr s,
  is_map mw -> is_map mr -> granted mw "write" -> granted mr "read" ->
  no_nul p -> p <> [] -> f (removelast p) = Some Dir -> f p <> Some Dir ->
  obj_savable (map to_mesh (sc_buildings s ++ [sc_terrain s])) ->
  (forall u, In u (sc_buildings s ++ [sc_terrain s]) -> m_name (to_mesh u) = u_name u) -> u_name (sc_terrain s) = lit "terrain" ->
  exists f' c, scene_write to_mesh f (mkSceneH p mw obj) s = (f', Ok tt) /\ differ_only_at p f f' /\ f' p = Some (File c) /\
    obj_write (map to_mesh (sc_buildings s) ++ [to_mesh (sc_terrain s)]) = Ok c /\
    exists bs ms t, Permutation bs (sc_buildings s) /\ increasing (map u_name bs) /\
      Forall2 (fun u x => m_name x = u_name u /\ poly_reads_back (polygons (to_mesh u)) (polygons x) /\ mesh_wf x) bs ms /\
      m_name t = lit "terrain" /\ poly_reads_back (polygons (to_mesh (sc_terrain s))) (polygons t) /\ mesh_wf t /\
      forall ls, scene_read X build f' ls (mkSceneH p mr obj) = scene_make build ms t point_default 2154.
Proof. intros S. exact (@obj_scene_round_trip S). Qed.
Print Assumptions C79_obj_scene_round_trip.
Definition towns : scene mesh := mkScene p123 2154 [mkUNode (lit "hall") p123 2154 mesh_b; mkUNode (lit "a.off") p123 2154 mesh_b]
  (mkUNode (lit "terrain") p123 2154 mesh_b).
Example C79_example : obj_savable (map town_mesh (sc_buildings towns ++ [sc_terrain towns])) /\
  (forall u, In u (sc_buildings towns ++ [sc_terrain towns]) -> m_name (town_mesh u) = u_name u) /\
  exists f' s, scene_write town_mesh empty_fs (mkSceneH [lit "t.obj"] (rw true true) obj) towns = (f', Ok tt) /\
    scene_read no_externals Ok f' [] (mkSceneH [lit "t.obj"] (rw true true) obj) = Ok s /\ map u_name (sc_buildings s) = [lit "a.off"; lit "hall"] /\
    map (@List.length N) (m_faces (u_surf (sc_terrain s))) = [3%nat] /\ sc_epsg s = 2154%N.
Proof.
  split. { split; [discriminate|]. split; [|split].
    - intros m [<-|[<-|[<-|[]]]]; (split; [|split]; [
        intros f [<-|[]]; split; [cbn; lia|]; intros i Hi; cbn in Hi; repeat (destruct Hi as [<-|Hi]; [reflexivity|]); destruct Hi
        |intros c Hc; cbn in Hc; repeat (destruct Hc as [<-|Hc]; [reflexivity|]); destruct Hc
        |intros p [<-|[<-|[<-|[]]]]; repeat split; vm_compute; reflexivity]).
    - cbn. repeat constructor; cbn; intuition discriminate.
    - reflexivity. }
  split. { intros u [<-|[<-|[<-|[]]]]; reflexivity. }
  do 2 eexists. split; [vm_compute; reflexivity|]. split; [vm_compute; reflexivity|]. split; [reflexivity|split; reflexivity].
Qed.

(** C80: 3DS scenes *)
Theorem C80_xml_scene : forall (S : Type) (build : mesh -> outcome S) X f ls p m s, scene_read X build f ls (mkSceneH p m t3ds_xml) = Ok s ->
  exists c x root rest cx d ids tid bs t pv ep, f (os_path p) = Some (File c) /\ load_3ds X c = Some x /\ f_nodes x = root :: rest /\
    f (os_path (xml_path p)) = Some (File cx) /\ load_xml X cx = Some d /\
    tree_building_ids d = Ok ids /\ tree_terrain_id d = Ok tid /\ tree_pivot X d = Ok pv /\ tree_epsg X d = Ok ep /\
    Forall2 (building_mesh x root) ids bs /\ relief_mesh x root [tid] t /\ scene_make build bs t pv ep = Ok s.
Proof. intros S. exact (@t3ds_xml_scene S). Qed.
Print Assumptions C80_xml_scene.
Theorem C80_xml_defined : forall (S : Type) (build : mesh -> outcome S) X f p m c x root rest,
  is_map m -> granted m "read" -> ~ granted m "write" -> f (os_path p) = Some (File c) -> load_3ds X c = Some x -> f_nodes x = root :: rest ->
  (forall lm, In lm (f_meshes x) -> indices_fine lm) ->
  forall ls cx d ids tid pv ep, f (os_path (xml_path p)) = Some (File cx) -> load_xml X cx = Some d ->
  tree_building_ids d = Ok ids -> tree_terrain_id d = Ok tid -> tree_pivot X d = Ok pv -> tree_epsg X d = Ok ep ->
  (forall id, In id (tid :: ids) -> exists n, found_at root (c_str id) n) ->
  exists bs t, Forall2 (building_mesh x root) ids bs /\ relief_mesh x root [tid] t /\ scene_read X build f ls (mkSceneH p m t3ds_xml) = scene_make build bs t pv ep.
Proof. intros S build X f p m c x root rest H1 H2 H3 H4 H5 H6 H7. exact (t3ds_xml_defined build X f p m c x root rest H1 H2 H3 H4 H5 H6 H7). Qed.
Print Assumptions C80_xml_defined.
(** without the ids of a scene tree: every child of the first root node is taken as a building *)
Theorem C80_3ds_scene : forall (S : Type) (build : mesh -> outcome S) X f ls p m s, scene_read X build f ls (mkSceneH p m t3ds) = Ok s ->
  exists c x root rest bs t pv ep, f (os_path p) = Some (File c) /\ load_3ds X c = Some x /\ f_nodes x = root :: rest /\
    Forall2 (building_mesh x root) (map node_label (node_kids root)) bs /\ relief_mesh x root (map node_label (node_kids root)) t /\
    scene_make build bs t pv ep = Ok s /\
    ((exists cx d, f (os_path (xml_path p)) = Some (File cx) /\ load_xml X cx = Some d /\ tree_pivot X d = Ok pv /\ tree_epsg X d = Ok ep) \/
     (pv = point_default /\ ep = 2154%N /\ forall cx d, f (os_path (xml_path p)) = Some (File cx) -> load_xml X cx = Some d -> tree_pivot X d = Throw RuntimeError)).
Proof. intros S. exact (@t3ds_scene S). Qed.
Print Assumptions C80_3ds_scene.
Theorem C80_3ds_defined : forall (S : Type) (build : mesh -> outcome S) X f p m c x root rest,
  is_map m -> granted m "read" -> ~ granted m "write" -> f (os_path p) = Some (File c) -> load_3ds X c = Some x -> f_nodes x = root :: rest ->
  (forall lm, In lm (f_meshes x) -> indices_fine lm) ->
  forall ls, (forall n, In n (node_kids root) -> exists n', found_at root (c_str (node_label n)) n') ->
  exists bs t, Forall2 (building_mesh x root) (map node_label (node_kids root)) bs /\ relief_mesh x root (map node_label (node_kids root)) t /\
   (forall cx d pv ep s, f (os_path (xml_path p)) = Some (File cx) -> load_xml X cx = Some d -> tree_pivot X d = Ok pv -> tree_epsg X d = Ok ep ->
      scene_make build bs t pv ep = Ok s -> scene_read X build f ls (mkSceneH p m t3ds) = Ok s) /\
   (tree_make X f (xml_path p) = Throw RuntimeError \/ (exists cx d, f (os_path (xml_path p)) = Some (File cx) /\ load_xml X cx = Some d /\ tree_pivot X d = Throw RuntimeError) ->
      scene_read X build f ls (mkSceneH p m t3ds) = scene_make build bs t point_default 2154).
Proof. intros S build X f p m c x root rest H1 H2 H3 H4 H5 H6 H7. exact (t3ds_defined build X f p m c x root rest H1 H2 H3 H4 H5 H6 H7). Qed.
Print Assumptions C80_3ds_defined.
Theorem C80_children_are_found : forall root n, In n (node_kids root) -> is_object n = true -> ~ In nul (node_label n) ->
  exists n', found_at root (c_str (node_label n)) n'.
Proof. exact kid_found. Qed.
Print Assumptions C80_children_are_found.
(** the scene tree lies beside the 3DS file: same name up to the last dot, then ".XML" *)
Theorem C80_tree_path : forall d a b, ~ In "/"%char a -> ~ In "."%char b -> xml_path (d ++ [a ++ "."%char :: b]) = d ++ [a ++ lit ".XML"] \/ (a = [] /\ b = []) \/ (a = lit "." /\ b = []).
Proof.
  intros d a b Ha Hb. destruct (dots_only (a ++ "."%char :: b)) eqn:D.
  - right. unfold dots_only in D. apply orb_true_iff in D as [D|D]; apply str_eqb_eq in D.
    + left. destruct a as [|x a]; [injection D as ->; auto|]. destruct a; discriminate.
    + right. destruct a as [|x a]; [injection D as ->; exfalso; apply Hb; left; auto|]. destruct a as [|y a]; [injection D as -> ->; auto|]. destruct a; discriminate.
  - left. unfold xml_path, parent_path. rewrite removelast_last.
    assert (E : stem (d ++ [a ++ "."%char :: b]) = a).
    { unfold stem. rewrite filename_app. cbv zeta. rewrite D. assert (S : split_dot (a ++ "."%char :: b) = Some (a, "."%char :: b)). { apply split_dot_spec. split; auto. exists b. auto. } now rewrite S. }
    rewrite E. unfold path_join. f_equal. rewrite split_slash_plain.
    + cbn [rev app]. destruct a; reflexivity.
    + intros H. apply in_app_or in H as [H|H]; [auto|]. cbn in H. repeat (destruct H as [H|H]; [discriminate H|]). destruct H.
Qed.
Print Assumptions C80_tree_path.
(** the file of C35 read with and without its scene tree: without, the terrain node is also
    a building (an empty one) *)
Definition sample_ext : externals := mkExt (fun _ => Some sample_3ds) (fun _ => [])
  (fun t => match t with [] => None | _ => Some [XElem (lit "Chantier_Bati3D") [] None [XElem (lit "Pivot") [] None [leaf "offset_x" "7"; leaf "offset_y" "8"; leaf "offset_z" "9"];
    leaf "Code_ESPG_horizontal" "A"; XElem (lit "CityModel") [] None [build_el "B1"; XElem (lit "TINRelief") [(lit "Id", lit "Mland")] None []]]] end)
  (fun t => match t with [c] => Some (dofZ (Z.of_N (N_of_ascii c) - 48)) | _ => None end)
  (fun t => match t with [c] => Some (N_of_ascii c + 65536)%N | _ => None end).
Definition sample_disk (xml : str) : fs := fun p => if path_eqb p [lit "a.3ds"] then Some (File []) else if path_eqb p [lit "a.XML"] then Some (File xml) else match p with [] => Some Dir | _ => None end.
Definition digest (s : outcome (scene mesh)) : outcome (list (str * nat) * (str * nat) * (point * N)) :=
  omap (fun s => (map (fun u => (u_name u, List.length (m_points (u_surf u)))) (sc_buildings s), (u_name (sc_terrain s), List.length (m_points (u_surf (sc_terrain s)))), (sc_pivot s, sc_epsg s))) s.
Example C80_example : (forall lm, In lm (f_meshes sample_3ds) -> indices_fine lm) /\
  digest (scene_read sample_ext Ok (sample_disk (lit "x")) [] (mkSceneH [lit "a.3ds"] (rw true false) t3ds_xml)) =
    Ok ([(lit "B1", 9%nat)], (lit "terrain", 3%nat), (mkPoint (dofZ 7) (dofZ 8) (dofZ 9), 65%N)) /\
  digest (scene_read sample_ext Ok (sample_disk (lit "x")) [] (mkSceneH [lit "a.3ds"] (rw true false) t3ds)) =
    Ok ([(lit "B1", 9%nat); (lit "Mland", 0%nat)], (lit "terrain", 3%nat), (mkPoint (dofZ 7) (dofZ 8) (dofZ 9), 65%N)) /\
  digest (scene_read sample_ext Ok (sample_disk (lit "")) [] (mkSceneH [lit "a.3ds"] (rw true false) t3ds)) =
    Ok ([(lit "B1", 9%nat); (lit "Mland", 0%nat)], (lit "terrain", 3%nat), (point_default, 2154%N)).
Proof.
  split; [|repeat split; vm_compute; reflexivity].
  intros lm [<-|[<-|[<-|[<-|[]]]]]; intros t [<-|[]]; repeat split; reflexivity.
Qed.
