(** * Properties C31-C39: file handlers, scenes on disk, 3DS trees, scene tree. *)
From Coq Require Import String.
From Verif Require Import Base Dbl Dbl_facts Decimal Shadow Spec_shadow Streams Spec_text
  Shadow_proofs Props_text Props_obj Handlers Spec_io Handlers_proofs Scenefile_proofs T3ds_proofs Xml_proofs.
Close Scope string_scope.

(** C31: exclude_mesh splits the meshes by name *)
Theorem C31_exclude_partitions : forall h n h' r, exclude_mesh h n = (h', r) -> exists out,
  interleave (oh_meshes h') out (oh_meshes h) /\
  (forall m, In m (oh_meshes h') -> m_name m <> n) /\ (forall m, In m out -> m_name m = n) /\
  oh_path h' = oh_path h /\ oh_modes h' = oh_modes h /\
  m_name r = n /\ m_points r = concat (map m_points out) /\
  ((forall m, In m out -> mesh_wf m) -> (sum_points out <= two64)%N -> mesh_wf r /\ polygons r = concat (map polygons out)) /\
  exists r', exclude_mesh h' n = (h', r') /\ m_name r' = n /\ m_points r' = [] /\ m_faces r' = [].
Proof. exact C31_proof. Qed.
Print Assumptions C31_exclude_partitions.
Example C31_example : exists h' r, exclude_mesh (mkObjH [] [] [mesh_b; mesh_a; mesh_b]) (lit "b") = (h', r) /\
  oh_meshes h' = [mesh_a] /\ m_faces r = [[0; 2; 1]; [3; 5; 4]]%N /\ length (m_points r) = 6%nat.
Proof. do 2 eexists. split; [vm_compute; reflexivity|repeat split]. Qed.

(** C32: access modes.  [is_map]: keys are distinct, as in a std::map *)
Theorem C32_off_read_modes : forall f p m, is_map m ->
  (off_handler_read f p m = Throw FilesystemError <-> ~ granted m "read" \/ ~ a_file f (os_path p)).
Proof. exact C32_off_read_proof. Qed.
Print Assumptions C32_off_read_modes.
Theorem C32_off_read_value : forall f p m x, off_handler_read f p m = Ok x ->
  exists c r, f (os_path p) = Some (File c) /\ off_read c = Ok r /\ m_points x = m_points r /\ m_faces x = m_faces r /\ m_bbox x = m_bbox r /\ m_name x = stem p.
Proof. exact C32_off_read_value_proof. Qed.
Print Assumptions C32_off_read_value.
Theorem C32_off_write_modes : forall f p m x, is_map m ->
  (~ granted m "write" -> off_handler_write f p m x = (f, Throw FilesystemError)) /\
  (granted m "write" -> exists f', off_handler_write f p m x = (f', Ok tt) /\ differ_only_at (os_path p) f f' /\
     (can_create f p = true -> f' (os_path p) = Some (File (off_write x))) /\ (can_create f p = false -> f' = f)).
Proof. exact C32_off_write_proof. Qed.
Print Assumptions C32_off_write_modes.
Theorem C32_obj_read_modes : forall f h, is_map (oh_modes h) ->
  (obj_handler_read f h = Throw FilesystemError <-> ~ granted (oh_modes h) "read" \/ ~ a_file f (os_path (oh_path h))).
Proof. exact C32_obj_read_proof. Qed.
Print Assumptions C32_obj_read_modes.
Theorem C32_obj_write_modes : forall f h, is_map (oh_modes h) ->
  (~ granted (oh_modes h) "write" -> obj_handler_write f h = (f, Throw FilesystemError)) /\
  (forall f' r, obj_handler_write f h = (f', r) -> r <> Throw FilesystemError -> granted (oh_modes h) "write" /\ differ_only_at (os_path (oh_path h)) f f').
Proof. exact C32_obj_write_proof. Qed.
Print Assumptions C32_obj_write_modes.
Theorem C32_3ds_modes : forall X f p m, is_map m ->
  ((granted m "read" <-> granted m "write") -> t3ds_make X f p m = Throw FilesystemError) /\
  (granted m "read" -> ~ granted m "write" ->
     (a_file f (os_path p) -> exists h, t3ds_make X f p m = Ok h) /\
     (~ a_file f (os_path p) -> t3ds_make X f p m = Throw FilesystemError)) /\
  (~ granted m "read" -> granted m "write" -> exists h, t3ds_make X f p m = Ok h).
Proof. exact C32_t3ds_proof. Qed.
Print Assumptions C32_3ds_modes.
Theorem C32_3ds_use : forall X f p m h, t3ds_make X f p m = Ok h ->
  (th_modes h = m) /\ (can_read m = false ->
     t3ds_get_meshes h = Throw FilesystemError /\ forall s ty, node_meshes_by_type h s ty = Throw FilesystemError) /\
  (can_write m = false -> forall g ms, write_meshes X g h ms = (g, Throw FilesystemError)).
Proof. exact C32_t3ds_use_proof. Qed.
Print Assumptions C32_3ds_use.
Theorem C32_raster_vector_read : forall (D P : Type) (open : path -> option D) (make : str -> D -> outcome P) f p m, is_map m ->
  (~ granted m "read" \/ ~ a_file f (os_path p) -> gdal_handler_read open make f p m = Throw FilesystemError) /\
  (granted m "read" -> a_file f (os_path p) ->
     (open p = None -> gdal_handler_read open make f p m = Throw RuntimeError) /\
     (forall d, open p = Some d -> gdal_handler_read open make f p m = make (stem p) d)).
Proof. exact C32_gdal_read_proof. Qed.
Print Assumptions C32_raster_vector_read.
Theorem C32_raster_vector_write : forall (D P : Type) driver (create : fs -> path -> fs * option D) (export : P -> D -> fs -> fs * outcome unit) f p m x, is_map m ->
  ~ granted m "write" ->
  raster_handler_write driver create export f p m x = (f, Throw FilesystemError) /\
  vector_handler_write driver create export f p m x = (f, Throw FilesystemError).
Proof. exact C32_gdal_write_proof. Qed.
Print Assumptions C32_raster_vector_write.
Theorem C32_missing_key_is_false : forall m k, ~ In (lit k) (map fst m) -> mode_of m (lit k) = false.
Proof. exact C32_missing_proof. Qed.
Print Assumptions C32_missing_key_is_false.
Definition rw (r w : bool) : modes := [(lit "read", r); (lit "write", w)].
Definition empty_fs : fs := fun p => match p with [] => Some Dir | _ => None end.
Example C32_example : is_map (rw true false) /\ granted (rw true false) "read" /\ ~ granted (rw true false) "write" /\
  off_handler_read empty_fs [lit "a.off"] (rw true false) = Throw FilesystemError /\
  (exists f', off_handler_write empty_fs [lit "a.off"] (rw true true) mesh_a = (f', Ok tt) /\ can_create empty_fs [lit "a.off"] = true /\
     exists x, off_handler_read f' [lit "a.off"] (rw true true) = Ok x /\ m_name x = lit "a" /\ m_faces x = m_faces mesh_a).
Proof.
  split. { repeat constructor; cbn; intuition discriminate. }
  split; [left; reflexivity|]. split. { intros [H|[H|[]]]; [discriminate H|injection H; discriminate]. }
  split; [reflexivity|]. eexists. split; [reflexivity|]. split; [reflexivity|]. eexists. split; [vm_compute; reflexivity|split; reflexivity].
Qed.

(** C33: formats and extensions *)
Theorem C33_format_names : forall s,
  (scene_format s = Ok t3ds_xml <-> s = lit "3DS XML") /\ (scene_format s = Ok t3ds <-> s = lit "3DS") /\
  (scene_format s = Ok off <-> s = lit "OFF") /\ (scene_format s = Ok obj <-> s = lit "OBJ") /\
  (~ In s [lit "3DS XML"; lit "3DS"; lit "OFF"; lit "OBJ"] -> scene_format s = Throw RuntimeError).
Proof. exact C33_format_proof. Qed.
Print Assumptions C33_format_names.
Theorem C33_format_inverse : forall f, exists s, nth_error supported_formats (fmt_index f) = Some s /\ scene_format s = Ok f.
Proof. exact C33_inverse_proof. Qed.
Print Assumptions C33_format_inverse.
Theorem C33_extension_check : forall p m f,
  (f = off \/ ends_with_ci (filename p) (wanted_extension f) -> scene_handler_make p m f = Ok (mkSceneH p m f)) /\
  (f <> off -> ~ ends_with_ci (filename p) (wanted_extension f) -> scene_handler_make p m f = Throw RuntimeError).
Proof. exact C33_handler_proof. Qed.
Print Assumptions C33_extension_check.
Example C33_example : scene_handler_make [lit "d"; lit "City.OBJ"] (rw true false) obj = Ok (mkSceneH [lit "d"; lit "City.OBJ"] (rw true false) obj) /\
  scene_handler_make [lit "City.obj.3ds"] [] obj = Throw RuntimeError /\ scene_handler_make [lit "x"] [] off = Ok (mkSceneH [lit "x"] [] off) /\
  ends_with_ci (lit "City.OBJ") (lit ".obj").
Proof.
  split; [vm_compute; reflexivity|]. split; [vm_compute; reflexivity|]. split; [vm_compute; reflexivity|].
  exists (lit "City"), (lit ".OBJ"). split; [reflexivity|]. constructor; [left; reflexivity|].
  assert (U : forall a b, (N_of_ascii b = N_of_ascii a + 32)%N -> (65 <=? N_of_ascii a)%N && (N_of_ascii a <=? 90)%N = true -> same_letter a b).
  { intros a b H1 H2. right; left. unfold upper. lia. }
  constructor; [now apply U|]. constructor; [now apply U|]. constructor; [now apply U|]. constructor.
Qed.

(** C34: OFF scene directories.  Writing creates exactly one file per name; the last
    building (the terrain comes last) of a given name wins *)
Theorem C34_write_directory : forall (S : Type) (to_mesh : unode S -> mesh) f h s, sh_fmt h = off -> fs_tree f ->
  is_map (sh_modes h) -> granted (sh_modes h) "write" -> no_nul (sh_path h) -> sh_path h <> [] ->
  f (sh_path h) = None -> f (removelast (sh_path h)) = Some Dir ->
  (forall u, In u (sc_buildings s ++ [sc_terrain s]) -> file_safe (u_name u)) ->
  exists f', scene_write to_mesh f h s = (f', Ok tt) /\ f' (sh_path h) = Some Dir /\
   (forall n, f' (sh_path h ++ [n]) <> None <-> exists u, In u (sc_buildings s ++ [sc_terrain s]) /\ n = u_name u ++ lit ".off") /\
   (forall pre u post, sc_buildings s ++ [sc_terrain s] = pre ++ u :: post -> (forall u', In u' post -> u_name u' <> u_name u) ->
      f' (sh_path h ++ [u_name u ++ lit ".off"]) = Some (File (off_write (to_mesh u)))).
Proof. exact C34_write_proof. Qed.
Print Assumptions C34_write_directory.
Theorem C34_off_scene_round_trip : forall (S : Type) (to_mesh : unode S -> mesh) (build : mesh -> outcome S) X f d mw mr s,
  fs_tree f -> is_map mw -> is_map mr -> granted mw "write" -> granted mr "read" ->
  no_nul d -> d <> [] -> f d = None -> f (removelast d) = Some Dir ->
  (forall u, In u (sc_terrain s :: sc_buildings s) -> file_safe (u_name u) /\ m_name (to_mesh u) = u_name u /\ storable (to_mesh u)) ->
  NoDup (map u_name (sc_buildings s)) -> u_name (sc_terrain s) = lit "terrain" ->
  (forall u, In u (sc_buildings s) -> u_name u <> lit "terrain") ->
  exists f', scene_write to_mesh f (mkSceneH d mw off) s = (f', Ok tt) /\
    forall ls, lists f' d ls -> exists bs ms t, Permutation bs (sc_buildings s) /\
      Forall2 (fun u x => m_name x = u_name u /\ rereads (to_mesh u) x) bs ms /\
      m_name t = lit "terrain" /\ rereads (to_mesh (sc_terrain s)) t /\
      scene_read X build f' ls (mkSceneH d mr off) = scene_make build ms t point_default 2154.
Proof. exact C34_round_trip_proof. Qed.
Print Assumptions C34_off_scene_round_trip.
Theorem C34_no_terrain_no_scene : forall (S : Type) (build : mesh -> outcome S) X f ls h s, sh_fmt h = off -> no_nul (sh_path h) ->
  ~ a_file f (sh_path h ++ [lit "terrain.off"]) -> scene_read X build f ls h <> Ok s.
Proof. exact C34_no_terrain_proof. Qed.
Print Assumptions C34_no_terrain_no_scene.
Theorem C34_no_terrain_throws : forall (S : Type) (build : mesh -> outcome S) X f ls h ms, sh_fmt h = off -> no_nul (sh_path h) ->
  f (sh_path h) = Some Dir -> ~ a_file f (sh_path h ++ [lit "terrain.off"]) -> read_off_entries f (sh_path h) (sh_modes h) ls = Ok ms ->
  scene_read X build f ls h = Throw FilesystemError.
Proof. exact C34_no_terrain_throws_proof. Qed.
Print Assumptions C34_no_terrain_throws.
(** a scene of two buildings over a surface that is the mesh itself: hypotheses hold *)
Definition no_externals : externals := mkExt (fun _ => None) (fun _ => []) (fun _ => None) (fun _ => None) (fun _ => None).
Definition town_mesh (u : unode mesh) : mesh := snd (mesh_set_name (u_surf u) (u_name u)).
Definition town : scene mesh := mkScene p123 2154 [mkUNode (lit "hall") p123 2154 mesh_b; mkUNode (lit "a.off") p123 2154 mesh_b]
  (mkUNode (lit "terrain") p123 2154 mesh_b).
Example C34_example : (fs_tree empty_fs /\ is_map (rw true true) /\ granted (rw true true) "write" /\ no_nul [lit "out"] /\
    empty_fs [lit "out"] = None /\ empty_fs (removelast [lit "out"]) = Some Dir) /\
  (forall u, In u (sc_terrain town :: sc_buildings town) -> file_safe (u_name u) /\ m_name (town_mesh u) = u_name u /\ storable (town_mesh u)) /\
  NoDup (map u_name (sc_buildings town)) /\
  exists f', scene_write town_mesh empty_fs (mkSceneH [lit "out"] (rw true true) off) town = (f', Ok tt) /\
    exists s, scene_read no_externals Ok f' [lit "hall.off"; lit "terrain.off"; lit "a.off.off"] (mkSceneH [lit "out"] (rw true true) off) = Ok s /\
      map u_name (sc_buildings s) = [lit "hall"; lit "a.off"] /\ sc_epsg s = 2154%N.
Proof.
  split. { repeat split; try reflexivity.
    - intros [|c p] H1 H2; [congruence|]. exfalso; apply H2; reflexivity.
    - repeat constructor; cbn; intuition discriminate.
    - right; left; reflexivity.
    - intros c [<-|[]]. cbn. intuition discriminate. }
  split.
  { assert (St : storable mesh_b).
    { split. { intros p [<-|[<-|[<-|[]]]]; repeat split; vm_compute; reflexivity. }
      split; [|split; reflexivity]. intros f [<-|[]]. split; [cbn; lia|]. split; [vm_compute; discriminate|].
      intros i Hi. cbn in Hi. repeat (destruct Hi as [<-|Hi]; [reflexivity|]). destruct Hi. }
    intros u [<-|[<-|[<-|[]]]]; (split; [repeat split; cbn; intuition discriminate|split; [reflexivity|exact St]]). }
  split. { repeat constructor; cbn; intuition discriminate. }
  eexists. split; [reflexivity|]. eexists. split; [vm_compute; reflexivity|]. split; reflexivity.
Qed.

(** C35: what get_nodes lists *)
Theorem C35_get_nodes : forall h x root rest k, th_file h = Some x -> f_nodes x = root :: rest ->
  t3ds_get_nodes h k = Ok (concat (repeat (map node_label (node_kids root)) k)).
Proof. exact C35_proof. Qed.
Print Assumptions C35_get_nodes.
Theorem C35_get_nodes_null : forall h k, (th_file h = None -> t3ds_get_nodes h k = UB) /\
  (forall x, th_file h = Some x -> f_nodes x = [] -> t3ds_get_nodes h k = match k with O => Ok [] | _ => UB end).
Proof. exact C35_null_proof. Qed.
Print Assumptions C35_get_nodes_null.
(** in particular it does not list the nodes of level k *)
Theorem C35_levels_refuted : exists h root, th_file h = Some (mk3ds [root] []) /\
  t3ds_get_nodes h 2 <> Ok (map node_label (at_depth 2 [root])) /\ t3ds_get_nodes h 0 <> Ok (map node_label (at_depth 0 [root])).
Proof. exact C35_refuted_proof. Qed.
Print Assumptions C35_levels_refuted.
(** a file with two roots, a named group and three meshes *)
Definition lmesh (s : string) (n : N) : lib3ds_mesh :=
  mkLMesh (lit s) (repeat (S754_zero false, S754_zero false, S754_zero false) 3) [mkLFace 0 1 n (S754_zero false) (S754_zero false) (S754_zero false)].
Definition sample_3ds : lib3ds_file :=
  mk3ds [Node (lit "scene") true [Node (lit "B1") true [Node (lit "Troof") true []; Node (lit "Fwall") true []; Node (lit "Tpart") true []]; Node (lit "Mland") true []];
         Node (lit "other") true []]
        [lmesh "Fwall" 2; lmesh "Troof" 2; lmesh "Tpart" 1; lmesh "Mland" 2].
Definition sample_handler : t3ds_handler := mk3dsH [lit "a.3ds"] (rw true false) (Some sample_3ds).
Example C35_example : t3ds_get_nodes sample_handler 2 = Ok [lit "B1"; lit "Mland"; lit "B1"; lit "Mland"].
Proof. reflexivity. Qed.

(** C36: collecting the meshes of a subtree by type letter *)
Theorem C36_subtree_meshes : forall h x s types m, th_file h = Some x -> node_meshes_by_type h s types = Ok m ->
  exists root rest n ms, f_nodes x = root :: rest /\ found_at root (c_str s) n /\ subtree_meshes (f_meshes x) n ms /\
    sorted_by (fun p => signed_code (fst p)) m /\
    (forall c, (In c types /\ exists lm, In lm ms /\ letter lm = c) <-> In c (map fst m)) /\
    (forall c rs, In (c, rs) m -> Forall2 (fun lm r => mesh_of_3ds lm = Ok r) (filter (fun lm => Ascii.eqb (letter lm) c) ms) rs).
Proof. exact C36_value_proof. Qed.
Print Assumptions C36_subtree_meshes.
Theorem C36_defined : forall h x s types root rest n ms, th_file h = Some x -> can_read (th_modes h) = true ->
  f_nodes x = root :: rest -> found_at root (c_str s) n -> subtree_meshes (f_meshes x) n ms -> (forall lm, In lm ms -> indices_fine lm) ->
  exists m, node_meshes_by_type h s types = Ok m.
Proof. exact C36_defined_proof. Qed.
Print Assumptions C36_defined.
Theorem C36_undefined : forall h s types, can_read (th_modes h) = true ->
  (th_file h = None \/ (exists x, th_file h = Some x /\ (f_nodes x = [] \/ exists root rest, f_nodes x = root :: rest /\ not_found root (c_str s)))) ->
  node_meshes_by_type h s types = UB.
Proof. exact C36_undefined_proof. Qed.
Print Assumptions C36_undefined.
Example C36_example : exists a b c, node_meshes_by_type sample_handler (lit "B1") ["T"; "F"; "M"]%char = Ok [("F"%char, [a]); ("T"%char, [b; c])] /\
  map m_name [a; b; c] = [lit "Fwall"; lit "Troof"; lit "Tpart"] /\ node_meshes_by_type sample_handler (lit "scene") ["T"]%char = UB.
Proof. do 3 eexists. split; [vm_compute; reflexivity|split; reflexivity]. Qed.

(** C37: node_meshes *)
Theorem C37_node_meshes_padding : forall h s types m, node_meshes_by_type h s types = Ok m ->
  node_meshes h s types = Ok (repeat mesh_empty (length (concat (map snd m))) ++ concat (map snd m)).
Proof. exact C37_proof. Qed.
Print Assumptions C37_node_meshes_padding.
Example C37_example : exists ms, node_meshes sample_handler (lit "B1") ["T"; "F"]%char = Ok ms /\
  map m_name ms = [[]; []; []; lit "Fwall"; lit "Troof"; lit "Tpart"].
Proof. eexists. split; [vm_compute; reflexivity|reflexivity]. Qed.

(** C38: the mesh of a building *)
Theorem C38_building_mesh : forall h s types m, node_meshes_by_type h s types = Ok m -> (sum_points (concat (map snd m)) <= two64)%N ->
  exists r, t3ds_mesh h s types = Ok r /\ m_name r = s /\ mesh_wf r /\
    polygons r = concat (map polygons (concat (map snd m))) /\ m_points r = concat (map m_points (concat (map snd m))).
Proof. exact C38_proof. Qed.
Print Assumptions C38_building_mesh.
Example C38_example : exists r, t3ds_mesh sample_handler (lit "B1") ["T"; "F"]%char = Ok r /\ m_name r = lit "B1" /\ length (m_points r) = 9%nat /\
  length (m_faces r) = 3%nat.
Proof. eexists. split; [vm_compute; reflexivity|repeat split]. Qed.

(** C39: the scene tree *)
Theorem C39_pivot_declared : forall X d p q, reach d ["Chantier_Bati3D"; "Pivot"]%string p ->
  (tree_pivot X d = Ok q <-> (exists ex ey ez, reach (elem_kids p) ["offset_x"]%string ex /\ reach (elem_kids p) ["offset_y"]%string ey /\
      reach (elem_kids p) ["offset_z"]%string ez /\ reads_double X ex (px q) /\ reads_double X ey (py q) /\ reads_double X ez (pz q))).
Proof. exact C39_pivot_declared_proof. Qed.
Print Assumptions C39_pivot_declared.
Theorem C39_pivot_default : forall X d r, reach d ["Chantier_Bati3D"]%string r -> none_named (elem_kids r) "Pivot" ->
  (forall b, tree_bbox X d = Ok b -> tree_pivot X d = Ok (mkPoint (ddiv (dadd (xmax b) (xmin b)) (dofZ 2)) (ddiv (dadd (ymax b) (ymin b)) (dofZ 2)) (ddiv (dadd (zmax b) (zmin b)) (dofZ 2)))) /\
  (forall e, tree_bbox X d = Throw e -> tree_pivot X d = Throw e) /\ (tree_bbox X d = UB -> tree_pivot X d = UB).
Proof. exact C39_pivot_default_proof. Qed.
Print Assumptions C39_pivot_default.
Theorem C39_bbox : forall X d b, tree_bbox X d = Ok b <->
  exists x0 x1 y0 y1 z0 z1, b = mkBbox x0 x1 y0 y1 z0 z1 /\
    declared_bound X d "Xmin" x0 /\ declared_bound X d "Xmax" x1 /\ declared_bound X d "Ymin" y0 /\
    declared_bound X d "Ymax" y1 /\ declared_bound X d "Zmin" z0 /\ declared_bound X d "Zmax" z1.
Proof. exact C39_bbox_proof. Qed.
Print Assumptions C39_bbox.
Theorem C39_bbox_null : forall X d, (tree_bbox X d = UB <-> exists pre k post, bound_names = pre ++ k :: post /\
    (forall k', In k' pre -> exists v, declared_bound X d k' v) /\ forall e, ~ reach d ["Chantier_Bati3D"; "Bbox"; k]%string e).
Proof. exact C39_bbox_undefined_proof. Qed.
Print Assumptions C39_bbox_null.
Theorem C39_epsg : forall X d n, tree_epsg X d = Ok n <-> exists e, reach d ["Chantier_Bati3D"; "Code_ESPG_horizontal"]%string e /\
  ((exists t v, elem_text e = Some t /\ text_unsigned X t = Some v /\ n = (v mod 65536)%N) \/
   ((forall t, elem_text e = Some t -> text_unsigned X t = None) /\ n = 2154%N)).
Proof. exact C39_epsg_proof. Qed.
Print Assumptions C39_epsg.
Theorem C39_building_ids : forall d ids, tree_building_ids d = Ok ids <->
  exists c bs, reach d ["Chantier_Bati3D"; "CityModel"]%string c /\ buildings_of c bs /\ Forall2 (fun e id => has_attr e "Id" id) bs ids.
Proof. exact C39_buildings_proof. Qed.
Print Assumptions C39_building_ids.
Theorem C39_terrain_id : forall d id, tree_terrain_id d = Ok id <->
  exists e, reach d ["Chantier_Bati3D"; "CityModel"; "TINRelief"]%string e /\ has_attr e "Id" id.
Proof. exact C39_terrain_proof. Qed.
Print Assumptions C39_terrain_id.
(** these three have no other failure than the null dereference *)
Theorem C39_missing_is_null : forall X d,
  ((forall n, tree_epsg X d <> Ok n) -> tree_epsg X d = UB) /\
  ((exists ids, tree_building_ids d = Ok ids) \/ tree_building_ids d = UB) /\ ((exists id, tree_terrain_id d = Ok id) \/ tree_terrain_id d = UB).
Proof. intros X d. split; [apply C39_epsg_undefined_proof|apply C39_ids_undefined_proof]. Qed.
Print Assumptions C39_missing_is_null.
Definition leaf (n : string) (t : string) : xelem := XElem (lit n) [] (Some (lit t)) [].
Definition build_el (id : string) : xelem := XElem (lit "Building") [(lit "Name", lit "x"); (lit "Id", lit id)] None [].
(** externals reading "0" to "9" *)
Definition digit_ext : externals := mkExt (fun _ => None) (fun _ => []) (fun _ => None)
  (fun t => match t with [c] => Some (dofZ (Z.of_N (N_of_ascii c) - 48)) | _ => None end)
  (fun t => match t with [c] => Some (N_of_ascii c + 65536)%N | _ => None end).
Definition sample_tree (pivot : list xelem) : list xelem := [XElem (lit "Other") [] None [];
  XElem (lit "Chantier_Bati3D") [] None ([XElem (lit "Bbox") [] None [leaf "Xmin" "0"; leaf "Ymin" "1"; leaf "Zmin" "2"; leaf "Xmax" "4"; leaf "Ymax" "6"; leaf "Zmax" "3"];
    leaf "Code_ESPG_horizontal" "A"; XElem (lit "CityModel") [] None [build_el "B7"; XElem (lit "TINRelief") [(lit "Id", lit "T")] None []; build_el "B2"]] ++ pivot)].
Example C39_example :
  tree_pivot digit_ext (sample_tree []) = Ok (mkPoint (dofZ 2) (ddiv (dofZ 7) (dofZ 2)) (ddiv (dofZ 5) (dofZ 2))) /\
  tree_pivot digit_ext (sample_tree [XElem (lit "Pivot") [] None [leaf "offset_x" "7"; leaf "offset_y" "8"; leaf "offset_z" "9"]]) = Ok (mkPoint (dofZ 7) (dofZ 8) (dofZ 9)) /\
  tree_epsg digit_ext (sample_tree []) = Ok 65%N /\ tree_building_ids (sample_tree []) = Ok [lit "B7"; lit "B2"] /\ tree_terrain_id (sample_tree []) = Ok (lit "T") /\
  tree_pivot digit_ext (sample_tree [XElem (lit "Pivot") [] None [leaf "offset_x" "7"]]) = UB /\
  tree_pivot digit_ext (sample_tree [XElem (lit "Pivot") [] None [leaf "offset_x" "xx"]]) = Throw RuntimeError.
Proof. repeat split; vm_compute; reflexivity. Qed.
