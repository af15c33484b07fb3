(** * Handlers: model of the file handlers and of the scene readers and writers.

    src/lib/io/io.cpp, io_off.cpp, io_obj.cpp, io_3ds.cpp, io_scene_tree.cpp, io_scene.cpp,
    io_raster.cpp, io_vector.cpp and the constructors of src/lib/scene/scene.cpp.

    The operating system, lib3ds, TinyXML and CGAL's surface construction are outside the
    project.  The file system is a map from paths to entries (no permissions, no length
    limits, no links, "." and ".." not resolved, no concurrent process); the other three
    are arguments of the functions ([externals], [build]). *)
From Verif Require Import Base Dbl Decimal Shadow Streams.

(** ** Access modes *)
(** std::map<std::string,bool> modes; [modes["read"]] inserts false for a missing key.
    The map is given as its list of pairs (a later pair with an equal key is ignored, as
    std::map's insertion does). *)
Definition modes := list (str * bool).
Fixpoint mode_of (m : modes) (k : str) : bool :=
  match m with
  | [] => false
  | (k', b) :: m => if str_eqb k' k then b else mode_of m k
  end.
Definition s_read : str := ["r"; "e"; "a"; "d"]%char.
Definition s_write : str := ["w"; "r"; "i"; "t"; "e"]%char.
Definition can_read (m : modes) : bool := mode_of m s_read.
Definition can_write (m : modes) : bool := mode_of m s_write.

(** ** Paths and file system *)
(** a path is the list of its components; [] is the starting directory *)
Definition path := list str.
Definition path_eqb : path -> path -> bool := list_eqb str_eqb.
Inductive entry := Dir | File (content : str).
Definition fs := path -> option entry.
Definition fs_set (f : fs) (p : path) (e : entry) : fs := fun q => if path_eqb q p then Some e else f q.
Definition ch_slash : ascii := "/"%char.
(** system calls take [filepath.string().c_str()]: cut at the first NUL *)
Fixpoint os_path (p : path) : path :=
  match p with
  | [] => []
  | c :: p => if existsb (Ascii.eqb zero) c then [c_str c] else c :: os_path p
  end.
(** boost::filesystem::is_regular_file / is_directory / exists *)
Definition is_regular_file (f : fs) (p : path) : bool :=
  match f (os_path p) with Some (File _) => true | _ => false end.
Definition is_directory (f : fs) (p : path) : bool :=
  match f (os_path p) with Some Dir => true | _ => false end.
Definition fs_exists (f : fs) (p : path) : bool :=
  match f (os_path p) with Some _ => true | None => false end.
(** boost path / string: the string is split at slashes *)
Fixpoint split_slash (cur : str) (s : str) : list str :=
  match s with
  | [] => match cur with [] => [] | _ => [rev cur] end
  | c :: s => if Ascii.eqb c ch_slash
              then match cur with [] => split_slash [] s | _ => rev cur :: split_slash [] s end
              else split_slash (c :: cur) s
  end.
Definition path_join (d : path) (s : str) : path := d ++ split_slash [] s.
(** boost path::filename, parent_path *)
Definition filename (p : path) : str := last p [].
Definition parent_path (p : path) : path := removelast p.
(** split at the last dot: (before, from the dot on) *)
Fixpoint split_dot (s : str) : option (str * str) :=
  match s with
  | [] => None
  | c :: s' => match split_dot s' with
               | Some (a, b) => Some (c :: a, b)
               | None => if Ascii.eqb c ch_dot then Some ([], c :: s') else None
               end
  end.
Definition dots_only (s : str) : bool := str_eqb s [ch_dot] || str_eqb s [ch_dot; ch_dot].
(** boost path::stem and path::extension (version 3): "." and ".." have no extension *)
Definition stem (p : path) : str :=
  let n := filename p in
  if dots_only n then n else match split_dot n with Some (a, _) => a | None => n end.
Definition extension (p : path) : str :=
  let n := filename p in
  if dots_only n then [] else match split_dot n with Some (_, b) => b | None => [] end.
(** boost::iequals in the "C" locale *)
Definition to_lower (c : ascii) : ascii :=
  let n := N_of_ascii c in if ((65 <=? n) && (n <=? 90))%N then ascii_of_N (n + 32) else c.
Definition iequals (a b : str) : bool := str_eqb (map to_lower a) (map to_lower b).

(** std::fstream(path, ios::out): succeeds iff the parent is a directory and the path is
    not one; a failed stream ignores all output.  The content is what was sent to it. *)
Definition can_create (f : fs) (p : path) : bool :=
  match os_path p with
  | [] => false
  | q => match f (removelast q), f q with
         | Some Dir, Some Dir => false
         | Some Dir, _ => true
         | _, _ => false
         end
  end.
Definition fwrite (f : fs) (p : path) (content : str) : fs :=
  if can_create f p then fs_set f (os_path p) (File content) else f.
(** std::fstream(path, ios::in) on a regular file *)
Definition fread (f : fs) (p : path) : str :=
  match f (os_path p) with Some (File c) => c | _ => [] end.

(** ** OFFHandler, io_off.cpp *)
(** OFFHandler::read, io_off.cpp:20-50 *)
Definition off_handler_read (f : fs) (p : path) (m : modes) : outcome mesh :=
  if can_read m then
    if is_regular_file f p then
      let* r := off_read (fread f p) in
      Ok (fst (mesh_set_name r (stem p)))
    else Throw FilesystemError
  else Throw FilesystemError.
(** OFFHandler::write, io_off.cpp:52-67: (file system afterwards, result) *)
Definition off_handler_write (f : fs) (p : path) (m : modes) (x : mesh) : fs * outcome unit :=
  if can_write m then (fwrite f p (off_write x), Ok tt) else (f, Throw FilesystemError).

(** ** WaveObjHandler, io_obj.cpp *)
Record obj_handler := mkObjH { oh_path : path; oh_modes : modes; oh_meshes : list mesh }.
(** WaveObjHandler::read, io_obj.cpp:39-65: the handler's meshes are replaced *)
Definition obj_handler_read (f : fs) (h : obj_handler) : outcome obj_handler :=
  if can_read (oh_modes h) then
    if is_regular_file f (oh_path h) then
      let* ms := obj_read (fread f (oh_path h)) in
      Ok (mkObjH (oh_path h) (oh_modes h) ms)
    else Throw FilesystemError
  else Throw FilesystemError.
(** WaveObjHandler::write, io_obj.cpp:67-82: the file is created before the meshes are
    formatted *)
Definition obj_handler_write (f : fs) (h : obj_handler) : fs * outcome unit :=
  if can_write (oh_modes h) then
    match obj_write (oh_meshes h) with
    | Ok t => (fwrite f (oh_path h) t, Ok tt)
    | Throw e => (fwrite f (oh_path h) [], Throw e)
    | UB => (fwrite f (oh_path h) [], UB)
    end
  else (f, Throw FilesystemError).
(** std::accumulate(..., Mesh()) with operator+: each step move-assigns the sum *)
Definition sum_meshes (l : list mesh) : mesh := fold_left mesh_add l mesh_empty.
(** WaveObjHandler::exclude_mesh, io_obj.cpp:84-104: (handler afterwards, result).
    stable_partition keeps the relative order of both groups. *)
Definition exclude_mesh (h : obj_handler) (n : str) : obj_handler * mesh :=
  let keep := filter (fun x => negb (str_eqb (m_name x) n)) (oh_meshes h) in
  let out := filter (fun x => str_eqb (m_name x) n) (oh_meshes h) in
  (mkObjH (oh_path h) (oh_modes h) keep, snd (mesh_set_name (sum_meshes out) n)).
(** WaveObjHandler::add_mesh, io_obj.cpp:105-108 *)
Definition add_mesh (h : obj_handler) (x : mesh) : obj_handler :=
  mkObjH (oh_path h) (oh_modes h) (oh_meshes h ++ [mesh_copy x]).

(** ** Scene and UNode *)
(** Members of UNode, src/include/scene/unode.h; [surf] stands for the members [surface]
    and [bounding_box], which CGAL computes from the mesh *)
Record unode (S : Type) := mkUNode { u_name : str; u_ref : point; u_epsg : N; u_surf : S }.
Arguments mkUNode {S}.
Arguments u_name {S}.
Arguments u_ref {S}.
Arguments u_epsg {S}.
Arguments u_surf {S}.
(** Members of Scene, src/include/scene/scene.h *)
Record scene (S : Type) := mkScene { sc_pivot : point; sc_epsg : N; sc_buildings : list (unode S); sc_terrain : unode S }.
Arguments mkScene {S}.
Arguments sc_pivot {S}.
Arguments sc_epsg {S}.
Arguments sc_buildings {S}.
Arguments sc_terrain {S}.
(** UNode::UNode(Mesh, Point, epsg), unode.cpp:93-109; [build] is lines 100-108 (CGAL) *)
Definition unode_of_mesh {S} (build : mesh -> outcome S) (ref : point) (epsg : N) (x : mesh) : outcome (unode S) :=
  let* s := build x in Ok (mkUNode (m_name x) ref epsg s).
(** Scene::Scene(meshes, terrain, pivot, epsg), scene.cpp:12-31 *)
Definition scene_make {S} (build : mesh -> outcome S) (bs : list mesh) (t : mesh) (pivot : point) (epsg : N) : outcome (scene S) :=
  let* us := omapM (unode_of_mesh build pivot epsg) bs in
  let* ut := unode_of_mesh build pivot epsg t in
  Ok (mkScene pivot epsg us ut).
(** default arguments of the constructor, scene.h *)
Definition scene_make_default {S} (build : mesh -> outcome S) (bs : list mesh) (t : mesh) : outcome (scene S) :=
  scene_make build bs t point_default 2154.
(** Scene::identifiers, scene.cpp:82-95 *)
Definition identifiers {S} (s : scene S) : list str := map u_name (sc_buildings s).

Definition s_terrain : str := ["t"; "e"; "r"; "r"; "a"; "i"; "n"]%char.
(** WaveObjHandler::get_scene, io_obj.cpp:110-117: (handler afterwards, scene) *)
Definition obj_get_scene {S} (build : mesh -> outcome S) (f : fs) (h : obj_handler) : outcome (obj_handler * scene S) :=
  let* h := obj_handler_read f h in
  let '(h, t) := exclude_mesh h s_terrain in
  let* s := scene_make_default build (oh_meshes h) t in
  Ok (h, s).
(** WaveObjHandler::WaveObjHandler(path, scene, modes), io_obj.cpp:18-31; [to_mesh] is
    shadow::Mesh(UNode), mesh.cpp:92-94 *)
Definition obj_handler_of_scene {S} (to_mesh : unode S -> mesh) (p : path) (s : scene S) (m : modes) : obj_handler :=
  mkObjH p m (map to_mesh (sc_buildings s) ++ [to_mesh (sc_terrain s)]).

(** ** T3DSHandler, io_3ds.cpp *)
(** Lib3dsNode: name, "is an object node", children in sibling order *)
Inductive node := Node (n_name : str) (n_object : bool) (n_childs : list node).
Definition n_name (n : node) : str := let 'Node s _ _ := n in s.
Definition n_childs (n : node) : list node := let 'Node _ _ l := n in l.
(** Lib3dsFile: the list [nodes] (first root and its siblings) and the list [meshes] *)
Record lib3ds_file := mk3ds { f_nodes : list node; f_meshes : list lib3ds_mesh }.
(** XML element: name, attributes, leading text, child elements in document order *)
Inductive xelem := XElem (x_name : str) (x_attrs : list (str * str)) (x_text : option str) (x_kids : list xelem).
(** external libraries, as functions of file contents and texts *)
Record externals := mkExt {
  load_3ds : str -> option lib3ds_file;   (* lib3ds_file_load; None = null pointer *)
  save_3ds : lib3ds_file -> str;          (* lib3ds_file_save *)
  load_xml : str -> option (list xelem);  (* XMLDocument::LoadFile: top-level elements *)
  text_double : str -> option dbl;        (* XMLUtil::ToDouble *)
  text_unsigned : str -> option N         (* XMLUtil::ToUnsigned, an unsigned int *)
}.

Record t3ds_handler := mk3dsH { th_path : path; th_modes : modes; th_file : option lib3ds_file }.
(** T3DSHandler::T3DSHandler, io_3ds.cpp:12-44.  lib3ds_file_new gives an empty file. *)
Definition t3ds_make (X : externals) (f : fs) (p : path) (m : modes) : outcome t3ds_handler :=
  if can_read m && can_write m then Throw FilesystemError
  else if negb (can_read m) && negb (can_write m) then Throw FilesystemError
  else if can_read m then
    if is_regular_file f p then Ok (mk3dsH p m (load_3ds X (fread f p))) else Throw FilesystemError
  else Ok (mk3dsH p m (Some (mk3ds [] []))).
(** dereferencing [file] *)
Definition t3ds_file (h : t3ds_handler) : outcome lib3ds_file :=
  match th_file h with Some x => Ok x | None => UB end.
(** T3DSHandler::get_meshes, io_3ds.cpp:93-114 *)
Definition t3ds_get_meshes (h : t3ds_handler) : outcome (list mesh) :=
  if can_read (th_modes h) then let* x := t3ds_file h in omapM mesh_of_3ds (f_meshes x)
  else Throw FilesystemError.

(** T3DSHandler::get_nodes, io_3ds.cpp:221-248.  The statement [p_nodes = childs] at 232
    is indented like the loop body but is outside of it: every round visits the same
    [p_nodes] = the first root, and appends to [childs].  Empty [nodes] is a null pointer,
    dereferenced as soon as one round runs.  Line 235 never throws (l = level there). *)
Fixpoint get_nodes_rounds (level : nat) (p_nodes : list (option node)) (childs : list node) : outcome (list node) :=
  match level with
  | O => Ok childs
  | S l =>
    let* childs := ofold (fun acc n => match n with Some n => Ok (acc ++ n_childs n) | None => UB end) p_nodes childs in
    get_nodes_rounds l p_nodes childs
  end.
Definition t3ds_get_nodes (h : t3ds_handler) (level : nat) : outcome (list str) :=
  let* x := t3ds_file h in
  let* l := get_nodes_rounds level [hd_error (f_nodes x)] [] in
  Ok (map n_name l).

(** lib3ds_node_by_name(root, name, LIB3DS_OBJECT_NODE) (lib3ds 1.3): first strict
    descendant of [root] in pre-order that is an object node of that name *)
Fixpoint node_by_name (n : node) (s : str) : option node :=
  let 'Node _ _ l := n in
  (fix go (l : list node) : option node :=
     match l with
     | [] => None
     | c :: l =>
       let 'Node cn co _ := c in
       if co && str_eqb cn (c_str s) then Some c
       else match node_by_name c s with Some r => Some r | None => go l end
     end) l.
(** lib3ds_file_mesh_by_name: first mesh of that name *)
Definition mesh_by_name (x : lib3ds_file) (s : str) : option lib3ds_mesh :=
  find (fun m => str_eqb (lm_name m) s) (f_meshes x).
(** first character of a C string *)
Definition first_char (s : str) : ascii := match s with [] => zero | c :: _ => c end.
(** char is signed: order of std::map<char,...> and std::set<char> *)
Definition char_code (c : ascii) : Z := let n := Z.of_N (N_of_ascii c) in if (n <? 128)%Z then n else (n - 256)%Z.
(** meshes[c].push_back(m) on a std::map<char, deque<Mesh>> *)
Fixpoint type_push {A} (c : ascii) (a : A) (m : list (ascii * list A)) : list (ascii * list A) :=
  match m with
  | [] => [(c, [a])]
  | (d, l) :: m' =>
    if (char_code c <? char_code d)%Z then (c, [a]) :: m
    else if (char_code d <? char_code c)%Z then (d, l) :: type_push c a m'
    else (d, l ++ [a]) :: m'
  end.
Definition char_in (c : ascii) (types : list ascii) : bool := existsb (Ascii.eqb c) types.
(** T3DSHandler::node_meshes(Node, map, types), io_3ds.cpp:276-289: children first *)
Fixpoint node_meshes_rec (x : lib3ds_file) (types : list ascii) (n : node) (m : list (ascii * list mesh)) : outcome (list (ascii * list mesh)) :=
  let 'Node s _ l := n in
  let* m := (fix go (l : list node) (m : list (ascii * list mesh)) : outcome (list (ascii * list mesh)) :=
     match l with [] => Ok m | c :: l => let* m := node_meshes_rec x types c m in go l m end) l m in
  match mesh_by_name x s with
  | None => Ok m
  | Some lm => if char_in (first_char (lm_name lm)) types
               then let* r := mesh_of_3ds lm in Ok (type_push (first_char (lm_name lm)) r m)
               else Ok m
  end.
(** T3DSHandler::node_meshes_by_type, io_3ds.cpp:174-191.  [file->nodes] null and an
    unknown name (null result) are both dereferenced: undefined. *)
Definition node_meshes_by_type (h : t3ds_handler) (s : str) (types : list ascii) : outcome (list (ascii * list mesh)) :=
  if can_read (th_modes h) then
    let* x := t3ds_file h in
    match f_nodes x with
    | [] => UB
    | root :: _ => match node_by_name root s with
                   | None => UB
                   | Some n => node_meshes_rec x types n []
                   end
    end
  else Throw FilesystemError.
(** T3DSHandler::node_meshes(name, types), io_3ds.cpp:156-173: the vector is created with
    as many default meshes as there are results, then the results are inserted at its end *)
Definition node_meshes (h : t3ds_handler) (s : str) (types : list ascii) : outcome (list mesh) :=
  let* m := node_meshes_by_type h s types in
  let total := fold_left (fun t p => (t + length (snd p))%nat) m 0%nat in
  Ok (fold_left (fun v p => v ++ snd p) m (repeat mesh_empty total)).
(** T3DSHandler::mesh_by_type, io_3ds.cpp:206-219 *)
Definition t3ds_mesh_by_type (h : t3ds_handler) (s : str) (types : list ascii) : outcome (list (ascii * mesh)) :=
  let* m := node_meshes_by_type h s types in
  Ok (map (fun p => (fst p, sum_meshes (snd p))) m).
(** T3DSHandler::mesh, io_3ds.cpp:192-205 *)
Definition t3ds_mesh (h : t3ds_handler) (s : str) (types : list ascii) : outcome mesh :=
  let* m := t3ds_mesh_by_type h s types in
  Ok (snd (mesh_set_name (sum_meshes (map snd m)) s)).
(** T3DSHandler::level_meshes, io_3ds.cpp:116-130 *)
Definition level_meshes (h : t3ds_handler) (level : nat) (types : list ascii) : outcome (list mesh) :=
  let* ns := t3ds_get_nodes h level in omapM (fun s => t3ds_mesh h s types) ns.
(** T3DSHandler::level_terrain, io_3ds.cpp:131-140 *)
Definition level_terrain (h : t3ds_handler) (level : nat) : outcome mesh :=
  let* ms := level_meshes h level ["M"%char] in
  Ok (snd (mesh_set_name (sum_meshes ms) s_terrain)).
(** T3DSHandler::raw_level_meshes, io_3ds.cpp:141-155 *)
Definition raw_level_meshes (h : t3ds_handler) (level : nat) (types : list ascii) : outcome (list (list mesh)) :=
  let* ns := t3ds_get_nodes h level in omapM (fun s => node_meshes h s types) ns.
(** T3DSHandler::write_meshes, io_3ds.cpp:250-274: [meshes[0]] of an empty vector *)
Definition write_meshes (X : externals) (f : fs) (h : t3ds_handler) (ms : list mesh) : fs * outcome unit :=
  if can_write (th_modes h) then
    match ms, th_file h with
    | [], _ => (f, UB)
    | _, None => (f, UB)
    | _, Some x =>
      match omapM mesh_to_3ds ms with
      | Ok ls => (fwrite f (th_path h) (save_3ds X (mk3ds (f_nodes x) ls)), Ok tt)
      | Throw e => (f, Throw e)
      | UB => (f, UB)
      end
    end
  else (f, Throw FilesystemError).

(** ** SceneTreeHandler, io_scene_tree.cpp *)
Definition x_name (e : xelem) : str := let 'XElem n _ _ _ := e in n.
Definition x_attrs (e : xelem) : list (str * str) := let 'XElem _ a _ _ := e in a.
Definition x_text (e : xelem) : option str := let 'XElem _ _ t _ := e in t.
Definition x_kids (e : xelem) : list xelem := let 'XElem _ _ _ k := e in k.
(** SceneTreeHandler::SceneTreeHandler, io_scene_tree.cpp:11-17 *)
Definition tree_make (X : externals) (f : fs) (p : path) : outcome (list xelem) :=
  match f (os_path p) with
  | Some (File c) => match load_xml X c with Some d => Ok d | None => Throw RuntimeError end
  | _ => Throw RuntimeError
  end.
(** FirstChildElement(name) *)
Definition first_child (l : list xelem) (n : str) : option xelem := find (fun e => str_eqb (x_name e) n) l.
(** the same, immediately dereferenced *)
Definition child (l : list xelem) (n : str) : outcome xelem :=
  match first_child l n with Some e => Ok e | None => UB end.
(** QueryDoubleText, with the error turned into runtime_error *)
Definition query_double (X : externals) (e : xelem) : outcome dbl :=
  match x_text e with
  | Some t => match text_double X t with Some d => Ok d | None => Throw RuntimeError end
  | None => Throw RuntimeError
  end.
(** Attribute("Id") converted to std::string: null is undefined *)
Fixpoint attribute (l : list (str * str)) (k : str) : option str :=
  match l with [] => None | (k', v) :: l => if str_eqb k' k then Some v else attribute l k end.
Definition id_of (e : xelem) (k : str) : outcome str :=
  match attribute (x_attrs e) k with Some v => Ok v | None => UB end.

Definition k_root : str := ["C";"h";"a";"n";"t";"i";"e";"r";"_";"B";"a";"t";"i";"3";"D"]%char.
Definition k_bbox : str := ["B";"b";"o";"x"]%char.
Definition k_xmin : str := ["X";"m";"i";"n"]%char.
Definition k_xmax : str := ["X";"m";"a";"x"]%char.
Definition k_ymin : str := ["Y";"m";"i";"n"]%char.
Definition k_ymax : str := ["Y";"m";"a";"x"]%char.
Definition k_zmin : str := ["Z";"m";"i";"n"]%char.
Definition k_zmax : str := ["Z";"m";"a";"x"]%char.
Definition k_pivot : str := ["P";"i";"v";"o";"t"]%char.
Definition k_ox : str := ["o";"f";"f";"s";"e";"t";"_";"x"]%char.
Definition k_oy : str := ["o";"f";"f";"s";"e";"t";"_";"y"]%char.
Definition k_oz : str := ["o";"f";"f";"s";"e";"t";"_";"z"]%char.
Definition k_epsg : str := ["C";"o";"d";"e";"_";"E";"S";"P";"G";"_";"h";"o";"r";"i";"z";"o";"n";"t";"a";"l"]%char.
Definition k_model : str := ["C";"i";"t";"y";"M";"o";"d";"e";"l"]%char.
Definition k_building : str := ["B";"u";"i";"l";"d";"i";"n";"g"]%char.
Definition k_relief : str := ["T";"I";"N";"R";"e";"l";"i";"e";"f"]%char.
Definition k_id : str := ["I";"d"]%char.

(** one query of io_scene_tree.cpp:30-47 *)
Definition bbox_value (X : externals) (d : list xelem) (k : str) : outcome dbl :=
  let* r := child d k_root in let* b := child (x_kids r) k_bbox in
  let* e := child (x_kids b) k in query_double X e.
(** SceneTreeHandler::bbox, io_scene_tree.cpp:21-50; Bbox(x_min,x_max,...), bbox.cpp:25-34 *)
Definition tree_bbox (X : externals) (d : list xelem) : outcome bbox :=
  let* x0 := bbox_value X d k_xmin in let* x1 := bbox_value X d k_xmax in
  let* y0 := bbox_value X d k_ymin in let* y1 := bbox_value X d k_ymax in
  let* z0 := bbox_value X d k_zmin in let* z1 := bbox_value X d k_zmax in
  Ok (mkBbox x0 x1 y0 y1 z0 z1).
(** (max + min) / 2. *)
Definition dtwo : dbl := dofZ 2.
Definition middle (lo hi : dbl) : dbl := ddiv (dadd hi lo) dtwo.
(** SceneTreeHandler::pivot, io_scene_tree.cpp:51-78 *)
Definition tree_pivot (X : externals) (d : list xelem) : outcome point :=
  let* r := child d k_root in
  match first_child (x_kids r) k_pivot with
  | Some p =>
    let* ex := child (x_kids p) k_ox in let* x := query_double X ex in
    let* ey := child (x_kids p) k_oy in let* y := query_double X ey in
    let* ez := child (x_kids p) k_oz in let* z := query_double X ez in
    Ok (mkPoint x y z)
  | None =>
    let* b := tree_bbox X d in
    Ok (mkPoint (middle (xmin b) (xmax b)) (middle (ymin b) (ymax b)) (middle (zmin b) (zmax b)))
  end.
(** SceneTreeHandler::epsg_index, io_scene_tree.cpp:79-86: cast to unsigned short *)
Definition tree_epsg (X : externals) (d : list xelem) : outcome N :=
  let* r := child d k_root in let* e := child (x_kids r) k_epsg in
  let code := match x_text e with
              | Some t => match text_unsigned X t with Some n => n | None => 2154%N end
              | None => 2154%N end in
  Ok (code mod 65536)%N.
(** SceneTreeHandler::building_ids, io_scene_tree.cpp:87-99 *)
Definition tree_building_ids (d : list xelem) : outcome (list str) :=
  let* r := child d k_root in let* c := child (x_kids r) k_model in
  omapM (fun e => id_of e k_id) (filter (fun e => str_eqb (x_name e) k_building) (x_kids c)).
(** SceneTreeHandler::terrain_id, io_scene_tree.cpp:100-105 *)
Definition tree_terrain_id (d : list xelem) : outcome str :=
  let* r := child d k_root in let* c := child (x_kids r) k_model in
  let* e := child (x_kids c) k_relief in id_of e k_id.

(** T3DSHandler::get_scene(tree, from_xml), io_3ds.cpp:51-83.  The constructor's arguments
    are evaluated in an unspecified order; the model evaluates them left to right. *)
Definition t3ds_get_scene_tree {S} (X : externals) (build : mesh -> outcome S) (h : t3ds_handler) (d : list xelem) (from_xml : bool) : outcome (scene S) :=
  if from_xml then
    let* ids := tree_building_ids d in
    let* bs := omapM (fun s => t3ds_mesh h s ["F"; "T"]%char) ids in
    let* ti := tree_terrain_id d in
    let* t := t3ds_mesh h ti ["M"%char] in
    let* pv := tree_pivot X d in
    let* ep := tree_epsg X d in
    scene_make build bs (snd (mesh_set_name t s_terrain)) pv ep
  else
    let* bs := level_meshes h 1 ["F"; "T"]%char in
    let* t := level_terrain h 1 in
    let* pv := tree_pivot X d in
    let* ep := tree_epsg X d in
    scene_make build bs t pv ep.
(** T3DSHandler::get_scene(void), io_3ds.cpp:84-90 *)
Definition t3ds_get_scene {S} (build : mesh -> outcome S) (h : t3ds_handler) : outcome (scene S) :=
  let* bs := level_meshes h 1 ["F"; "T"]%char in
  let* t := level_terrain h 1 in
  scene_make_default build bs t.

(** ** SceneHandler, io_scene.cpp *)
Inductive scene_fmt := t3ds_xml | t3ds | off | obj.
(** supported_formats and supported_extentions, io_scene.cpp:18-19, in enum order *)
Definition supported_formats : list str :=
  [["3";"D";"S";" ";"X";"M";"L"]; ["3";"D";"S"]; ["O";"F";"F"]; ["O";"B";"J"]]%char.
Definition supported_extentions : list str :=
  [[".";"3";"d";"s"]; [".";"3";"d";"s"]; [".";"o";"f";"f"]; [".";"o";"b";"j"]]%char.
Definition fmt_index (f : scene_fmt) : nat := match f with t3ds_xml => 0%nat | t3ds => 1%nat | off => 2%nat | obj => 3%nat end.
Definition fmt_of_index (i : nat) : scene_fmt := match i with 0%nat => t3ds_xml | 1%nat => t3ds | 2%nat => off | _ => obj end.
Fixpoint str_find (s : str) (l : list str) : option nat :=
  match l with [] => None | a :: l => if str_eqb a s then Some 0%nat else option_map S (str_find s l) end.
(** SceneHandler::scene_format, io_scene.cpp:153-164 *)
Definition scene_format (s : str) : outcome scene_fmt :=
  match str_find s supported_formats with Some i => Ok (fmt_of_index i) | None => Throw RuntimeError end.
(** SceneHandler::extension, io_scene.cpp:165-168 *)
Definition format_extension (f : scene_fmt) : outcome str := vat supported_extentions (fmt_index f).
(** SceneHandler::check_extension, io_scene.cpp:170-179 *)
Definition check_extension (p : path) (f : scene_fmt) : outcome unit :=
  let* e := format_extension f in
  if iequals (extension p) e then Ok tt else Throw RuntimeError.
Record scene_handler := mkSceneH { sh_path : path; sh_modes : modes; sh_fmt : scene_fmt }.
(** SceneHandler::SceneHandler(path, modes, SceneFormat), io_scene.cpp:25-41 *)
Definition scene_handler_make (p : path) (m : modes) (f : scene_fmt) : outcome scene_handler :=
  let* _ := match f with off => Ok tt | _ => check_extension p f end in
  Ok (mkSceneH p m f).
(** SceneHandler::SceneHandler(path, modes, string), io_scene.cpp:22-24 *)
Definition scene_handler_named (p : path) (m : modes) (s : str) : outcome scene_handler :=
  let* f := scene_format s in scene_handler_make p m f.

(** the loop of io_scene.cpp:63-76 over the directory entries [ls] (names), in the order
    the operating system gives them *)
Fixpoint read_off_entries (f : fs) (d : path) (m : modes) (ls : list str) : outcome (list mesh) :=
  match ls with
  | [] => Ok []
  | n :: ls =>
    let p := d ++ [n] in
    let* e := format_extension off in
    if is_regular_file f p && iequals (extension p) e && negb (str_eqb (stem p) s_terrain)
    then let* x := off_handler_read f p m in let* r := read_off_entries f d m ls in Ok (x :: r)
    else read_off_entries f d m ls
  end.
Definition s_terrain_off : str := s_terrain ++ [".";"o";"f";"f"]%char.
(** stem + ".XML", io_scene.cpp:89-91 *)
Definition xml_path (p : path) : path := path_join (parent_path p) (stem p ++ [".";"X";"M";"L"]%char).
(** std::runtime_error and its subclasses (boost filesystem_error and ios_base::failure
    are system_errors) *)
Definition is_runtime_error (e : exn) : bool :=
  match e with
  | RuntimeError | OverflowError | RangeError | IosFailure | FilesystemError => true
  | LogicError | OutOfRange | LengthError | BadCast => false
  end.
(** SceneHandler::read, io_scene.cpp:45-115.  In the 3DS cases the handler object and the
    scene tree are created in an unspecified order: the model creates the handler first
    (if both throw, the exceptions are both runtime errors). *)
Definition scene_read {S} (X : externals) (build : mesh -> outcome S) (f : fs) (ls : list str) (h : scene_handler) : outcome (scene S) :=
  let p := sh_path h in let m := sh_modes h in
  match sh_fmt h with
  | off =>
    if negb (is_directory f p) then Throw RuntimeError
    else
      let* bs := read_off_entries f p m ls in
      let* t := off_handler_read f (path_join p s_terrain_off) m in
      scene_make_default build bs t
  | obj => let* (_, s) := obj_get_scene build f (mkObjH p m []) in Ok s
  | t3ds_xml =>
    let* t := t3ds_make X f p m in
    let* d := tree_make X f (xml_path p) in
    t3ds_get_scene_tree X build t d true
  | t3ds =>
    let first := (let* t := t3ds_make X f p m in
                  let* d := tree_make X f (xml_path p) in
                  t3ds_get_scene_tree X build t d false) in
    match first with
    | Throw e => if is_runtime_error e
                 then let* t := t3ds_make X f p m in t3ds_get_scene build t
                 else Throw e
    | r => r
    end
  end.

(** boost::filesystem::create_directory: throws if it cannot *)
Definition create_directory (f : fs) (p : path) : fs * outcome unit :=
  match os_path p with
  | [] => (f, Throw FilesystemError)
  | q => match f (removelast q), f q with
         | Some Dir, None => (fs_set f q Dir, Ok tt)
         | _, Some Dir => (f, Ok tt)
         | _, _ => (f, Throw FilesystemError)
         end
  end.
(** the loop of io_scene.cpp:127-133 *)
Fixpoint write_off_files {S} (to_mesh : unode S -> mesh) (f : fs) (d : path) (m : modes) (us : list (unode S)) : fs * outcome unit :=
  match us with
  | [] => (f, Ok tt)
  | u :: us =>
    match format_extension off with
    | Ok e =>
      match off_handler_write f (path_join d (u_name u ++ e)) m (to_mesh u) with
      | (f, Ok _) => write_off_files to_mesh f d m us
      | r => r
      end
    | Throw e => (f, Throw e)
    | UB => (f, UB)
    end
  end.
(** SceneHandler::write, io_scene.cpp:117-151 *)
Definition scene_write {S} (to_mesh : unode S -> mesh) (f : fs) (h : scene_handler) (s : scene S) : fs * outcome unit :=
  let p := sh_path h in let m := sh_modes h in
  match sh_fmt h with
  | off =>
    let '(f, r) := if negb (fs_exists f p) then create_directory f p
                   else if is_directory f p then (f, Ok tt) else (f, Throw RuntimeError) in
    match r with
    | Ok _ =>
      match write_off_files to_mesh f p m (sc_buildings s) with
      | (f, Ok _) => write_off_files to_mesh f p m [sc_terrain s]
      | r => r
      end
    | _ => (f, r)
    end
  | obj => obj_handler_write f (obj_handler_of_scene to_mesh p s m)
  | t3ds_xml | t3ds => (f, Throw LogicError)
  end.

(** ** RasterHandler and VectorHandler *)
(** GDALOpen / GDALOpenEx: [open] gives the dataset or a null pointer; [make] is the
    constructor of the print from the stem and the dataset.
    RasterHandler::read, io_raster.cpp:16-50 and VectorHandler::read, io_vector.cpp:18-52
    have the same shape. *)
Definition gdal_handler_read {D P} (open : path -> option D) (make : str -> D -> outcome P) (f : fs) (p : path) (m : modes) : outcome P :=
  if can_read m then
    if is_regular_file f p then
      match open p with
      | None => Throw RuntimeError
      | Some d => make (stem p) d
      end
    else Throw FilesystemError
  else Throw FilesystemError.
(** RasterHandler::write, io_raster.cpp:52-84: [driver] says whether the GTiff driver
    exists, [create] what Create does to the file system (null result possible, not
    checked), [export] is RasterPrint::to_gdal *)
Definition raster_handler_write {D P} (driver : bool) (create : fs -> path -> fs * option D) (export : P -> D -> fs -> fs * outcome unit) (f : fs) (p : path) (m : modes) (x : P) : fs * outcome unit :=
  if can_write m then
    if driver then
      match create f p with
      | (f, Some d) => export x d f
      | (f, None) => (f, UB)
      end
    else (f, Throw RuntimeError)
  else (f, Throw FilesystemError).
(** VectorHandler::write, io_vector.cpp:53-81: null is checked here *)
Definition vector_handler_write {D P} (driver : bool) (create : fs -> path -> fs * option D) (export : P -> D -> fs -> fs * outcome unit) (f : fs) (p : path) (m : modes) (x : P) : fs * outcome unit :=
  if can_write m then
    if driver then
      match create f p with
      | (f, Some d) => export x d f
      | (f, None) => (f, Throw FilesystemError)
      end
    else (f, Throw RuntimeError)
  else (f, Throw FilesystemError).
