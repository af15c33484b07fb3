(** * Cli: model of the two programs, src/bin/orthoproject.cpp and src/bin/cityformat.cpp, and of
    src/lib/algorithms/scene_algorithms.cpp.

    docopt is an external library: its result, an exit or a map of values, is an argument of the
    model.  The messages on the standard output are added in [Stdout]; here only the list of
    formats is.  GDAL's drivers are a record of answers; what they store is recorded in the world
    (a file left incomplete by an exception is not recorded). *)
From Verif Require Import Base Dbl Geom Decimal Shadow Streams Handlers Surface Projection Raster Ogr.
From Coq Require Strings.String.
Import Coq.Strings.String.StringSyntax.
Delimit Scope string_scope with string.
Open Scope nat_scope.

(** ** docopt *)
(** docopt::value *)
Inductive value := VNone | VBool (b : bool) | VLong (z : Z) | VStr (s : str) | VStrs (l : list str).
(** std::map<std::string, docopt::value>, or docopt leaving the program (help, version: 0; command
    line rejected: -1) *)
Inductive parsed := PExit (code : Z) | PArgs (m : list (str * value)).
Fixpoint lookup (m : list (str * value)) (k : str) : option value :=
  match m with [] => None | (k', v) :: m => if str_eqb k' k then Some v else lookup m k end.
(** map::at, value::asBool, value::asString *)
Definition arg (m : list (str * value)) (k : str) : outcome value := match lookup m k with Some v => Ok v | None => Throw OutOfRange end.
Definition as_bool (v : value) : outcome bool := match v with VBool b => Ok b | _ => Throw RuntimeError end.
Definition as_string (v : value) : outcome str := match v with VStr s => Ok s | _ => Throw RuntimeError end.
Definition arg_bool m k : outcome bool := let* v := arg m k in as_bool v.
Definition arg_string m k : outcome str := let* v := arg m k in as_string v.
(** the names in the text of a path: the root directory, if the text begins with a slash, then
    the names.  Simplification: no root names ("//host") *)
Definition path_of (s : str) : path :=
  match s with c :: _ => if Ascii.eqb c ch_slash then [[ch_slash]] else [] | [] => [] end ++ split_slash [] s.
(** boost::filesystem::path(std::string) as the list of its components, of which parent_path(),
    filename() and stem() speak: after a slash at the end there is one more component, "." *)
Definition ends_with_slash (s : str) : bool := match rev s with c :: _ => Ascii.eqb c ch_slash | [] => false end.
Definition scene_path (s : str) : path :=
  path_of s ++ match split_slash [] s with [] => [] | _ => if ends_with_slash s then [[ch_dot]] else [] end.
(** the directory or file the operating system finds under it.  Simplification: only a "." at
    the end is resolved *)
Definition location (p : path) : path := if str_eqb (last p []) [ch_dot] then removelast p else p.

Definition k_scene := hdr "<scene>"%string.
Definition k_infmt := hdr "--input-format"%string.
Definition k_prune := hdr "--prune"%string.
Definition k_cache := hdr "--cache"%string.
Definition k_graphs := hdr "--graphs"%string.
Definition k_terrain := hdr "--terrain"%string.
Definition k_save := hdr "save"%string.
Definition k_sum := hdr "--scene"%string.
Definition k_labels := hdr "--labels"%string.
Definition k_rasterize := hdr "rasterize"%string.
Definition k_pixel := hdr "--pixel-size"%string.
Definition k_formats := hdr "--formats"%string.
Definition k_path := hdr "<path>"%string.
Definition k_outfmt := hdr "--output-format"%string.

(** ** Arguments *)
(** struct Arguments of orthoproject.cpp:34-95 *)
Record ortho_arguments := mkOrtho {
  oa_path : path; oa_format : str; oa_prune : bool; oa_cache : bool; oa_graphs : bool; oa_terrain : bool;
  oa_save : bool; oa_sum : bool; oa_labels : bool; oa_pixel : dbl }.
(** the constructor, orthoproject.cpp:66-88 *)
Definition ortho_args (stod : str -> outcome dbl) (m : list (str * value)) : outcome ortho_arguments :=
  let* p := arg_string m k_scene in
  let* f := arg_string m k_infmt in
  let* prune := arg_bool m k_prune in
  let* cache := arg_bool m k_cache in
  let* graphs := arg_bool m k_graphs in
  let* terrain := arg_bool m k_terrain in
  let* save := arg_bool m k_save in
  let* sum := if save then arg_bool m k_sum else Ok false in
  let* labels := if save then arg_bool m k_labels else Ok false in
  let* r := arg_bool m k_rasterize in
  let* px := if r then (let* s := arg_string m k_pixel in stod s) else Ok (dofZ 0) in
  Ok (mkOrtho (scene_path p) f prune cache graphs terrain save sum labels px).
(** rasterizing(), orthoproject.cpp:60-63: conversion of a double to bool *)
Definition rasterizing (a : ortho_arguments) : bool := negb (deqb (oa_pixel a) (dofZ 0)).
(** struct Arguments of cityformat.cpp:28-69 *)
Record format_arguments := mkFormat {
  fa_path : path; fa_format : str; fa_prune : bool; fa_graphs : bool; fa_terrain : bool; fa_out : path; fa_outfmt : str }.
(** the constructor, cityformat.cpp:44-62; None when the formats are asked for *)
Definition format_args (m : list (str * value)) : outcome (option format_arguments) :=
  let* formats := arg_bool m k_formats in
  if formats then Ok None else
  let* p := arg_string m k_scene in
  let* f := arg_string m k_infmt in
  let* prune := arg_bool m k_prune in
  let* graphs := arg_bool m k_graphs in
  let* terrain := arg_bool m k_terrain in
  let* o := arg_string m k_path in
  let* of := arg_string m k_outfmt in
  Ok (Some (mkFormat (scene_path p) f prune graphs terrain (path_of o) of)).

(** ** The world *)
(** the file system, and the shapes and images stored by GDAL, in order *)
Record world := mkWorld { w_fs : fs; w_vectors : list (path * layer); w_rasters : list (path * dataset doubles) }.
Definition act (A : Type) := world -> world * outcome A.
Definition ret {A} (a : A) : act A := fun w => (w, Ok a).
Definition lift {A} (o : outcome A) : act A := fun w => (w, o).
Definition bnd {A B} (x : act A) (k : A -> act B) : act B :=
  fun w => match x w with (w, Ok a) => k a w | (w, Throw e) => (w, Throw e) | (w, UB) => (w, UB) end.
Definition on_fs {A} (g : fs -> fs * outcome A) : act A := fun w => let '(f, r) := g (w_fs w) in (mkWorld f (w_vectors w) (w_rasters w), r).
Definition write_text (p : path) (t : str) : act unit := on_fs (fun f => (fwrite f p t, Ok tt)).
Fixpoint each {A} (g : A -> act unit) (l : list A) : act unit := match l with [] => ret tt | a :: l => bnd (g a) (fun _ => each g l) end.
Definition when (b : bool) (x : act unit) : act unit := if b then x else ret tt.
(** the end of a program: its status and the exception reported on the standard error, or
    undefined behaviour *)
Inductive run := Exit (code : Z) (reported : option exn) | Undefined.

(** answers of GDAL: is the driver there, does Create / CreateLayer give an object, is a feature
    accepted, does RasterIO succeed; EPSG code of the geographic system of a system *)
Record gdal := mkGdal { g_shp : bool; g_tiff : bool; g_create : path -> bool; g_layer : path -> bool; g_feature : feature -> bool; g_io : path -> bool; g_geog : N -> Z }.
Definition write_modes : modes := [(s_write, true)].
Definition read_modes : modes := [(s_read, true)].

Section CLI.
Context {S : Type} (X : externals) (build : mesh -> outcome S) (surf : S -> surface) (to_mesh : unode S -> mesh)
  (prune : S -> outcome S) (line : surface -> nat -> outcome str) (listing : fs -> path -> list str) (K : kernel) (G : gdal) (stod : str -> outcome dbl).

(** VectorHandler(path, write).write, io_vector.cpp:53-81 *)
Definition vector_write (p : path) (labels : bool) (fp : footprint) : act unit := fun w =>
  if can_write write_modes then
    if g_shp G then
      if g_create G p then
        match foot_out K (g_geog G) (g_layer G p) (g_feature G) labels fp with
        | Ok ly => (mkWorld (w_fs w) (w_vectors w ++ [(p, ly)]) (w_rasters w), Ok tt)
        | Throw e => (w, Throw e)
        | UB => (w, UB)
        end
      else (w, Throw FilesystemError)
    else (w, Throw RuntimeError)
  else (w, Throw FilesystemError).
(** RasterHandler(path, write).write, io_raster.cpp:52-84: the null pointer is not checked *)
Definition raster_write (p : path) (r : raster doubles) : act unit := fun w =>
  if can_write write_modes then
    if g_tiff G then
      if g_create G p then
        match raster_store doubles (g_geog G) (g_io G p) r with
        | Ok d => (mkWorld (w_fs w) (w_vectors w) (w_rasters w ++ [(p, d)]), Ok tt)
        | Throw e => (w, Throw e)
        | UB => (w, UB)
        end
      else (w, UB)
    else (w, Throw RuntimeError)
  else (w, Throw FilesystemError).

(** operator <<(Adjacency_stream, UNode), unode.cpp:506-522; [line] is one line of facet
    data, Dual.facet_line *)
Definition dual_text (s : surface) : outcome str :=
  let* ls := omapM (line s) (s_facets s) in
  let* m := facet_adjacency_matrix s in
  let* t := adjacency_print m in
  Ok (concat ls ++ t ++ [ch_nl]).
Definition d_duals := hdr "dual_graphs"%string.
Definition d_vectors := hdr "vectors"%string.
Definition d_rasters := hdr "rasters"%string.
Definition e_txt := hdr ".txt"%string.
Definition e_shp := hdr ".shp"%string.
Definition e_tiff := hdr ".tiff"%string.
(** save_building_duals, scene_algorithms.cpp:12-27 *)
Definition save_building_duals (root : path) (s : scene S) : act unit :=
  let dir := path_join root d_duals in
  bnd (on_fs (fun f => create_directory f dir)) (fun _ =>
  each (fun u => bnd (lift (dual_text (surf (u_surf u)))) (fun t => write_text (path_join dir (u_name u ++ e_txt)) t)) (sc_buildings s)).
(** edge_lengths(Polygon), util_algorithms.cpp:117-135 *)
Definition ring_edge_lengths (l : list p2) : list dbl :=
  map (fun e => dsqrt (dq ((x2 (snd e) - x2 (fst e)) * (x2 (snd e) - x2 (fst e)) + (y2 (snd e) - y2 (fst e)) * (y2 (snd e) - y2 (fst e)))%Qc)) (pairs l).
(** BrickPrint::edge_lengths, brick_projection.cpp:238-265 *)
Definition brick_edge_lengths (b : brick) : list dbl := concat (map (fun P => ring_edge_lengths (outer P)) (k_pieces K (brick_union K b))).
(** FacePrint::area in doubles, face_projection.cpp:186-197 *)
Definition face_area_d (f : face2) : dbl :=
  fold_left (fun t h => dsub t (dq (ring_area h))) (holes (f_border f)) (dq (ring_area (outer (f_border f)))).
(** BrickPrint::areas and area, brick_projection.cpp:213-237; FootPrint::areas and area,
    scene_projection.cpp:93-100 *)
Definition brick_areas (b : brick) : list dbl := map face_area_d (br_facets b).
Definition brick_area (b : brick) : dbl := fold_left dadd (brick_areas b) dzero.
(** the text of scene_algorithms.cpp:48-51 *)
Definition numbers (l : list dbl) : str := concat (map (fun x => print_dbl x ++ [ch_sp]) l) ++ [ch_nl].
Definition attributes (fp : footprint) : str := numbers (brick_areas (fp_proj fp)) ++ numbers (brick_edge_lengths (fp_proj fp)).
(** save_building_prints, scene_algorithms.cpp:28-55 *)
Definition save_building_prints (root : path) (l : list footprint) (labels : bool) : act unit :=
  let dir := path_join root d_vectors in
  bnd (on_fs (fun f => create_directory f dir)) (fun _ =>
  each (fun fp => bnd (vector_write (path_join dir (fp_name fp ++ e_shp)) labels fp) (fun _ =>
                  write_text (path_join dir (fp_name fp ++ e_txt)) (attributes fp))) l).
(** save_building_rasters, scene_algorithms.cpp:56-69 *)
Definition save_building_rasters (root : path) (l : list (raster doubles)) : act unit :=
  let dir := path_join root d_rasters in
  bnd (on_fs (fun f => create_directory f dir)) (fun _ =>
  each (fun r => raster_write (path_join dir (r_name doubles r ++ e_tiff)) r) l).
(** save_scene_prints, scene_algorithms.cpp:70-96: labels have their default, false *)
Definition save_scene_prints (root : path) (name : str) (l : list footprint) (ras : bool) (px : dbl) : act unit :=
  bnd (lift (foot_sum K l)) (fun fp =>
  bnd (vector_write (path_join root (name ++ e_shp)) false fp) (fun _ =>
  when ras (bnd (lift (raster_of doubles K fp px)) (fun r => raster_write (path_join root (name ++ e_tiff)) r)))).

(** SceneHandler(path, read, format).read(): the extension is that of the path as given, the files
    are those found there (with a slash at the end the extension is empty, so only OFF is left) *)
Definition read_scene (p : path) (fmt : str) : act (scene S) := fun w =>
  match scene_handler_named p read_modes fmt with
  | Ok h => (w, scene_read X build (w_fs w) (listing (w_fs w) (location p)) (mkSceneH (location p) (sh_modes h) (sh_fmt h)))
  | Throw e => (w, Throw e)
  | UB => (w, UB)
  end.
(** input_scene, orthoproject.cpp:116-133, and cityformat.cpp:115-128 *)
Definition input_scene (p : path) (fmt : str) (pr graphs terrain : bool) : act (scene S) :=
  bnd (read_scene p fmt) (fun s =>
  bnd (lift (if pr then scene_prune (unode_prune prune) s terrain else Ok s)) (fun s =>
  bnd (when graphs (save_building_duals (parent_path p) s)) (fun _ => ret s))).

(** main's try block, orthoproject.cpp:150-174 *)
Definition ortho_body (a : ortho_arguments) : act unit :=
  bnd (input_scene (oa_path a) (oa_format a) (oa_prune a) (oa_graphs a) (oa_terrain a)) (fun s =>
  let dir := parent_path (oa_path a) in
  when (oa_save a)
    (bnd (lift (orthoproject K surf s (oa_terrain a))) (fun l =>
     bnd (save_building_prints dir l (oa_labels a)) (fun _ =>
     bnd (when (oa_sum a) (save_scene_prints dir (stem (oa_path a)) l (rasterizing a) (oa_pixel a))) (fun _ =>
     when (rasterizing a) (bnd (lift (rasterize_scene doubles K l (oa_pixel a))) (fun rs => save_building_rasters dir rs))))))).
(** the handler of std::exception and the return, orthoproject.cpp:176-180, cityformat.cpp:138-142 *)
Definition finish (r : world * outcome unit) : world * run :=
  match r with (w, Ok _) => (w, Exit 0 None) | (w, Throw e) => (w, Exit 0 (Some e)) | (w, UB) => (w, Undefined) end.
(** main, orthoproject.cpp:136-181 *)
Definition ortho_main (d : parsed) (w : world) : world * run :=
  match d with
  | PExit c => (w, Exit c None)
  | PArgs m => finish (bnd (lift (ortho_args stod m)) ortho_body w)
  end.

(** SceneHandler(path, write, format).write(scene), cityformat.cpp:130-135 *)
Definition write_scene (p : path) (fmt : str) (s : scene S) : act unit :=
  bnd (lift (scene_handler_named p write_modes fmt)) (fun h => on_fs (fun f => scene_write to_mesh f h s)).
(** cityformat.cpp:103-112: the list of formats on the standard output *)
Definition formats_text : str :=
  hdr "Possible formats are: "%string ++ concat (map (fun f => f ++ hdr ", "%string) (removelast supported_formats)) ++ last supported_formats [] ++ [ch_nl].
(** main's try block, cityformat.cpp:103-136 *)
Definition format_body (a : option format_arguments) : act str :=
  match a with
  | None => ret formats_text
  | Some a =>
    bnd (input_scene (fa_path a) (fa_format a) (fa_prune a) (fa_graphs a) (fa_terrain a)) (fun s =>
    bnd (write_scene (fa_out a) (fa_outfmt a) s) (fun _ => ret []))
  end.
(** main, cityformat.cpp:89-143: world, end, standard output *)
Definition format_main (d : parsed) (w : world) : world * run * str :=
  match d with
  | PExit c => (w, Exit c None, [])
  | PArgs m =>
    match bnd (lift (format_args m)) format_body w with
    | (w, Ok t) => (w, Exit 0 None, t)
    | (w, Throw e) => (w, Exit 0 (Some e), [])
    | (w, UB) => (w, Undefined, [])
    end
  end.
End CLI.
