(** * Stdout: what the two programs write on the standard output, src/bin/orthoproject.cpp,
    src/bin/cityformat.cpp, src/lib/algorithms/scene_algorithms.cpp and
    src/lib/io/io_scene_tree.cpp.  The work itself is [Cli]'s; here it is interleaved with the
    messages.  Not modelled: the standard error, and what GDAL, CGAL and lib3ds may print. *)
From Verif Require Import Base Dbl Geom Decimal Shadow Streams Handlers Surface Projection Raster Ogr Cli Docopt.
From Coq Require Strings.String.
Import Coq.Strings.String.StringSyntax.
Delimit Scope string_scope with string.
Open Scope nat_scope.

(** a program that also prints: the world, what was printed so far, how it ended *)
Definition pact (A : Type) := world -> world * str * outcome A.
Definition pret {A} (a : A) : pact A := fun w => (w, [], Ok a).
Definition say (t : str) : pact unit := fun w => (w, t, Ok tt).
Definition quiet {A} (x : act A) : pact A := fun w => let '(w, r) := x w in (w, [], r).
Definition pbnd {A B} (x : pact A) (k : A -> pact B) : pact B :=
  fun w => match x w with
           | (w, t, Ok a) => let '(w, t', r) := k a w in (w, t ++ t', r)
           | (w, t, Throw e) => (w, t, Throw e)
           | (w, t, UB) => (w, t, UB)
           end.
Definition pwhen (b : bool) (x : pact unit) : pact unit := if b then x else pret tt.
(** a function that announces itself and says when it is done *)
Definition stage {A} (msg fin : str) (x : act A) : pact A :=
  pbnd (say msg) (fun _ => pbnd (quiet x) (fun a => pbnd (say fin) (fun _ => pret a))).

Definition nl : str := [ch_nl].
Definition m_parsing := hdr "Parsing arguments... "%string.
Definition m_done := hdr "Done."%string ++ nl.
Definition m_sdone := hdr " Done."%string ++ nl.
Definition m_duals := hdr "Saving brick duals... "%string.
Definition m_vectors := hdr "Saving vector projections... "%string.
Definition m_rasters := hdr "Saving raster projections... "%string.
Definition m_sum := hdr "Summing , rasterizing and saving scene projections... "%string.
Definition m_projecting := hdr "Projecting... "%string.
Definition m_rasterizing := hdr "rasterizing projections... "%string.
Definition m_epsg := hdr "Warning: projection system EPSG code not found! It was set to 2154 - i.e. LAMBERT 93 - by default."%string ++ nl.

(** ** The echo of the arguments *)
(** std::boolalpha *)
Definition print_bool (b : bool) : str := if b then hdr "true"%string else hdr "false"%string.
(** operator <<(ostream, boost::filesystem::path): boost::io::quoted with the escape character & *)
Fixpoint escape (s : str) : str :=
  match s with [] => [] | c :: s => if Ascii.eqb c "034"%char || Ascii.eqb c "&"%char then "&"%char :: c :: escape s else c :: escape s end.
Definition quoted (s : str) : str := "034"%char :: escape s ++ ["034"%char].
Definition row (title : String.string) (t : str) : str := hdr title ++ t ++ nl.
(** operator <<(ostream, Arguments) of orthoproject.cpp:97-113; [s] is the path as given *)
Definition ortho_echo (s : str) (a : ortho_arguments) : str :=
  row "Arguments:"%string [] ++
  row "  Input path: "%string (quoted s) ++
  row "  Input format: "%string (oa_format a) ++
  row "  Pruning faces: "%string (print_bool (oa_prune a)) ++
  row "  Caching buildings: "%string (print_bool (oa_cache a)) ++
  row "  Taking care of terrain: "%string (print_bool (oa_terrain a)) ++
  row "  Saving dual graphs: "%string (print_bool (oa_graphs a)) ++
  row "  Saving: "%string (print_bool (oa_save a)) ++
  row "     Saving projections: "%string (print_bool (oa_save a)) ++
  row "     Summing over whole scene: "%string (print_bool (oa_sum a)) ++
  row "     Saving projection error fields: "%string (print_bool (oa_labels a)) ++
  row "  Rasterizing: "%string (print_bool (rasterizing a)) ++
  row "     Pixel size: "%string (print_dbl (oa_pixel a)).
(** operator <<(ostream, Arguments) of cityformat.cpp:71-87; [s] and [o] are the paths as given *)
Definition format_echo (a : option (str * str * format_arguments)) : str :=
  match a with
  | None => row "Arguments:"%string [] ++ row "  Possible formats: "%string (print_bool true)
  | Some (s, o, a) =>
    row "Arguments:"%string [] ++
    row "  Input path: "%string (quoted s) ++
    row "  Input format: "%string (fa_format a) ++
    row "  Pruning faces: "%string (print_bool (fa_prune a)) ++
    row "  Taking care of terrain: "%string (print_bool (fa_terrain a)) ++
    row "  Saving dual graphs: "%string (print_bool (fa_graphs a)) ++
    row "  Output path: "%string (quoted o) ++
    row "  Output format: "%string (fa_outfmt a)
  end.

Section STDOUT.
Context {S : Type} (X : externals) (build : mesh -> outcome S) (surf : S -> surface) (to_mesh : unode S -> mesh)
  (prune : S -> outcome S) (line : surface -> nat -> outcome str) (listing : fs -> path -> list str) (K : kernel) (G : gdal) (stod : str -> outcome dbl).

(** ** Reading *)
(** SceneTreeHandler::epsg_index, io_scene_tree.cpp:79-86 *)
Definition epsg_says (d : list xelem) : str :=
  match (let* r := child d k_root in child (x_kids r) k_epsg) with
  | Ok e => match x_text e with
            | Some t => match text_unsigned X t with Some _ => [] | None => m_epsg end
            | None => m_epsg end
  | _ => []
  end.
(** T3DSHandler::get_scene(tree, from_xml), io_3ds.cpp:51-83: the warning is printed if the
    arguments before it are made, in the order of [t3ds_get_scene_tree] *)
Definition get_scene_says (h : t3ds_handler) (d : list xelem) (from_xml : bool) : str :=
  match (if from_xml then
           let* ids := tree_building_ids d in
           let* bs := omapM (fun s => t3ds_mesh h s ["F"; "T"]%char) ids in
           let* ti := tree_terrain_id d in
           let* t := t3ds_mesh h ti ["M"%char] in
           let* pv := tree_pivot X d in Ok tt
         else
           let* bs := level_meshes h 1 ["F"; "T"]%char in
           let* t := level_terrain h 1 in
           let* pv := tree_pivot X d in Ok tt) with
  | Ok _ => epsg_says d
  | _ => []
  end.
(** SceneHandler::read, io_scene.cpp:45-115 *)
Definition read_says (f : fs) (h : scene_handler) : str :=
  let says from_xml :=
    match (let* t := t3ds_make X f (sh_path h) (sh_modes h) in let* d := tree_make X f (xml_path (sh_path h)) in Ok (t, d)) with
    | Ok (t, d) => get_scene_says t d from_xml
    | _ => []
    end in
  match sh_fmt h with t3ds_xml => says true | t3ds => says false | _ => [] end.
Definition p_read_scene (p : path) (fmt : str) : pact (scene S) := fun w =>
  let '(w', r) := read_scene X build listing p fmt w in
  (w', match scene_handler_named p read_modes fmt with Ok h => read_says (w_fs w) h | _ => [] end, r).
(** input_scene, orthoproject.cpp:116-133, and cityformat.cpp:115-128 *)
Definition p_input_scene (p : path) (fmt : str) (pr graphs terrain : bool) : pact (scene S) :=
  pbnd (p_read_scene p fmt) (fun s =>
  pbnd (quiet (lift (if pr then scene_prune (unode_prune prune) s terrain else Ok s))) (fun s =>
  pbnd (pwhen graphs (stage m_duals m_sdone (save_building_duals surf line (parent_path p) s))) (fun _ => pret s))).

(** ** orthoproject *)
(** main's try block, orthoproject.cpp:150-174, with scene_algorithms.cpp:12-133 *)
Definition p_ortho_body (a : ortho_arguments) : pact unit :=
  pbnd (p_input_scene (oa_path a) (oa_format a) (oa_prune a) (oa_graphs a) (oa_terrain a)) (fun s =>
  let dir := parent_path (oa_path a) in
  pwhen (oa_save a)
    (pbnd (stage m_projecting m_done (lift (orthoproject K surf s (oa_terrain a)))) (fun l =>
     pbnd (stage m_vectors m_done (save_building_prints K G dir l (oa_labels a))) (fun _ =>
     pbnd (pwhen (oa_sum a) (stage m_sum m_done (save_scene_prints K G dir (stem (oa_path a)) l (rasterizing a) (oa_pixel a)))) (fun _ =>
     pwhen (rasterizing a)
       (pbnd (stage m_rasterizing m_done (lift (rasterize_scene doubles K l (oa_pixel a)))) (fun rs =>
        stage m_rasters m_done (save_building_rasters G dir rs)))))))).
(** the constructor and the echo, orthoproject.cpp:66-88, 148 *)
Definition p_ortho_args (m : list (str * value)) : pact ortho_arguments :=
  pbnd (stage m_parsing m_done (lift (ortho_args stod m))) (fun a =>
  pbnd (quiet (lift (arg_string m k_scene))) (fun s =>
  pbnd (say (ortho_echo s a ++ nl)) (fun _ => pret a))).
(** main, orthoproject.cpp:136-181 *)
Definition p_finish (r : world * str * outcome unit) : world * run * str :=
  match r with (w, t, Ok _) => (w, Exit 0 None, t) | (w, t, Throw e) => (w, Exit 0 (Some e), t) | (w, t, UB) => (w, Undefined, t) end.
Definition p_ortho (m : list (str * value)) (w : world) : world * run * str := p_finish (pbnd (p_ortho_args m) p_ortho_body w).

(** ** cityformat *)
(** the constructor, cityformat.cpp:44-62, and the echo, 101: [formats] is initialised before the
    first message *)
Definition p_format_args (m : list (str * value)) : pact (option format_arguments) :=
  pbnd (quiet (lift (arg_bool m k_formats))) (fun _ =>
  pbnd (stage m_parsing m_done (lift (format_args m))) (fun a =>
  pbnd (quiet (lift (match a with None => Ok None | Some a => let* s := arg_string m k_scene in let* o := arg_string m k_path in Ok (Some (s, o, a)) end))) (fun e =>
  pbnd (say (format_echo e ++ nl)) (fun _ => pret a)))).
(** main's try block, cityformat.cpp:103-136 *)
Definition p_format_body (a : option format_arguments) : pact unit :=
  match a with
  | None => say formats_text
  | Some a =>
    pbnd (p_input_scene (fa_path a) (fa_format a) (fa_prune a) (fa_graphs a) (fa_terrain a)) (fun s =>
    quiet (write_scene to_mesh (fa_out a) (fa_outfmt a) s))
  end.
(** main, cityformat.cpp:89-143 *)
Definition p_format (m : list (str * value)) (w : world) : world * run * str := p_finish (pbnd (p_format_args m) p_format_body w).

(** ** The programs from their command lines *)
(** docopt::docopt, docopt.cpp: on --help the usage, on --version the version, on a line it
    refuses an empty line and the usage (the reason goes to the standard error) *)
Definition docopt_says (doc version : str) (argv : list str) : str :=
  match pattern_of doc with
  | None => []
  | Some (p, o) =>
    match parse_argv (Datatypes.S (length argv)) argv o with
    | None => nl ++ doc ++ nl
    | Some l =>
      if opt_set (hdr "--help"%string) l || opt_set (hdr "-h"%string) l then doc ++ nl
      else if opt_set (hdr "--version"%string) l then version ++ nl
      else match docopt doc argv with PExit _ => nl ++ doc ++ nl | PArgs _ => [] end
    end
  end.
(** "orthoproject " + VERSION, orthoproject.cpp:145 and also cityformat.cpp:98 *)
Definition version_text (version : str) : str := hdr "orthoproject "%string ++ version.
Definition ortho_program (version : str) (argv : list str) (w : world) : world * run * str :=
  match docopt ortho_usage argv with
  | PExit c => (w, Exit c None, docopt_says ortho_usage (version_text version) argv)
  | PArgs m => p_ortho m w
  end.
Definition format_program (version : str) (argv : list str) (w : world) : world * run * str :=
  match docopt format_usage argv with
  | PExit c => (w, Exit c None, docopt_says format_usage (version_text version) argv)
  | PArgs m => p_format m w
  end.
End STDOUT.
