(** * Specification vocabulary for the standard output: C99. *)
From Coq Require Import Strings.String.
From Verif Require Import Base Dbl Geom Decimal Shadow Handlers Surface Projection Raster Ogr Spec_text Spec_io Cli Spec_cli.
Import List.
Open Scope nat_scope.

Definition lines (l : list str) : str := concat (map (fun s => s ++ [newline]) l).
Definition true_false (b : bool) : str := if b then lit "true" else lit "false".
(** a path between quotation marks, with & before every quotation mark and every & *)
Definition in_quotes (s : str) : str :=
  let q := "034"%char in q :: concat (map (fun c => if Ascii.eqb c q then ["&"; c]%char else if Ascii.eqb c "&" then ["&"; c]%char else [c]) s) ++ [q].
(** the beginning: the arguments as understood; [s], [o] are the paths as typed *)
Definition ortho_greeting (s : str) (a : ortho_arguments) : str :=
  lines [lit "Parsing arguments... Done.";
    lit "Arguments:";
    lit "  Input path: " ++ in_quotes s;
    lit "  Input format: " ++ oa_format a;
    lit "  Pruning faces: " ++ true_false (oa_prune a);
    lit "  Caching buildings: " ++ true_false (oa_cache a);
    lit "  Taking care of terrain: " ++ true_false (oa_terrain a);
    lit "  Saving dual graphs: " ++ true_false (oa_graphs a);
    lit "  Saving: " ++ true_false (oa_save a);
    lit "     Saving projections: " ++ true_false (oa_save a);
    lit "     Summing over whole scene: " ++ true_false (oa_sum a);
    lit "     Saving projection error fields: " ++ true_false (oa_labels a);
    lit "  Rasterizing: " ++ true_false (rasterizing a);
    lit "     Pixel size: " ++ print_dbl (oa_pixel a);
    []].
Definition format_greeting (s o : str) (a : format_arguments) : str :=
  lines [lit "Parsing arguments... Done.";
    lit "Arguments:";
    lit "  Input path: " ++ in_quotes s;
    lit "  Input format: " ++ fa_format a;
    lit "  Pruning faces: " ++ true_false (fa_prune a);
    lit "  Taking care of terrain: " ++ true_false (fa_terrain a);
    lit "  Saving dual graphs: " ++ true_false (fa_graphs a);
    lit "  Output path: " ++ in_quotes o;
    lit "  Output format: " ++ fa_outfmt a;
    []].
(** the warning of the tree file *)
Definition epsg_warning : str := lines [lit "Warning: projection system EPSG code not found! It was set to 2154 - i.e. LAMBERT 93 - by default."].
Definition if_ (b : bool) (t : str) : str := if b then t else [].
(** the messages of a run of orthoproject that ends well, after the greeting and the warning *)
Definition ortho_messages (graphs save sum images : bool) : str :=
  if_ graphs (lines [lit "Saving brick duals...  Done."]) ++
  if_ save (lines [lit "Projecting... Done."; lit "Saving vector projections... Done."] ++
            if_ sum (lines [lit "Summing , rasterizing and saving scene projections... Done."]) ++
            if_ images (lines [lit "rasterizing projections... Done."; lit "Saving raster projections... Done."])).

(** how far a run got that was stopped by an exception, from world [w] to [w'], when [t] was
    printed after the greeting and the warning *)
Section STOPPED.
Context {S : Type} (X : externals) (build : mesh -> outcome S) (surf : S -> surface) (prune : S -> outcome S) (listing : fs -> path -> list str) (K : kernel) (G : gdal).
(** [l]: the projections of the scene *)
Definition projections_of (a : ortho_arguments) (w : world) (l : list footprint) : Prop :=
  exists s, scene_of X build prune listing (w_fs w) (oa_path a) (oa_format a) (oa_prune a) (oa_terrain a) s /\ orthoproject K surf s (oa_terrain a) = Ok l.
(** [V]: the shapes of the projections [l], in the directory vectors *)
Definition shapes_of (a : ortho_arguments) (l : list footprint) (V : list (path * layer)) : Prop :=
  Forall2 (fun fp e => shape_in K G (path_join (parent_path (oa_path a)) (lit "vectors")) (oa_labels a) (fp_name fp) fp e) l V.
(** [R]: the images of the projections [l], in the directory rasters *)
Definition images_of (a : ortho_arguments) (l : list footprint) (R : list (path * dataset doubles)) : Prop :=
  Forall2 (fun fp e => image_in K G (path_join (parent_path (oa_path a)) (lit "rasters")) (oa_pixel a) (fp_name fp) fp e) l R.
Inductive stopped (a : ortho_arguments) (w w' : world) : str -> Prop :=
| in_reading : w' = w -> stopped a w w' []
| in_duals : oa_graphs a = true -> w_vectors w' = w_vectors w -> w_rasters w' = w_rasters w ->
    stopped a w w' (lit "Saving brick duals... ")
| in_projecting : oa_save a = true -> w_vectors w' = w_vectors w -> w_rasters w' = w_rasters w ->
    stopped a w w' (ortho_messages (oa_graphs a) false false false ++ lit "Projecting... ")
| in_vectors l V k : oa_save a = true -> projections_of a w l ->
    w_vectors w' = w_vectors w ++ V -> shapes_of a (firstn k l) V -> w_rasters w' = w_rasters w ->
    stopped a w w' (ortho_messages (oa_graphs a) false false false ++ lines [lit "Projecting... Done."] ++ lit "Saving vector projections... ")
| in_sum l V Vs : oa_save a = true -> oa_sum a = true -> projections_of a w l ->
    w_vectors w' = w_vectors w ++ V ++ Vs -> shapes_of a l V -> length Vs <= 1 -> w_rasters w' = w_rasters w ->
    stopped a w w' (ortho_messages (oa_graphs a) true false false ++ lit "Summing , rasterizing and saving scene projections... ")
| in_rasterizing l V Vs Rs : oa_save a = true -> wants_images a -> projections_of a w l ->
    w_vectors w' = w_vectors w ++ V ++ Vs -> shapes_of a l V -> w_rasters w' = w_rasters w ++ Rs -> length Vs = (if oa_sum a then 1 else 0) -> length Rs = (if oa_sum a then 1 else 0) ->
    stopped a w w' (ortho_messages (oa_graphs a) true (oa_sum a) false ++ lit "rasterizing projections... ")
| in_rasters l V Vs Rs R k : oa_save a = true -> wants_images a -> projections_of a w l ->
    w_vectors w' = w_vectors w ++ V ++ Vs -> shapes_of a l V -> w_rasters w' = w_rasters w ++ Rs ++ R -> length Vs = (if oa_sum a then 1 else 0) -> length Rs = (if oa_sum a then 1 else 0) ->
    images_of a (firstn k l) R ->
    stopped a w w' (ortho_messages (oa_graphs a) true (oa_sum a) false ++ lines [lit "rasterizing projections... Done."] ++ lit "Saving raster projections... ").
End STOPPED.
