(** * Gdal_hist: sequences of raster and vector file operations.

    GDAL keeps a global driver table, empty until GDALAllRegister is called.  The library
    calls it in two places only: RasterHandler::write (io_raster.cpp:58) and
    VectorHandler::write (io_vector.cpp:59), after the check of the write mode and before
    anything else.  GDALOpen / GDALOpenEx find no driver in an empty table and give a null
    pointer.  The dataset is closed by GDALClose at the end of each function
    (io_raster.cpp:33,76, io_vector.cpp:35,73), which an exception skips. *)
From Verif Require Import Base Dbl Decimal Shadow Streams Handlers.

(** what GDAL does once its drivers are registered; [Dr], [Dv]: datasets opened as raster
    and as vector, [R], [V]: RasterPrint and FootPrint *)
Record gdal (Dr Dv R V : Type) := mkGdal {
  g_gtiff : bool; g_shape : bool;                               (* drivers of the build *)
  g_open_r : fs -> path -> option Dr;                           (* GDALOpen *)
  g_open_v : fs -> path -> option Dv;                           (* GDALOpenEx *)
  g_create_r : R -> fs -> path -> fs * option Dr;               (* Create, GTiff *)
  g_create_v : fs -> path -> fs * option Dv;                    (* Create, ESRI Shapefile *)
  g_import_r : str -> Dr -> outcome R;                          (* RasterPrint(name, dataset) *)
  g_import_v : str -> Dv -> outcome V;                          (* FootPrint(name, layer 0) *)
  g_export_r : R -> Dr -> fs -> fs * outcome unit;              (* RasterPrint::to_gdal *)
  g_export_v : bool -> V -> Dv -> fs -> fs * outcome unit       (* FootPrint::to_ogr *)
}.
Arguments g_gtiff {_ _ _ _}. Arguments g_shape {_ _ _ _}. Arguments g_open_r {_ _ _ _}. Arguments g_open_v {_ _ _ _}.
Arguments g_create_r {_ _ _ _}. Arguments g_create_v {_ _ _ _}. Arguments g_import_r {_ _ _ _}. Arguments g_import_v {_ _ _ _}.
Arguments g_export_r {_ _ _ _}. Arguments g_export_v {_ _ _ _}.

(** one call on a handler built from a path and modes *)
Inductive gop (R V : Type) :=
| RasterRead (p : path) (m : modes) | VectorRead (p : path) (m : modes)
| RasterWrite (p : path) (m : modes) (x : R) | VectorWrite (p : path) (m : modes) (x : V) (labels : bool).
Arguments RasterRead {R V}. Arguments VectorRead {R V}. Arguments RasterWrite {R V}. Arguments VectorWrite {R V}.
Inductive gval (R V : Type) := GRaster (x : R) | GVector (x : V) | GDone.
Arguments GRaster {R V}. Arguments GVector {R V}. Arguments GDone {R V}.
(** registered?, file system, datasets never closed *)
Record gstate := mkG { gs_reg : bool; gs_fs : fs; gs_open : nat }.

Section Hist.
Context {Dr Dv R V : Type} (G : gdal Dr Dv R V).
(** a dataset was opened: it stays open iff the use of it threw *)
Definition leaked {A} (opened : bool) (r : outcome A) : nat :=
  if opened then match r with Throw _ => 1%nat | _ => 0%nat end else 0%nat.
Definition isSome {A} (o : option A) : bool := match o with Some _ => true | None => false end.
(** RasterHandler::read / write, VectorHandler::read / write *)
Definition gstep (s : gstate) (o : gop R V) : gstate * outcome (gval R V) :=
  let f := gs_fs s in
  match o with
  | RasterRead p m =>
    let open p := if gs_reg s then g_open_r G f p else None in
    let r := gdal_handler_read open (g_import_r G) f p m in
    let opened := can_read m && is_regular_file f p && isSome (open p) in
    (mkG (gs_reg s) f (gs_open s + leaked opened r), omap GRaster r)
  | VectorRead p m =>
    let open p := if gs_reg s then g_open_v G f p else None in
    let r := gdal_handler_read open (g_import_v G) f p m in
    let opened := can_read m && is_regular_file f p && isSome (open p) in
    (mkG (gs_reg s) f (gs_open s + leaked opened r), omap GVector r)
  | RasterWrite p m x =>
    let '(f', r) := raster_handler_write (g_gtiff G) (g_create_r G x) (g_export_r G) f p m x in
    let opened := can_write m && g_gtiff G && isSome (snd (g_create_r G x f p)) in
    (mkG (gs_reg s || can_write m) f' (gs_open s + leaked opened r), omap (fun _ => GDone) r)
  | VectorWrite p m x lb =>
    let '(f', r) := vector_handler_write (g_shape G) (g_create_v G) (g_export_v G lb) f p m x in
    let opened := can_write m && g_shape G && isSome (snd (g_create_v G f p)) in
    (mkG (gs_reg s || can_write m) f' (gs_open s + leaked opened r), omap (fun _ => GDone) r)
  end.
(** a history: a caller that survives exceptions; it stops at undefined behaviour *)
Fixpoint grun (s : gstate) (l : list (gop R V)) : gstate * list (outcome (gval R V)) :=
  match l with
  | [] => (s, [])
  | o :: l => let '(s', r) := gstep s o in
              match r with
              | UB => (s', [UB])
              | _ => let '(s'', rs) := grun s' l in (s'', r :: rs)
              end
  end.
End Hist.
