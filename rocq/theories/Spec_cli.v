(** * Specification vocabulary for the programs: C73 - C75. *)
From Verif Require Import Base Dbl Geom Decimal Shadow Streams Handlers Surface Projection Raster Ogr Spec_io Cli.
From Coq Require Import Strings.String.
Open Scope nat_scope.

(** the map [m] gives [v] to the key [k] *)
Definition gives (m : list (str * value)) (k : string) (v : value) : Prop :=
  exists a b, m = a ++ (lit k, v) :: b /\ forall v', ~ In (lit k, v') a.
Definition flag m k b := gives m k (VBool b).
Definition word m k s := gives m k (VStr s).
(** the map lacks the key *)
Definition lacks (m : list (str * value)) (k : string) : Prop := forall v, ~ In (lit k, v) m.
(** the map holds everything orthoproject asks for, with these values *)
Record ortho_given (stod : str -> outcome dbl) (m : list (str * value)) (a : ortho_arguments) : Prop := {
  og_scene : exists s, word m "<scene>" s /\ oa_path a = scene_path s;
  og_format : word m "--input-format" (oa_format a);
  og_prune : flag m "--prune" (oa_prune a);
  og_cache : flag m "--cache" (oa_cache a);
  og_graphs : flag m "--graphs" (oa_graphs a);
  og_terrain : flag m "--terrain" (oa_terrain a);
  og_save : flag m "save" (oa_save a);
  og_sum : if oa_save a then flag m "--scene" (oa_sum a) else oa_sum a = false;
  og_labels : if oa_save a then flag m "--labels" (oa_labels a) else oa_labels a = false;
  og_pixel : (flag m "rasterize" true /\ exists s, word m "--pixel-size" s /\ stod s = Ok (oa_pixel a)) \/ (flag m "rasterize" false /\ oa_pixel a = dofZ 0) }.
(** the same for a conversion with cityformat *)
Record format_given (m : list (str * value)) (a : format_arguments) : Prop := {
  fg_formats : flag m "--formats" false;
  fg_scene : exists s, word m "<scene>" s /\ fa_path a = scene_path s;
  fg_format : word m "--input-format" (fa_format a);
  fg_prune : flag m "--prune" (fa_prune a);
  fg_graphs : flag m "--graphs" (fa_graphs a);
  fg_terrain : flag m "--terrain" (fa_terrain a);
  fg_out : exists s, word m "<path>" s /\ fa_out a = path_of s;
  fg_outfmt : word m "--output-format" (fa_outfmt a) }.
(** the text of a path: names separated by slashes, after a slash if it starts at the root *)
Definition a_name (n : str) : Prop := n <> [] /\ ~ In "/"%char n.
Definition slashes (s : str) : Prop := s <> [] /\ forall c, In c s -> c = "/"%char.
Inductive names_text : str -> list str -> Prop :=
| last_name n : a_name n -> names_text n [n]
| last_name_slash n sl : a_name n -> slashes sl -> names_text (n ++ sl) [n]
| name_then n sl t ns : a_name n -> slashes sl -> names_text t ns -> names_text (n ++ sl ++ t) (n :: ns).
Inductive path_text : str -> list str -> Prop :=
| no_path : path_text [] []
| relative_path t ns : names_text t ns -> path_text t ns
| root_path sl : slashes sl -> path_text sl [lit "/"]
| absolute_path sl t ns : slashes sl -> names_text t ns -> path_text (sl ++ t) (lit "/" :: ns).
(** the same with the components boost sees: a slash after a name counts as one more name, "." *)
Inductive scene_text : str -> list str -> Prop :=
| as_named t p : path_text t p -> (forall u, t <> u ++ lit "/") -> scene_text t p
| only_slashes sl : slashes sl -> scene_text sl [lit "/"]
| with_slash t p : path_text t p -> (exists u, t = u ++ lit "/") -> ~ slashes t -> scene_text t (p ++ [lit "."]).
(** [d] is what the operating system finds under [p]: a "." at the end is the directory itself *)
Definition resolves (p d : path) : Prop := p = d ++ [lit "."] \/ (p = d /\ forall q, p <> q ++ [lit "."]).
(** nothing changed in the file system outside of directory [d] *)
Definition only_in (ds : list path) (f g : fs) : Prop := forall p, (forall d q, In d ds -> p <> d ++ q) -> g p = f p.
(** the pixel size asks for images *)
Definition wants_images (a : ortho_arguments) : Prop := deqb (oa_pixel a) (dofZ 0) = false.

Section SCENE.
Context {S : Type} (X : externals) (build : mesh -> outcome S) (surf : S -> surface) (prune : S -> outcome S) (listing : fs -> path -> list str) (K : kernel) (G : gdal).
(** the scene the programs work on: what the file holds, pruned if asked *)
Definition scene_of (f : fs) (p : path) (fmt : str) (pr terrain : bool) (s : scene S) : Prop :=
  exists h d s0, scene_handler_named p [(lit "read", true)] fmt = Ok h /\ resolves p d /\ scene_read X build f (listing f d) (mkSceneH d [(lit "read", true)] (sh_fmt h)) = Ok s0 /\
    if pr then scene_prune (unode_prune prune) s0 terrain = Ok s else s = s0.
(** [e] is the shape of [fp] stored in [dir] *)
Definition shape_in (dir : path) (labels : bool) (name : str) (fp : footprint) (e : path * layer) : Prop :=
  fst e = path_join dir (name ++ lit ".shp") /\ foot_out K (g_geog G) (g_layer G (fst e)) (g_feature G) labels fp = Ok (snd e).
(** [e] is the image of [fp] stored in [dir] *)
Definition image_in (dir : path) (px : dbl) (name : str) (fp : footprint) (e : path * dataset doubles) : Prop :=
  fst e = path_join dir (name ++ lit ".tiff") /\ exists r, raster_of doubles K fp px = Ok r /\ raster_store doubles (g_geog G) (g_io G (fst e)) r = Ok (snd e).
End SCENE.
