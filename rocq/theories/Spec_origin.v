(** * Specification vocabulary for where the facets of a print come from: C106. *)
From Coq Require Import String.
From Verif Require Import Base Dbl Geom Decimal Shadow Spec_shadow Streams Spec_text Handlers Spec_io Surface Raster Projection Spec_ring Spec_projection Export Spec_export Spec_convert Spec_back Spec_cli.
From Coq Require Import QArith Qcanon.
Import List.
Close Scope string_scope.
Open Scope nat_scope.

(** the exact positions of the corners of a polygon of a mesh, from one of them on *)
Definition corners_of (pg : list (option point)) (l : list p3) : Prop := exists c, turned pg c /\ Forall2 (fun o P => exists p, o = Some p /\ at_point p P) c l.
(** [x] is the polygon [pg] of a mesh seen from above: its plane goes through three corners in a row, its outline through the corners *)
Definition drawn (K : kernel) (pg : list (option point)) (x : face2) : Prop :=
  exists p q r rest, let l := p :: q :: r :: rest in corners_of pg l /\
    (pl_a (f_plane x) = x3 (cross (vsub q p) (vsub r p)) /\ pl_b (f_plane x) = y3 (cross (vsub q p) (vsub r p)) /\ pl_c (f_plane x) = z3 (cross (vsub q p) (vsub r p))) /\
    on_plane (f_plane x) p /\ on_plane (f_plane x) q /\ on_plane (f_plane x) r /\ ~ vertical (f_plane x) /\ holes (f_border x) = [] /\
    (outer (f_border x) = flatten l \/ k_simple K (flatten l) = true /\ (signed_area (flatten l) < 0)%Qc /\ outer (f_border x) = P2 (x3 p) (y3 p) :: rev (flatten (q :: r :: rest))).
(** the facet [y] of a print is part of a polygon of the mesh [m]: it has its plane and, for a correct kernel, covers no other ground *)
Definition part_of (K : kernel) (m : mesh) (y : face2) : Prop :=
  (exists pg x, In pg (polygons m) /\ drawn K pg x /\ f_plane y = f_plane x) /\
  forall good sgood, kernel_ok K good sgood -> (forall g z, In g (polygons m) -> drawn K g z -> good (f_border z)) ->
    exists pg x, In pg (polygons m) /\ drawn K pg x /\ f_plane y = f_plane x /\ forall p, covered K (f_border y) p -> covered K (f_border x) p.
(** a horizontal polygon at the height [h]; a polygon over a line; a mesh of such polygons *)
Definition level (pg : list (option point)) (h : Qc) : Prop := forall p, In (Some p) pg -> qd (pz p) = h.
Definition wall (pg : list (option point)) : Prop := exists a b c : Qc, ~ (a = 0 /\ b = 0)%Qc /\ forall p, In (Some p) pg -> (a * qd (px p) + b * qd (py p) + c = 0)%Qc.
Definition block (m : mesh) : Prop := forall pg, In pg (polygons m) -> wall pg \/ exists h, level pg h.
(** the heights of the horizontal polygons *)
Definition height_in (m : mesh) (h : Qc) : Prop := exists pg, In pg (polygons m) /\ level pg h.
(** [ms] are the meshes of the buildings and [t] that of the terrain which the scene file [p] of format [fmt] holds:
    an OFF directory or an OBJ file *)
Definition holds (f : fs) (listing : fs -> path -> list str) (p : path) (fmt : str) (ms : list mesh) (t : mesh) : Prop :=
  (fmt = lit "OFF" /\ exists d ns rest, resolves p d /\ no_nul d /\ f d = Some Dir /\ (forall n, In n (listing f d) -> ~ In nul n) /\ interleave ns rest (listing f d) /\
     Forall2 (building_in f d) ns ms /\ (forall n, In n rest -> ~ building_entry f d n) /\ stored_as f (d ++ [lit "terrain.off"]) (lit "terrain") t) \/
  (fmt = lit "OBJ" /\ ends_with_ci (filename p) (lit ".obj") /\ no_nul p /\ exists c rs, f p = Some (File c) /\ obj_read c = Ok rs /\ NoDup (map m_name rs) /\ m_name t = lit "terrain" /\ interleave ms [t] rs).
