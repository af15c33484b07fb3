(** * Specification vocabulary for exporting surfaces as meshes (C85). *)
From Verif Require Import Base Dbl Geom Decimal Shadow Spec_shadow Streams Spec_text Handlers Surface Spec_surface Raster.
Open Scope nat_scope.

(** the corners of facet [f], from its halfedge() on, as vertices *)
Definition corners (s : surface) (f : nat) (vs : list nat) : Prop :=
  exists r, cycle (s_next s) (s_rep s f :: r) /\ vs = map (s_vert s) (s_rep s f :: r).
(** [i] is the number of vertex [v] in storage order *)
Definition numbers (s : surface) (v : nat) (i : N) : Prop := nth_error (s_vertices s) (N.to_nat i) = Some v.
(** the point in doubles *)
Definition shown (tod : Qc -> dbl) (p : p3) : point := mkPoint (tod (x3 p)) (tod (y3 p)) (tod (z3 p)).
(** a surface all of whose facets have at least three sides *)
Definition proper (s : surface) : Prop := forall f vs, In f (s_facets s) -> corners s f vs -> 3 <= length vs.
(** the mesh [m] shows the surface [s] *)
Definition shows (tod : Qc -> dbl) (s : surface) (m : mesh) : Prop :=
  m_points m = map (shown tod) (points s) /\
  Forall2 (fun f fc => exists vs, corners s f vs /\ Forall2 (numbers s) vs fc) (s_facets s) (m_faces m) /\
  Forall2 (fun f pg => exists pts, boundary s f pts /\ pg = map (fun p => Some (shown tod p)) pts) (s_facets s) (polygons m) /\
  tight_box (m_points m) (m_bbox m).
(** the exact position of a point *)
Definition at_point (p : point) (q : p3) : Prop := x3 q = qd (px p) /\ y3 q = qd (py p) /\ z3 q = qd (pz p).
(** the surface [s] has the points [P], in order, and the faces [F], in order, each from
    some corner on *)
Definition built_as (P : list p3) (F : list (list N)) (s : surface) : Prop :=
  valid s /\ NoDup (s_vertices s) /\ points s = P /\
  Forall2 (fun fc f => exists vs fc', corners s f vs /\ rotation fc fc' /\ Forall2 (numbers s) vs fc') F (s_facets s).
(** to_double gives back every double (a zero as a zero) *)
Definition exact_on_doubles (tod : Qc -> dbl) : Prop := forall x, dvalid x = true -> dfinite x = true -> deqb x (tod (qd x)) = true.
Definition all_finite (p : point) : Prop := dfinite (px p) = true /\ dfinite (py p) = true /\ dfinite (pz p) = true.
(** what can be addressed by 64-bit sizes *)
Definition addressable (s : surface) : Prop := (nsize (s_halfedges s) < 2 ^ 60)%N /\ (nsize (s_vertices s) < 2 ^ 60)%N.
(** [x] is the surface [s] as its OFF or OBJ file gives it back: same facets, with the
    coordinates as printed and read again *)
Definition came_back (tod : Qc -> dbl) (s : surface) (x : mesh) : Prop :=
  Forall2 pt_reads_back (map (shown tod) (points s)) (m_points x) /\
  Forall2 (fun f fc => exists vs, corners s f vs /\ Forall2 (numbers s) vs fc) (s_facets s) (m_faces x).
(** a node that can be stored: proper facets, coordinates within the range of doubles *)
Definition good_node (tod : Qc -> dbl) (u : unode body) : Prop :=
  let s := b_surface (u_surf u) in valid s /\ NoDup (s_vertices s) /\ proper s /\ addressable s /\ forall p, In p (points s) -> pt_real (shown tod p).
