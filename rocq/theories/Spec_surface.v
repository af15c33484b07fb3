(** * Specification vocabulary for surfaces (C40-C47).

    Halfedge structures are described by their cycles; geometry by vectors. *)
From Verif Require Import Base Geom Decimal Shadow Handlers Surface.
Open Scope nat_scope.

(** [l] is a cycle of [next]: distinct elements, each followed by its image *)
Definition cycle (next : nat -> nat) (l : list nat) : Prop :=
  match l with [] => False | a :: r => NoDup l /\ map next l = r ++ [a] end.
(** a well-formed halfedge surface *)
Record valid (s : surface) : Prop := mkValid {
  va_hs : NoDup (s_halfedges s);
  va_opp : forall h, In h (s_halfedges s) -> In (s_opp s h) (s_halfedges s) /\ s_opp s (s_opp s h) = h /\ s_opp s h <> h;
  va_next : forall h, In h (s_halfedges s) -> In (s_next s h) (s_halfedges s);
  va_inj : forall h k, In h (s_halfedges s) -> In k (s_halfedges s) -> s_next s h = s_next s k -> h = k;
  va_vert : forall h, In h (s_halfedges s) -> s_vert s (s_opp s (s_next s h)) = s_vert s h /\ In (s_vert s h) (s_vertices s);
  va_fs : NoDup (s_facets s);
  va_facet : forall h f, In h (s_halfedges s) -> s_facet s h = Some f -> In f (s_facets s);
  (* the halfedges of a facet form one cycle, of length at least 2, through its halfedge() *)
  va_cycle : forall f, In f (s_facets s) -> exists r, r <> [] /\ cycle (s_next s) (s_rep s f :: r) /\
    forall h, In h (s_rep s f :: r) <-> In h (s_halfedges s) /\ s_facet s h = Some f
}.

(** two facets share an edge *)
Definition share_edge (s : surface) (f g : nat) : Prop :=
  exists h, In h (s_halfedges s) /\ s_facet s h = Some f /\ s_facet s (s_opp s h) = Some g.

(** ** Text of a matrix *)
Fixpoint spaced (l : list bool) : str :=
  match l with [] => [] | [b] => [if b then "1" else "0"]%char | b :: l => (if b then "1" else "0")%char :: " "%char :: spaced l end.
Definition nl_char : ascii := "010"%char.
(** the bits occurring in a text *)
Definition bits_of (t : str) : list bool :=
  flat_map (fun c => if Ascii.eqb c "1" then [true] else if Ascii.eqb c "0" then [false] else []) t.

(** ** Geometry of facets *)
(** consecutive pairs of a cyclic list *)
Definition cyclic_pairs {A} (l : list A) : list (A * A) :=
  match l with [] => [] | a :: r => combine (a :: r) (r ++ [a]) end.
(** points of the boundary of facet [f], from its halfedge() on *)
Definition boundary (s : surface) (f : nat) (pts : list p3) : Prop :=
  exists r, cycle (s_next s) (s_rep s f :: r) /\ pts = map (fun h => s_point s (s_vert s h)) (s_rep s f :: r).
(** Newell's normal vector of a polygon *)
Definition newell (l : list p3) : p3 := vsum (map (fun pq => cross (fst pq) (snd pq)) (cyclic_pairs l)).
(** h is an inner edge between facets with parallel (or null) normals *)
Definition flat_edge (s : surface) (h : nat) : Prop :=
  exists f g pf pg, s_facet s h = Some f /\ s_facet s (s_opp s h) = Some g /\
    boundary s f pf /\ boundary s g pg /\ cross (newell pf) (newell pg) = v0.
Definition no_flat_edge (s : surface) : Prop := forall h, In h (s_halfedges s) -> ~ flat_edge s h.
(** number of edges at the target of [h], counted around it *)
Definition degree_at (s : surface) (h d : nat) : Prop :=
  exists r, cycle (fun k => s_opp s (s_next s k)) (h :: r) /\ d = length (h :: r).
(** [s'] is [s] with [n] inner edges and [n] facets less: same vertices, points, borders *)
Definition kept (s s' : surface) (n : nat) : Prop :=
  s_vertices s' = s_vertices s /\ s_point s' = s_point s /\ s_vert s' = s_vert s /\ s_opp s' = s_opp s /\
  (forall k, In k (s_halfedges s') -> In k (s_halfedges s) /\ (s_facet s' k = None <-> s_facet s k = None)) /\
  (forall k, In k (s_halfedges s) -> s_facet s k = None \/ s_facet s (s_opp s k) = None -> In k (s_halfedges s')) /\
  incl (s_facets s') (s_facets s) /\
  length (s_halfedges s) = 2 * n + length (s_halfedges s') /\ length (s_facets s) = n + length (s_facets s').
(** sum of the Newell vectors of all facets *)
Definition total_area (s : surface) (v : p3) : Prop := exists F, (forall f, In f (s_facets s) -> boundary s f (F f)) /\ v = vsum (map (fun f => newell (F f)) (s_facets s)).
(** all facets face direction [d] or its opposite, or have no area *)
Definition parallel (d a : p3) : Prop := cross a d = v0.
Definition flat (s : surface) (d : p3) : Prop := forall f pts, In f (s_facets s) -> boundary s f pts -> parallel d (newell pts).
(** a vertex with at least one edge, all its edges between two facets *)
Definition interior_vertex (s : surface) (v : nat) : Prop :=
  (exists k, In k (s_halfedges s) /\ s_vert s k = v) /\ forall k, In k (s_halfedges s) -> s_vert s k = v -> s_facet s k <> None /\ s_facet s (s_opp s k) <> None.

(** ** Stitching: facets keep their boundary points; two border sides that run along the
    same segment in opposite directions, and along no other, become one edge *)
Definition free_side (s : surface) (h : nat) : Prop :=
  In h (s_halfedges s) /\ s_facet s h <> None /\ s_facet s (s_opp s h) = None.
Definition target (s : surface) (h : nat) : p3 := s_point s (s_vert s h).
Definition source (s : surface) (h : nat) : p3 := s_point s (s_vert s (s_opp s h)).
Definition facing (s : surface) (g h : nat) : Prop := target s g = source s h /\ source s g = target s h.
Definition stitched (s s' : surface) : Prop :=
  s_facets s' = s_facets s /\
  (forall f pts, In f (s_facets s) -> boundary s f pts -> boundary s' f pts) /\
  (forall h, In h (s_halfedges s) -> s_facet s h <> None -> In h (s_halfedges s') /\ s_facet s' h = s_facet s h) /\
  (forall g h, free_side s g -> free_side s h -> facing s g h ->
     (forall k, free_side s k -> facing s g k -> k = h) -> (forall k, free_side s k -> facing s k h -> k = g) -> s_opp s' g = h).

(** ** Area centroid of a polygon by triangles from its first vertex *)
Fixpoint triangles (o : p3) (l : list p3) : list (p3 * p3 * p3) :=
  match l with a :: (b :: _) as l' => (o, a, b) :: triangles o l' | _ => [] end.
Definition tri_area (n : p3) (t : p3 * p3 * p3) : Qc := let '(o, a, b) := t in (det (vsub a o) (vsub b o) n / qz 2)%Qc.
Definition tri_center (t : p3 * p3 * p3) : p3 := let '(o, a, b) := t in vscale (/ qz 3)%Qc (vadd o (vadd a b)).
Definition poly_area (n : p3) (l : list p3) : Qc :=
  match l with [] => 0%Qc | o :: r => qsum (map (tri_area n) (triangles o r)) end.
Definition poly_center (n : p3) (l : list p3) : p3 :=
  match l with [] => v0 | o :: r => vscale (/ poly_area n l)%Qc (vsum (map (fun t => vscale (tri_area n t) (tri_center t)) (triangles o r))) end.

(** ** Boxes *)
Definition inside (b : box3) (p : p3) : Prop :=
  (x3 (lo3 b) <= x3 p /\ x3 p <= x3 (hi3 b) /\ y3 (lo3 b) <= y3 p /\ y3 p <= y3 (hi3 b) /\ z3 (lo3 b) <= z3 p /\ z3 p <= z3 (hi3 b))%Qc.
(** the smallest box around the points *)
Definition tight (b : box3) (pts : list p3) : Prop :=
  (forall p, In p pts -> inside b p) /\
  (exists p, In p pts /\ x3 p = x3 (lo3 b)) /\ (exists p, In p pts /\ x3 p = x3 (hi3 b)) /\
  (exists p, In p pts /\ y3 p = y3 (lo3 b)) /\ (exists p, In p pts /\ y3 p = y3 (hi3 b)) /\
  (exists p, In p pts /\ z3 p = z3 (lo3 b)) /\ (exists p, In p pts /\ z3 p = z3 (hi3 b)).
Definition points (s : surface) : list p3 := map (s_point s) (s_vertices s).
(** two surfaces with the same connectivity *)
Definition same_connectivity (s t : surface) : Prop :=
  s_halfedges t = s_halfedges s /\ s_facets t = s_facets s /\ s_vertices t = s_vertices s /\
  (forall h, s_opp t h = s_opp s h /\ s_next t h = s_next s h /\ s_vert t h = s_vert s h /\ s_facet t h = s_facet s h) /\
  (forall f, s_rep t f = s_rep s f /\ s_id t f = s_id s f).
