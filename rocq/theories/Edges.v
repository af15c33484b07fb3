(** * Edges: model of border_length (src/lib/algorithms/unode_algorithms.cpp:17-28), of
    UNode::combinable and UNode::pruning_halfedges (src/lib/scene/unode.cpp:313-365) and of the
    circumferences of polygons and prints (util_algorithms.cpp:136-153,
    face_projection.cpp:198-201, brick_projection.cpp:266-276, scene_projection.cpp:101-108). *)
From Verif Require Import Base Dbl Geom Decimal Shadow Streams Handlers Surface Projection Raster Cli.
Open Scope nat_scope.

(** ** border_length, unode_algorithms.cpp:17-28.  [border] is the iterator returned by
    border_halfedges_begin() as a position in the halfedge list; it is a singular iterator
    (None) until Polyhedron_3::normalize_border has been called.  Sums are exact, [root] is
    the square root in doubles (simplification, as in Surface). *)
Definition next_len (root : Qc -> Qc) (s : surface) (h : nat) : Qc :=
  root (sqdist (s_point s (s_vert s h)) (s_point s (s_vert s (s_next s h)))).
Definition border_length (root : Qc -> Qc) (border : option nat) (s : surface) : outcome Qc :=
  match border with
  | None => UB
  | Some k => Ok (fold_left (fun t h => (t + next_len root s h)%Qc) (skipn k (s_halfedges s)) 0%Qc)
  end.

(** ** UNode::combinable, unode.cpp:313-333 *)
Definition combines (s : surface) (h : nat) : bool :=
  let A := s_point s (s_vert s h) in
  let B := s_point s (s_vert s (s_next s h)) in
  let C := s_point s (s_vert s (s_next s (s_next s h))) in
  let D := s_point s (s_vert s (s_next s (s_opp s h))) in
  negb (is_border_edge s h) && Qceqb (det (vsub B A) (vsub C A) (vsub D A)) 0.
Definition combinable (s : surface) (f : nat) : outcome (list nat) :=
  let* l := around_facet s f in Ok (map (s_opp s) (filter (combines s) l)).
(** the predicate of the copy_if, unode.cpp:348-360 *)
Definition same_ends (s : surface) (h k : nat) : bool :=
  let e g := s_point s (s_vert s g) in
  (p3_eqb (e k) (e h) && p3_eqb (e (s_opp s k)) (e (s_opp s h))) || (p3_eqb (e (s_opp s k)) (e h) && p3_eqb (e k) (e (s_opp s h))).
(** UNode::pruning_halfedges, unode.cpp:334-365 *)
Definition add_new (s : surface) (acc : list nat) (h : nat) : list nat := if existsb (same_ends s h) acc then acc else acc ++ [h].
Definition pruning_halfedges (s : surface) : outcome (list nat) :=
  ofold (fun acc f => let* b := combinable s f in Ok (fold_left (add_new s) b acc)) (s_facets s) [].

(** ** Circumferences in doubles *)
(** circumference(Polygon), util_algorithms.cpp:136-153 *)
Definition ring_circumference (l : list p2) : dbl :=
  fold_left (fun t e => dadd t (dsqrt (dq ((x2 (snd e) - x2 (fst e)) * (x2 (snd e) - x2 (fst e)) + (y2 (snd e) - y2 (fst e)) * (y2 (snd e) - y2 (fst e)))%Qc))) (pairs l) dzero.
(** FacePrint::circumference, face_projection.cpp:198-201 *)
Definition face_circumference (f : face2) : dbl := ring_circumference (outer (f_border f)).
(** BrickPrint::circumference, brick_projection.cpp:266-276; FootPrint::circumference,
    scene_projection.cpp:105-108 *)
Definition brick_circumference (K : kernel) (b : brick) : dbl := fold_left dadd (brick_edge_lengths K b) dzero.
Definition footprint_circumference (K : kernel) (fp : footprint) : dbl := brick_circumference K (fp_proj fp).
