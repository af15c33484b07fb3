(** * Specification vocabulary for lengths of edges and for the pruning helpers (C86-C88). *)
From Verif Require Import Base Dbl Spec_text Spec_num Spec_arith.
From Verif Require Import Geom Surface Spec_surface Projection.
From Verif Require Export Spec_ring.
From Coq Require Import QArith Qabs.
Open Scope nat_scope.

(** ** Correctly rounded square roots: no double is closer to the root of [X] than [y]; the
    comparison with another double [z] is that of the root with the middle of [y] and [z] *)
Definition rounded_root (X : Q) (y : dbl) : Prop :=
  real_double y /\ (0 <= dval y)%Q /\
  forall z, real_double z -> (0 <= dval z)%Q ->
    let mid := ((1#2) * (dval y + dval z))%Q in
    ((dval y < dval z)%Q -> (X <= mid * mid)%Q) /\ ((dval z < dval y)%Q -> (mid * mid <= X)%Q).

(** ** Borders *)
(** [B] lists the halfedges of the border *)
Definition border_list (s : surface) (B : list nat) : Prop := NoDup B /\ forall h, In h B <-> In h (s_halfedges s) /\ s_facet s h = None.
(** storage after normalize_border: from position [k] on, exactly the halfedges of border edges *)
Definition normalized (s : surface) (k : nat) : Prop :=
  forall h, In h (skipn k (s_halfedges s)) <-> In h (s_halfedges s) /\ (s_facet s h = None \/ s_facet s (s_opp s h) = None).
(** every edge has a facet on at least one side *)
Definition no_stray_edge (s : surface) : Prop := forall h, In h (s_halfedges s) -> s_facet s h = None -> s_facet s (s_opp s h) <> None.
(** length of the edge of [h] *)
Definition side_length (root : Qc -> Qc) (s : surface) (h : nat) : Qc := root (sqdist (target s h) (source s h)).
Definition total_length (root : Qc -> Qc) (s : surface) (l : list nat) : Qc := qsum (map (side_length root s) l).

(** ** Planes *)
Record plane3 := mkPlane3 { normal3 : p3; offset3 : Qc }.
Definition proper_plane (P : plane3) : Prop := normal3 P <> v0.
Definition lies_on (P : plane3) (p : p3) : Prop := dot (normal3 P) p = offset3 P.
(** the points lie on a common plane *)
Definition coplanar (l : list p3) : Prop := exists P, proper_plane P /\ forall p, In p l -> lies_on P p.
(** three points on a line *)
Definition straight (a b c : p3) : Prop := cross (vsub b a) (vsub c a) = v0.
(** both sides of the edge of [h] are facets *)
Definition inner_edge (s : surface) (h : nat) : Prop := s_facet s h <> None /\ s_facet s (s_opp s h) <> None.
(** the corner of the facet after [h], and the next point of the facet on the other side *)
Definition fold_points (s : surface) (h : nat) : list p3 :=
  [target s h; target s (s_next s h); target s (s_next s (s_next s h)); target s (s_next s (s_opp s h))].
(** two halfedges along the same segment *)
Definition same_segment (s : surface) (h k : nat) : Prop :=
  (target s h = target s k /\ source s h = source s k) \/ (target s h = source s k /\ source s h = target s k).

(** ** Lengths of the edges of polygons *)
Definition sq_length (e : p2 * p2) : Qc :=
  ((x2 (snd e) - x2 (fst e)) * (x2 (snd e) - x2 (fst e)) + (y2 (snd e) - y2 (fst e)) * (y2 (snd e) - y2 (fst e)))%Qc.
(** [y] is the rounded root of the double nearest to the squared length [X] *)
Definition rounded_length (X : Qc) (y : dbl) : Prop :=
  (in_range (this X) -> exists d, nearest_double (this X) d /\ rounded_root (dval d) y) /\ (~ in_range (this X) -> y = S754_infinity false).
(** sum from the first to the last entry, rounded after each addition; an infinity stays *)
Definition adds (t x r : dbl) : Prop :=
  (real_double t /\ real_double x /\ in_range (dval t + dval x) /\ nearest_double (dval t + dval x) r) \/
  (~ (real_double t /\ real_double x /\ in_range (dval t + dval x)) /\ r = S754_infinity false).
Inductive running_sum : dbl -> list dbl -> dbl -> Prop :=
| rs_nil t : running_sum t [] t
| rs_cons t x l r s : adds t x r -> running_sum r l s -> running_sum t (x :: l) s.
(** an edge along one of the axes, between points with integer coordinates, [n] long *)
Definition axis_edge (e : p2 * p2) (n : Z) : Prop :=
  exists x y x' y' : Z, fst e = P2 (Geom.qz x) (Geom.qz y) /\ snd e = P2 (Geom.qz x') (Geom.qz y') /\ (x = x' \/ y = y') /\ n = (Z.abs (x' - x) + Z.abs (y' - y))%Z.
