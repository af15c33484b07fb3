(** * Dual: measures of the facets of a node in doubles, the lines of the dual graph file
    (src/lib/scene/unode.cpp:380-428, 506-522) and the sums of
    src/lib/algorithms/unode_algorithms.cpp:17-28, 84-117.

    Coordinates are exact (Epeck); CGAL's approximate_sqrt is the square root of the nearest
    double (CGAL converts with to_double, which may be off by a relative 1e-5 when it has not
    evaluated the exact value; simplification, as in Raster). *)
From Verif Require Import Base Dbl Geom Decimal Shadow Streams Handlers Surface Raster.
Open Scope nat_scope.

(** approximate_sqrt(x) for the exact kernel: std::sqrt(to_double(x)) *)
Definition root_d (x : Qc) : dbl := dsqrt (dq x).
(** a double entering an exact computation: Gmpq(x) of an infinity or a NaN is undefined *)
Definition exactly (x : dbl) : outcome Qc := if dfinite x then Ok (qd x) else UB.
(** exact division by a double: division by zero is undefined *)
Definition divisor (x : dbl) : outcome Qc := let* q := exactly x in if Qceqb q 0 then UB else Ok q.

(** squared_area of a triangle *)
Definition sq_area (a b c : p3) : Qc := let v := cross (vsub b a) (vsub c a) in (dot v v / qz 4)%Qc.
(** UNode::area(facet), unode.cpp:404-409: face_area of CGAL is that of the triangle made by
    the ends of halfedge() and the end of the next halfedge; nothing else is looked at *)
Definition facet_area (s : surface) (f : nat) : dbl :=
  let h := s_rep s f in
  root_d (sq_area (s_point s (s_vert s (s_opp s h))) (s_point s (s_vert s h)) (s_point s (s_vert s (s_next s h)))).
(** UNode::circumference(facet), unode.cpp:410-428 *)
Definition side_d (s : surface) (h : nat) : dbl := root_d (sqdist (s_point s (s_vert s h)) (s_point s (s_vert s (s_opp s h)))).
Definition perimeter (s : surface) (f : nat) : outcome dbl :=
  let* l := around_facet s f in Ok (fold_left (fun t h => dadd t (side_d s h)) l dzero).
(** UNode::normal(facet), unode.cpp:399-403: compute_face_normal of CGAL, the sum of half the
    cross products of a fan, divided by its rounded length; a null vector, or one whose length
    rounds to zero, is left alone *)
Definition normalized3 (v : p3) : outcome p3 :=
  if p3_eqb v v0 then Ok v
  else let* q := exactly (root_d (dot v v)) in Ok (if Qceqb q 0 then v else vscale (/ q) v).
Definition unit_normal (s : surface) (f : nat) : outcome p3 :=
  let* v := facet_normal s f in normalized3 (vscale (/ qz 2) v).
(** UNode::centroid(facet), unode.cpp:380-398 *)
Definition centre_step (n : p3) (c : p3) (pq : p3 * p3) : outcome p3 :=
  let* d := exactly (dq (det (fst pq) (snd pq) n)) in
  Ok (vadd c (vscale (/ qz 6) (vscale d (vadd (fst pq) (snd pq))))).
Definition facet_centre (s : surface) (f : nat) : outcome p3 :=
  let* l := facet_points s f in
  let* n := unit_normal s f in
  let* c := ofold (centre_step n) (pairs l) v0 in
  let* a := divisor (facet_area s f) in
  Ok (vscale (/ a) c).
(** a Point_3 or Vector_3 on a stream: its coordinates as doubles *)
Definition print_p3 (p : p3) : str := print_dbl (dq (x3 p)) ++ [ch_sp] ++ print_dbl (dq (y3 p)) ++ [ch_sp] ++ print_dbl (dq (z3 p)).
(** one line of facet data, unode.cpp:508-515; facet_degree() is the length of the circulation *)
Definition facet_line (s : surface) (f : nat) : outcome str :=
  let* l := around_facet s f in
  let* p := perimeter s f in
  let* c := facet_centre s f in
  let* n := unit_normal s f in
  Ok (print_N (N.of_nat (s_id s f)) ++ [ch_sp] ++ print_N (N.of_nat (length l)) ++ [ch_sp] ++ print_dbl (facet_area s f) ++ [ch_sp] ++
      print_dbl p ++ [ch_sp] ++ print_p3 c ++ [ch_sp] ++ print_p3 n ++ [ch_nl]).

(** ** Sums over a node *)
(** area(UNode), unode_algorithms.cpp:84-95 *)
Definition unode_area (s : surface) : dbl := fold_left (fun t f => dadd t (facet_area s f)) (s_facets s) dzero.
(** total_edge_length, unode_algorithms.cpp:97-117 *)
Definition edge_total (s : surface) : dbl := fold_left (fun t h => dadd t (side_d s h)) (s_halfedges s) dzero.
(** border_length, unode_algorithms.cpp:17-28; [border] as in Edges *)
Definition border_total (border : option nat) (s : surface) : outcome dbl :=
  match border with
  | None => UB
  | Some k => Ok (fold_left (fun t h => dadd t (root_d (sqdist (s_point s (s_vert s h)) (s_point s (s_vert s (s_next s h)))))) (skipn k (s_halfedges s)) dzero)
  end.
