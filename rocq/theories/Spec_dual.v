(** * Specification vocabulary for the measures of facets and the dual graph file (C93, C94). *)
From Verif Require Import Base Dbl Decimal Shadow Streams Spec_text Spec_num Spec_arith.
From Verif Require Import Geom Surface Spec_surface Projection Spec_edges.
From Coq Require Import QArith Qabs.
Close Scope Q_scope.
Open Scope nat_scope.

(** the value of a finite double as an exact number *)
Definition value (x : dbl) : Qc := Q2Qc (dval x).
(** the sides of facet [f], in order, from its halfedge() on *)
Definition sides_of (s : surface) (f : nat) (l : list nat) : Prop := exists r, l = s_rep s f :: r /\ cycle (s_next s) l.
(** squared area of the triangle a b c, from the lengths and the angle of two sides *)
Definition tri_sq_area (a b c : p3) : Qc :=
  let u := vsub b a in let v := vsub c a in ((dot u u * dot v v - dot u v * dot u v) / qz 4)%Qc.
(** the first corner of facet [f]: the ends of its halfedge() and the end of the next one *)
Definition corner_sq_area (s : surface) (f : nat) : Qc :=
  tri_sq_area (source s (s_rep s f)) (target s (s_rep s f)) (target s (s_next s (s_rep s f))).
(** length of the boundary of the polygon of the sides [l]: rounded lengths, added in order *)
Definition rounded_perimeter (s : surface) (l : list nat) (p : dbl) : Prop :=
  exists ys, Forall2 (fun h y => rounded_length (sqdist (source s h) (target s h)) y) l ys /\ running_sum dzero ys p.
(** [n] is [v] divided by its rounded length; the null vector, and a vector whose length
    rounds to zero, stay as they are *)
Definition unit_of (v n : p3) : Prop :=
  (v = v0 /\ n = v0) \/
  (v <> v0 /\ exists L, rounded_length (dot v v) L /\ real_double L /\
     ((value L = 0%Qc /\ n = v) \/ (value L <> 0%Qc /\ vscale (value L) n = v))).
(** the vector area of a polygon: half of Newell's vector *)
Definition area_vector (pts : list p3) : p3 := vscale (/ qz 2) (newell pts).
(** [c] times six areas is the sum, over the sides pq, of (p + q) times the rounded
    determinant of p, q and the normal *)
Definition centre_of (n : p3) (a : dbl) (pts : list p3) (c : p3) : Prop :=
  exists ds, Forall2 (fun pq d => nearest_double (this (det (fst pq) (snd pq) n)) d) (cyclic_pairs pts) ds /\
    vscale (qz 6 * value a)%Qc c = vsum (map (fun x => vscale (value (snd x)) (vadd (fst (fst x)) (snd (fst x)))) (combine (cyclic_pairs pts) ds)).
(** what is written about a facet *)
Record facet_data := mkFacetData { fd_id : nat; fd_degree : nat; fd_area : dbl; fd_perimeter : dbl; fd_centre : p3; fd_normal : p3 }.
Record measured (s : surface) (f : nat) (d : facet_data) : Prop := mkMeasured {
  me_id : fd_id d = s_id s f;
  me_sides : exists l, sides_of s f l /\ fd_degree d = length l /\ rounded_perimeter s l (fd_perimeter d);
  me_area : rounded_length (corner_sq_area s f) (fd_area d) /\ real_double (fd_area d) /\ value (fd_area d) <> 0%Qc;
  me_normal : exists pts, boundary s f pts /\ unit_of (area_vector pts) (fd_normal d);
  me_centre : exists pts, boundary s f pts /\ centre_of (fd_normal d) (fd_area d) pts (fd_centre d)
}.
(** the double shown for an exact number *)
Definition converted (q : Qc) (x : dbl) : Prop :=
  (in_range (this q) -> nearest_double (this q) x) /\ (~ in_range (this q) -> exists neg, x = S754_infinity neg).
(** words separated by one space *)
Fixpoint words (l : list str) : str :=
  match l with [] => [] | [w] => w | w :: l => w ++ " "%char :: words l end.
(** [line] gives the id, the degree, the area, the perimeter, the centre and the normal *)
Definition describes (line : str) (d : facet_data) : Prop :=
  exists cx cy cz nx ny nz,
    converted (x3 (fd_centre d)) cx /\ converted (y3 (fd_centre d)) cy /\ converted (z3 (fd_centre d)) cz /\
    converted (x3 (fd_normal d)) nx /\ converted (y3 (fd_normal d)) ny /\ converted (z3 (fd_normal d)) nz /\
    line = words (print_N (N.of_nat (fd_id d)) :: print_N (N.of_nat (fd_degree d)) ::
                  map print_dbl [fd_area d; fd_perimeter d; cx; cy; cz; nx; ny; nz]).
(** row [i] of a table of bits is about facet [f]: entry [j] tells whether the facet in
    place [j] is [f] itself or shares an edge with it *)
Definition row_about (s : surface) (f : nat) (row : list bool) : Prop :=
  Forall2 (fun g b => b = true <-> g = f \/ share_edge s f g) (s_facets s) row.
(** [q] is itself a double *)
Definition a_double (q : Qc) : Prop := exists z, represents z (this q).
