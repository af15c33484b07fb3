(** * Specification vocabulary for prints (C49-C58, C76).

    Regions of the plane are described by what a point can ask: strictly inside, on an
    edge, strictly outside.  [kernel_ok] lists what is assumed of CGAL's polygon
    operations: at a point that is on no edge of the operands they are the Boolean
    operations, and their results have no other edges. *)
From Verif Require Import Base Geom Decimal Shadow Handlers Surface Spec_surface Projection Spec_ring.
Open Scope nat_scope.

Section KERNEL.
Context (K : kernel).
(** [p] lies on no edge of the polygon *)
Definition clear (P : poly) (p : p2) : Prop := k_side K (outer P) p <> Boundary /\ forall h, In h (holes P) -> k_side K h p <> Boundary.
(** [p] lies strictly inside it *)
Definition inside (P : poly) (p : p2) : Prop := k_side K (outer P) p = Inside /\ forall h, In h (holes P) -> k_side K h p = Outside.
(** [p] lies inside it or on an edge *)
Definition covered (P : poly) (p : p2) : Prop := k_side K (outer P) p <> Outside /\ forall h, In h (holes P) -> k_side K h p <> Inside.
(** the same for a list of polygons *)
Definition all_clear (l : list poly) (p : p2) : Prop := forall P, In P l -> clear P p.
Definition some_inside (l : list poly) (p : p2) : Prop := exists P, In P l /\ inside P p.
Definition some_covered (l : list poly) (p : p2) : Prop := exists P, In P l /\ covered P p.
(** no point is inside two of them *)
Definition apart (l : list poly) : Prop := ForallOrdPairs (fun P Q => forall p, ~ (inside P p /\ inside Q p)) l.
End KERNEL.

(** what is assumed of sums of doubles: rounding leaves doubles alone *)
Record rnd_ok (K : kernel) : Prop := mkRndOk {
  rnd_zero : k_rnd K 0%Qc = 0%Qc;
  rnd_tod : forall z, k_rnd K (k_tod K z) = k_tod K z;
  rnd_rnd : forall z, k_rnd K (k_rnd K z) = k_rnd K z
}.
(** numbers added one after the other, from 0, every sum rounded *)
Definition rounded_sum (K : kernel) (zs : list Qc) : Qc := fold_left (fun t z => k_rnd K (t + z)%Qc) zs 0%Qc.

(** ** Boxes *)
Definition in_box (b : option box2) (p : p2) : Prop :=
  match b with None => False | Some b => (xmin b <= x2 p /\ x2 p <= xmax b /\ ymin b <= y2 p /\ y2 p <= ymax b)%Qc end.
(** [a] lies within [b] *)
Definition box_le (a b : option box2) : Prop := forall p, in_box a p -> in_box b p.

(** [good] are the polygons CGAL accepts (simple outer ring, holes inside it, ...); [sgood]
    the polygon sets made of them. *)
Record kernel_ok (K : kernel) (good : poly -> Prop) (sgood : k_set K -> Prop) : Prop := mkKernelOk {
  ok_none : sgood (k_none K) /\ k_pieces K (k_none K) = [];
  ok_of : forall P, good P -> sgood (k_of K P);
  ok_join : forall s P, sgood s -> good P -> sgood (k_join K s P);
  ok_inter : forall s P, sgood s -> good P -> sgood (k_inter K s P);
  ok_diff : forall s P, sgood s -> good P -> sgood (k_diff K s P);
  ok_pieces : forall s, sgood s -> Forall good (k_pieces K s) /\ apart K (k_pieces K s);
  ok_null : forall s, sgood s -> (k_null K s = true <-> k_pieces K s = []);
  ok_inter2 : forall P Q, good P -> good Q -> Forall good (k_inter2 K P Q) /\ apart K (k_inter2 K P Q);
  (* off the edges of the operands: Boolean operations *)
  at_of : forall P p, good P -> clear K P p ->
    all_clear K (k_pieces K (k_of K P)) p /\ (some_inside K (k_pieces K (k_of K P)) p <-> inside K P p);
  at_join : forall s P p, sgood s -> good P -> all_clear K (k_pieces K s) p -> clear K P p ->
    all_clear K (k_pieces K (k_join K s P)) p /\ (some_inside K (k_pieces K (k_join K s P)) p <-> some_inside K (k_pieces K s) p \/ inside K P p);
  at_inter : forall s P p, sgood s -> good P -> all_clear K (k_pieces K s) p -> clear K P p ->
    all_clear K (k_pieces K (k_inter K s P)) p /\ (some_inside K (k_pieces K (k_inter K s P)) p <-> some_inside K (k_pieces K s) p /\ inside K P p);
  at_diff : forall s P p, sgood s -> good P -> all_clear K (k_pieces K s) p -> clear K P p ->
    all_clear K (k_pieces K (k_diff K s P)) p /\ (some_inside K (k_pieces K (k_diff K s P)) p <-> some_inside K (k_pieces K s) p /\ ~ inside K P p);
  at_inter2 : forall P Q p, good P -> good Q -> clear K P p -> clear K Q p ->
    all_clear K (k_inter2 K P Q) p /\ (some_inside K (k_inter2 K P Q) p <-> inside K P p /\ inside K Q p);
  (* everywhere: what is cut out of a region lies in it, edges included *)
  in_of : forall P p, good P -> some_covered K (k_pieces K (k_of K P)) p -> covered K P p;
  in_join : forall s P p, sgood s -> good P -> some_covered K (k_pieces K (k_join K s P)) p -> some_covered K (k_pieces K s) p \/ covered K P p;
  in_inter : forall s P p, sgood s -> good P -> some_covered K (k_pieces K (k_inter K s P)) p -> some_covered K (k_pieces K s) p /\ covered K P p;
  in_diff : forall s P p, sgood s -> good P -> some_covered K (k_pieces K (k_diff K s P)) p -> some_covered K (k_pieces K s) p;
  in_inter2 : forall P Q p, good P -> good Q -> some_covered K (k_inter2 K P Q) p -> covered K P p /\ covered K Q p;
  inside_of : forall P p, good P -> some_inside K (k_pieces K (k_of K P)) p -> inside K P p;
  inside_diff : forall s P p, sgood s -> good P -> some_inside K (k_pieces K (k_diff K s P)) p -> some_inside K (k_pieces K s) p;
  inside_inter2 : forall P Q p, good P -> good Q -> some_inside K (k_inter2 K P Q) p -> inside K P p /\ inside K Q p;
  (* equal polygons are the same region *)
  same_poly : forall P Q p, good P -> good Q -> poly_eqb P Q = true -> (covered K P p <-> covered K Q p);
  (* vertices belong to the polygon; a polygon lies in the box of its outer ring *)
  vertex_in : forall P v, good P -> In v (outer P) -> covered K P v;
  side_box : forall P p, good P -> k_side K (outer P) p <> Outside -> in_box (ring_box (outer P)) p;
  ok_rnd : rnd_ok K
}.

(** ** Heights *)
(** the height of facet [f] over [p] *)
Definition height_is (K : kernel) (f : face2) (p : p2) (z : Qc) : Prop := plane_height K f p = Ok z.
(** over every point of [R], [f] is strictly higher than [g]; they have the same height *)
Definition above (K : kernel) (R : p2 -> Prop) (f g : face2) : Prop :=
  forall p zf zg, R p -> height_is K f p zf -> height_is K g p zg -> (zg < zf)%Qc.
Definition level (K : kernel) (R : p2 -> Prop) (f g : face2) : Prop :=
  forall p zf zg, R p -> height_is K f p zf -> height_is K g p zg -> zf = zg.
(** the planes of [f] and [g] do not cross over [R] *)
Definition uncrossed (K : kernel) (R : p2 -> Prop) (f g : face2) : Prop := above K R f g \/ above K R g f \/ level K R f g.
(** the two facets do not cross: over no component of the overlap of their regions, nor over
    the whole of [g] if that lies in [f] *)
Definition no_crossing (K : kernel) (f g : face2) : Prop :=
  (forall i, In i (k_inter2 K (f_border f) (f_border g)) -> uncrossed K (inside K i) f g) /\
  ((forall p, covered K (f_border g) p -> covered K (f_border f) p) -> uncrossed K (inside K (f_border g)) f g).
(** the point at which the program compares two facets is inside the region compared: it
    is the centroid of the first three vertices, so this holds for strictly convex regions *)
Definition sampled_inside (K : kernel) (good : poly -> Prop) : Prop := forall P, good P -> exists p, sample (outer P) = Ok p /\ inside K P p.

(** facets that the program does not discard *)
Definition proper (K : kernel) (good : poly -> Prop) (f : face2) : Prop := good (f_border f) /\ is_degenerate K f = false /\ outer (f_border f) <> [].
(** [x] shows the surface of [f] *)
Definition part_of (f x : face2) : Prop := f_id x = f_id f /\ f_plane x = f_plane f.
(** the facets of a print visible at [p] *)
Definition seen (K : kernel) (b : brick) (p : p2) : list face2 := filter (fun f => face_contains K f p) (br_facets b).

(** ** Histories of a print: [built b l] - [b] was made by the public operations and [l]
    are the facets that were put in, in order *)
Inductive built (K : kernel) : brick -> list face2 -> Prop :=
| b_new : built K brick_empty []
| b_face f : built K (brick_of f) [f]
| b_add b l f b' : built K b l -> add_face K b f = Ok b' -> built K b' (l ++ [f])
| b_sum b l c m b' : built K b l -> built K c m -> add_brick K b c = Ok b' ->
    built K b' (l ++ filter (fun f => negb (face_empty f || is_degenerate K f)) (br_facets c))
| b_filter b l : built K b l -> built K (brick_filter K b) l.
(** union of boxes *)
Definition boxes (l : list face2) : option box2 := fold_right (fun f b => box_add (face_box f) b) None l.

(** [b'] shows, at every point off the edges, the uppermost of [f] and of the facets [old]
    there: exactly one facet, unless nothing is there *)
Definition upper_envelope (K : kernel) (old : list face2) (f : face2) (b' : brick) : Prop :=
  forall p, (forall g, In g old -> clear K (f_border g) p) -> clear K (f_border f) p ->
    ((forall g, In g old -> ~ inside K (f_border g) p) -> ~ inside K (f_border f) p -> seen K b' p = []) /\
    ((forall g, In g old -> ~ inside K (f_border g) p) -> inside K (f_border f) p -> exists x, seen K b' p = [x] /\ part_of f x) /\
    (forall g, In g old -> inside K (f_border g) p -> ~ inside K (f_border f) p -> exists x, seen K b' p = [x] /\ part_of g x) /\
    (forall g, In g old -> inside K (f_border g) p -> inside K (f_border f) p ->
      exists x zg zf, seen K b' p = [x] /\ height_is K g p zg /\ height_is K f p zf /\
        ((part_of g x /\ (zf <= zg)%Qc) \/ (part_of f x /\ (zg <= zf)%Qc))).

(** the part of [f] that the first facets of the print [old] leave visible is never empty
    and never negligible, whichever number of them is considered *)
Definition never_hidden (K : kernel) (f : face2) (old : list face2) : Prop :=
  forall k res cs, k < length old -> occlude_all K [f] (firstn k old) = Ok (res, cs) ->
    cs <> [] /\ Forall (fun c => is_degenerate K c = false /\ outer (f_border c) <> []) cs.
(** ... and moreover is a single polygon *)
Definition one_piece (K : kernel) (f : face2) (old : list face2) : Prop :=
  forall k res cs, k < length old -> occlude_all K [f] (firstn k old) = Ok (res, cs) ->
    exists c, cs = [c] /\ is_degenerate K c = false /\ outer (f_border c) <> [].

(** ** Planes and equality of prints *)
Definition on_plane (pl : plane) (p : p3) : Prop := (pl_a pl * x3 p + pl_b pl * y3 p + pl_c pl * z3 p + pl_d pl = 0)%Qc.
Definition vertical (pl : plane) : Prop := pl_c pl = 0%Qc.
(** the same oriented plane: positive multiples of each other's equation; planes without a
    normal are not told apart *)
Definition same_plane (h p : plane) : Prop :=
  (pl_a h = 0 /\ pl_b h = 0 /\ pl_c h = 0 /\ pl_a p = 0 /\ pl_b p = 0 /\ pl_c p = 0)%Qc \/
  exists k, (0 < k)%Qc /\ (pl_a p = k * pl_a h /\ pl_b p = k * pl_b h /\ pl_c p = k * pl_c h /\ pl_d p = k * pl_d h)%Qc.
(** the same ring, started elsewhere *)
Definition rotated (l m : list p2) : Prop := exists u v, m = u ++ v /\ l = v ++ u.
(** the same border and plane; nothing is said of the ids *)
Definition same_face (f g : face2) : Prop :=
  rotated (outer (f_border f)) (outer (f_border g)) /\ Forall2 rotated (holes (f_border f)) (holes (f_border g)) /\ same_plane (f_plane f) (f_plane g).
(** the same facets in some order *)
Definition same_facets (l m : list face2) : Prop := exists m', Permutation m m' /\ Forall2 same_face l m'.
(** no ring goes twice through a vertex *)
Definition plain (f : face2) : Prop := NoDup (outer (f_border f)) /\ Forall (@NoDup p2) (holes (f_border f)).

(** ** The print of a facet of a surface *)
Definition flatten (l : list p3) : list p2 := map (fun p => P2 (x3 p) (y3 p)) l.
(** [r] is the third vertex going round: the first one again on a facet of two vertices *)
Definition print_of (K : kernel) (s : surface) (f : nat) (x : face2) : Prop :=
  exists p q rest, let l := p :: q :: rest in let r := hd p rest in
    boundary s f l /\ f_id x = s_id s f /\
    (pl_a (f_plane x) = x3 (cross (vsub q p) (vsub r p)) /\ pl_b (f_plane x) = y3 (cross (vsub q p) (vsub r p)) /\ pl_c (f_plane x) = z3 (cross (vsub q p) (vsub r p))) /\
    on_plane (f_plane x) p /\ on_plane (f_plane x) q /\ on_plane (f_plane x) r /\
    holes (f_border x) = [] /\
    (k_simple K (flatten l) = true -> (0 <= signed_area (outer (f_border x)))%Qc) /\
    (outer (f_border x) = flatten l \/
     k_simple K (flatten l) = true /\ (signed_area (flatten l) < 0)%Qc /\ outer (f_border x) = P2 (x3 p) (y3 p) :: rev (flatten (q :: rest))).