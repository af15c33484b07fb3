(** The domain of a print: BrickPrint::in_domain (projection/brick_projection.cpp), with boxes
    whose bounds CGAL may have rounded outwards. *)
From Verif Require Import Base Geom Decimal Shadow Handlers Surface Projection.
Open Scope nat_scope.

(** CGAL::do_overlap(Bbox_2, Bbox_2); the empty box, whose bounds are crossed infinities,
    overlaps nothing *)
Definition overlap (a b : option box2) : bool :=
  match a, b with
  | Some a, Some b =>
    if Qcltb (xmax a) (xmin b) || Qcltb (xmax b) (xmin a) then false
    else if Qcltb (ymax a) (ymin b) || Qcltb (ymax b) (ymin a) then false
    else true
  | _, _ => false
  end.
(** in_domain(Point_2), brick_projection.cpp:128-131: [box] is the box the print holds, [pbox]
    is point.bbox(), both as CGAL computed them *)
Definition in_domain (box pbox : option box2) : bool := overlap box pbox.
