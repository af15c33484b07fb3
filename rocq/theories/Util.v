(** * Util: model of check_collinearity and extrem_points, src/lib/algorithms/util_algorithms.cpp.
    (centroid is in Raster, rotation_transform in Surface.)

    Squared distances are exact, converted to the nearest double; quotients and comparisons
    are those of doubles. *)
From Verif Require Import Base Dbl Geom Surface Projection Raster.
Open Scope nat_scope.

(** CGAL::squared_distance, CGAL::collinear *)
Definition sqdist2 (a b : p2) : Qc := ((x2 a - x2 b) * (x2 a - x2 b) + (y2 a - y2 b) * (y2 a - y2 b))%Qc.
Definition collinear2 (p q r : p2) : bool := Qceqb ((x2 q - x2 p) * (y2 r - y2 p)) ((y2 q - y2 p) * (x2 r - x2 p)).
(** check_collinearity, util_algorithms.cpp:47-55 *)
Definition check_collinearity (l : list p2) : outcome bool :=
  if length l <? 3 then Throw OutOfRange
  else match l with p :: q :: r :: _ => Ok (collinear2 p q r) | _ => UB end.
(** extrem_points, util_algorithms.cpp:57-79: the loop, then the function *)
Definition over_one (x y : dbl) : bool := dltb (dofZ 1) (ddiv x y).
Definition extrem_step (ab : p2 * p2) (c : p2) : p2 * p2 :=
  let '(a, b) := ab in
  let AB := dq (sqdist2 a b) in let AC := dq (sqdist2 a c) in let BC := dq (sqdist2 b c) in
  if over_one AC AB || over_one BC AB then
    if over_one AB AC || over_one BC AC then (c, b) else (a, c)
  else (a, b).
Definition extrem_points (l : list p2) : outcome (p2 * p2) :=
  let* a := vat l 0 in let* b := vat l 1 in Ok (fold_left extrem_step (skipn 2 l) (a, b)).
