(** * Specification vocabulary for rings of points of the plane: edges and area (C51, C76, C88). *)
From Verif Require Import Base Geom Surface Spec_surface Projection.
Open Scope nat_scope.

(** the edges of a closed polygon, each from a vertex to the next one, the last one back to the first *)
Definition closed_edges (l : list p2) : list (p2 * p2) :=
  map (fun i => (nth i l (P2 0 0)%Qc, nth ((i + 1) mod length l) l (P2 0 0)%Qc)) (seq 0 (length l)).
(** half the sum of the cross products of the edges: the area enclosed, counted negatively where
    the ring turns clockwise *)
Definition signed_area (r : list p2) : Qc :=
  (fold_right Qcplus 0 (map (fun e => x2 (fst e) * y2 (snd e) - x2 (snd e) * y2 (fst e)) (closed_edges r)) / Q2Qc 2)%Qc.
