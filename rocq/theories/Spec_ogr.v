(** * Specification vocabulary for vector files (C67, C68). *)
From Verif Require Import Base Dbl Geom Decimal Shadow Handlers Surface Projection Spec_projection Raster.
Open Scope nat_scope.

(** the point moved by the reference point *)
Definition moved (ref : point) (p : p2) : p2 := P2 (x2 p + qd (px ref)) (y2 p + qd (py ref)).
Definition moved_poly (ref : point) (P : poly) : poly := mkPoly (map (moved ref) (outer P)) (map (map (moved ref)) (holes P)).
(** [q] is the moved point, its coordinates converted to doubles *)
Definition stored (K : kernel) (ref : point) (p q : p2) : Prop :=
  x2 q = k_tod K (x2 p + qd (px ref))%Qc /\ y2 q = k_tod K (y2 p + qd (py ref))%Qc.
(** the conversion to double changes nothing *)
Definition fits (K : kernel) (x : Qc) : Prop := k_tod K x = x.
Definition fits_at (K : kernel) (ref : point) (p : p2) : Prop := fits K (x2 (moved ref p)) /\ fits K (y2 (moved ref p)).
(** at least two vertices, the first and the last of which differ; they are equal *)
Definition open_ring (l : list p2) : Prop := exists a m b, l = a :: m ++ [b] /\ a <> b.
Definition shut_ring (l : list p2) : Prop := exists a m, l = a :: m ++ [a].
Definition rings (P : poly) : list (list p2) := outer P :: holes P.
(** a facet whose polygon can be stored without loss *)
Definition storable (K : kernel) (ref : point) (P : poly) : Prop :=
  forall l, In l (rings P) -> open_ring l /\ forall p, In p l -> fits_at K ref p.
Definition plane_fits (K : kernel) (pl : plane) : Prop := fits K (pl_a pl) /\ fits K (pl_b pl) /\ fits K (pl_c pl) /\ fits K (pl_d pl).
(** the plane [pl] has height [h] at [p] *)
Definition plane_at (pl : plane) (p : p2) (h : Qc) : Prop := (pl_a pl * x2 p + pl_b pl * y2 p + pl_c pl * h + pl_d pl = 0)%Qc.
(** the reference point is the origin *)
Definition at_origin (ref : point) : Prop := qd (px ref) = 0%Qc /\ qd (py ref) = 0%Qc /\ qd (pz ref) = 0%Qc.
