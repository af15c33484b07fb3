(** * Specification vocabulary for the images orthoproject stores: C105. *)
From Verif Require Import Base Dbl Geom Decimal Shadow Handlers Surface Projection Raster Spec_projection Spec_raster Spec_text Spec_num Spec_arith Rootsq_proofs Props_grid.
From Coq Require Import QArith Qabs Qcanon.
Import List.
Open Scope nat_scope.

(** a print of horizontal facets whose boxes, like the pixel size [s], are multiples of 2^e, over [H] rows and [W] columns
    of squares of side [S]; its heights and the height [zr] of its reference point are doubles of size at most [M] *)
Definition plain_print (K : kernel) (fp : footprint) (s : dbl) (S : Qc) (B : box2) (H W : N) (e : Z) (M : Q) (zr : Qc) : Prop :=
  br_box (fp_proj fp) = Some B /\ lattice_scene K e B (br_facets (fp_proj fp)) s S /\ (e <= 900)%Z /\ grid B S H W /\
  Forall (drawable K B) (br_facets (fp_proj fp)) /\ (Z.of_nat (length (br_facets (fp_proj fp))) < 32768)%Z /\ (2 ^ (-1020) <= M <= 2 ^ 960)%Q /\
  Forall (fun f => is_degenerate K f = true \/ one_piece K S f /\ exists h, flat_at f h /\ is_double h /\ (Qabs (this h) <= M)%Q) (br_facets (fp_proj fp)) /\
  represents (pz (fp_ref fp)) (this zr) /\ (Qabs (this zr) <= M)%Q /\ (0 < H < 2 ^ 31)%N /\ (0 < W < 2 ^ 31)%N.
(** [g] is the double closest to the sum of the double [r] and of [q] *)
Definition closest_sum (r : dbl) (q : Qc) (g : dbl) : Prop := real_double r -> in_range (dval r + this q)%Q -> closest (dval r + this q)%Q g.
(** the image [ds] shows the print [fp]: its size; its top left corner, that of the print's box seen from the reference point,
    its pixels' size, no rotation; and each pixel, from left to right and from top to bottom, holds 0 if no facet is seen in it,
    otherwise, up to rounding, the mean of the heights seen plus the reference height *)
Definition shows (K : kernel) (fp : footprint) (s : dbl) (S : Qc) (B : box2) (H W : N) (M : Q) (zr : Qc) (ds : dataset doubles) : Prop :=
  d_xsize doubles ds = Z.of_N W /\ d_ysize doubles ds = Z.of_N H /\
  (exists x y, d_geo doubles ds = Some (x, s, dzero, y, dzero, dopp s) /\ closest_sum (px (fp_ref fp)) (xmin B) x /\ closest_sum (py (fp_ref fp)) (ymax B) y) /\
  exists band, d_band doubles ds = Some band /\ nsize band = (H * W)%N /\
    forall i j, (i < H)%N -> (j < W)%N -> exists zs v d, given K B S i j (br_facets (fp_proj fp)) zs /\ averages zs v /\ nth_error band (N.to_nat (i * W + j)) = Some d /\
      (zs = [] -> represents d 0) /\
      (zs <> [] -> exists x, represents d x /\ (Qabs (x - this (v + zr)%Qc) <= inject_Z (Z.of_nat (length zs) + 3) * 2 ^ (-52) * M)%Q).
