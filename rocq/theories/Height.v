(** * Height: model of contains and get_height of facet prints and prints at points with double
    coordinates (InexactPoint_2), face_projection.cpp:134-137,264-268 and
    brick_projection.cpp:123-127,197-211.  get_plane_height is [iplane_height] of Raster. *)
From Verif Require Import Base Dbl Geom Decimal Shadow Surface Projection Raster.
Open Scope nat_scope.

Section HEIGHT.
Context (K : kernel).
(** to_exact(InexactPoint_2): a Point_2 of the exact kernel cannot be made from an infinity or a NaN *)
Definition exact_p2 (p : dbl * dbl) : outcome p2 :=
  if dfinite (fst p) && dfinite (snd p) then Ok (P2 (qd (fst p)) (qd (snd p))) else UB.
(** FacePrint::contains(InexactPoint_2), face_projection.cpp:264-268 *)
Definition iface_contains (f : face2) (p : dbl * dbl) : outcome bool := let* q := exact_p2 p in Ok (face_contains K f q).
(** FacePrint::get_height(InexactPoint_2), face_projection.cpp:134-137: the product of two
    Booleans, converted to double, and of the height of the plane, which is always computed; the
    order of evaluation is not specified, the model takes them from left to right *)
Definition iface_height (f : face2) (p : dbl * dbl) : outcome dbl :=
  let* c := iface_contains f p in
  let* z := iplane_height doubles f p in
  Ok (dmul (dofZ (if negb (is_degenerate K f) && c then 1 else 0)) z).
(** BrickPrint::contains(InexactPoint_2), brick_projection.cpp:123-127 *)
Definition ibrick_contains (b : brick) (p : dbl * dbl) : outcome bool := let* q := exact_p2 p in Ok (brick_contains K b q).
(** BrickPrint::get_height(InexactPoint_2), brick_projection.cpp:197-211 *)
Definition ibrick_height (b : brick) (p : dbl * dbl) : outcome dbl :=
  let* c := ibrick_contains b p in
  if c then ofold (fun t f => let* z := iface_height f p in Ok (dadd t z)) (br_facets b) dzero else Ok dzero.
End HEIGHT.
