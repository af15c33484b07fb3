(** * Selfadd: the prints' remaining operators, and [+=] with the same object on both
    sides (src/lib/projection/brick_projection.cpp, scene_projection.cpp). *)
From Verif Require Import Base Dbl Shadow Geom Surface Projection.
Import List.

Section KERNEL.
Context (K : kernel).
(** operator !=(BrickPrint, BrickPrint), brick_projection.cpp:442-445 *)
Definition brick_neqb (a b : brick) : bool := negb (brick_eqb a b).
(** operator +(BrickPrint, BrickPrint), brick_projection.cpp:433-437: a copy of lhs, then += *)
Definition brick_plus (a b : brick) : outcome brick := add_brick K (mkBrick (br_box a) (br_facets a)) b.
(** operator !=(FootPrint, FootPrint), scene_projection.cpp:178-181 *)
Definition foot_neqb (a b : footprint) : bool := negb (foot_eqb a b).

(** BrickPrint::operator +=(FacePrint), brick_projection.cpp:293-323, when the facet is an
    element of the vector the loop of 327-331 runs over: [push_back] and the assignment of the
    result invalidate the reference to the facet, whose bounding box is read afterwards, and the
    iterators of the loop.  Only the path that leaves the vector alone is defined. *)
Definition add_own_face (b : brick) (f : face2) : outcome brick :=
  if negb (overlaps K b (f_border f)) then UB
  else
    let* u := is_under K b f in
    if u then Ok (mkBrick (box_add (br_box b) (face_box f)) (br_facets b))
    else let* _ := occlude_all K [f] (br_facets b) in UB.
(** BrickPrint::operator +=(BrickPrint), brick_projection.cpp:324-337, called as [b += b]: the
    filter runs first, so the loop sees the filtered facets *)
Definition add_brick_self (b : brick) : outcome brick :=
  let b := brick_filter K b in
  let* r := ofold (fun b f => if face_empty f || is_degenerate K f then Ok b else add_own_face b f) (br_facets b) b in
  Ok (brick_filter K r).
(** FootPrint::operator +=, scene_projection.cpp:135-147, called as [f += f]: on an empty print
    line 138 is a self-assignment, which changes nothing *)
Definition foot_add_self (a : footprint) : footprint * outcome unit :=
  match br_facets (fp_proj a) with
  | [] => (a, Ok tt)
  | _ =>
    if pt_neqb (fp_ref a) (fp_ref a) || negb (fp_epsg a =? fp_epsg a)%N then (a, Throw LogicError)
    else match add_brick_self (fp_proj a) with
         | Ok p => (mkFoot (fp_name a) (fp_ref a) (fp_epsg a) p, Ok tt)
         | Throw e => (a, Throw e)
         | UB => (a, UB)
         end
  end.
End KERNEL.
