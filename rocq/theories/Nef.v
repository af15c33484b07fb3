(** * Nef: model of UNode(name, meshes, reference point, EPSG), src/lib/scene/unode.cpp:42-92:
    the union of several meshes by way of Nef polyhedra. *)
From Verif Require Import Base Dbl Geom Decimal Shadow Streams Handlers Surface Raster Export.
Open Scope nat_scope.

(** what CGAL does: stitch_borders, the filling of every hole by triangulate_hole (60-64, all of
    the loop), and the operations of Nef_polyhedron_3: the default constructor, the conversion from
    a polyhedron, +=, is_simple and convert_to_polyhedron *)
Record nef_tools (N : Type) := mkNef {
  n_stitch : surface -> surface;
  n_fill : surface -> outcome surface;
  n_empty : N;
  n_from : surface -> outcome N;
  n_union : N -> N -> N;
  n_simple : N -> bool;
  n_convert : N -> outcome surface
}.
Arguments mkNef {N}. Arguments n_stitch {N}. Arguments n_fill {N}. Arguments n_empty {N}. Arguments n_from {N}. Arguments n_union {N}. Arguments n_simple {N}. Arguments n_convert {N}.
(** the lambda of 54-78 *)
Definition repaired {N} (T : soup_tools) (C : nef_tools N) (m : mesh) : outcome surface :=
  let* P := get_cgal_points m in
  let '(P, F) := t_orient T P (get_cgal_faces m) in
  let* s := t_build T P F in
  let* s := n_fill C (n_stitch C s) in
  Ok (if is_closed s && negb (t_outward T s) then t_reverse T s else s).
(** a default Polyhedron *)
Definition no_surface : surface := mkSurf [] (fun h => h) (fun h => h) (fun _ => 0) (fun _ => None) [] (fun _ => 0) (fun _ => 0) [] (fun _ => v0).
(** UNode::UNode(string, vector<Mesh>, Point, unsigned short), unode.cpp:42-92 *)
Definition unode_of_meshes {N} (T : soup_tools) (C : nef_tools N) (n : str) (ms : list mesh) (ref : point) (epsg : BinNums.N) : outcome (unode body) :=
  let* ss := omapM (repaired T C) ms in
  let* u := ofold (fun acc s => let* x := n_from C s in Ok (n_union C acc x)) ss (n_empty C) in
  let* s := if n_simple C u then n_convert C u else Ok no_surface in
  Ok (mkUNode n ref epsg (mkBody s (match s_vertices s with [] => t_no_box T | _ => t_bbox T s end))).
