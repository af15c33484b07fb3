(** * Export: model of the conversions between a node's surface and a mesh: the constructors
    Mesh(name, polyhedron) and Mesh(unode) (src/lib/shadow/mesh.cpp:65-94), Face(facet, index)
    (src/lib/shadow/face.cpp:35-45), Point(Point_3) (point.cpp:27-29) and, in the other
    direction, Mesh::get_cgal_points / get_cgal_faces (mesh.cpp) used by UNode(mesh).

    [tod] is CGAL::to_double on the exact numbers of the kernel. *)
From Verif Require Import Base Dbl Geom Decimal Shadow Streams Handlers Surface Raster.
Open Scope nat_scope.

Section EXPORT.
  Context (tod : Qc -> dbl).
  (** Point::Point(Point_3), point.cpp:27-29 *)
  Definition point_of (p : p3) : point := mkPoint (tod (x3 p)) (tod (y3 p)) (tod (z3 p)).
  (** CGAL::Inverse_index: the number of a vertex in storage order *)
  Definition vertex_index (s : surface) (v : nat) : outcome N :=
    match position v (s_vertices s) with Some i => Ok (N.of_nat i) | None => UB end.
  (** Face::Face(Facet, Inverse_index), face.cpp:35-45: the number of corners is not checked *)
  Definition face_of_facet (s : surface) (f : nat) : outcome face :=
    let* l := around_facet s f in omapM (fun h => vertex_index s (s_vert s h)) l.
  (** Mesh::Mesh(string, Polyhedron), mesh.cpp:65-90 *)
  Definition mesh_of_surface (n : str) (s : surface) : outcome mesh :=
    let P := map (fun v => point_of (s_point s v)) (s_vertices s) in
    let* F := omapM (face_of_facet s) (s_facets s) in
    Ok (mkMesh n P F (compute_bbox P)).
  (** Mesh::Mesh(UNode), mesh.cpp:92-94 *)
  Definition mesh_of_unode (u : unode body) : outcome mesh := mesh_of_surface (u_name u) (b_surface (u_surf u)).
  (** the same as a total function, for the scene writers of Handlers, which take one; used
      only where the constructor is shown to succeed *)
  Definition node_mesh (u : unode body) : mesh := match mesh_of_unode u with Ok m => m | _ => mesh_empty end.
End EXPORT.

(** ** UNode(mesh), unode.cpp:93-109 *)
(** what CGAL does to a polygon soup: orient_polygon_soup, polygon_soup_to_polygon_mesh,
    is_outward_oriented, reverse_face_orientations, bbox; [t_no_box] is the default Bbox_3 *)
Record soup_tools := mkTools {
  t_orient : list p3 -> list (list N) -> list p3 * list (list N);
  t_build : list p3 -> list (list N) -> outcome surface;
  t_outward : surface -> bool;
  t_reverse : surface -> surface;
  t_bbox : surface -> box3;
  t_no_box : box3
}.
(** Mesh::get_cgal_points, mesh.cpp:207-220: a Point_3 of the exact kernel cannot be made
    from an infinity or a NaN *)
Definition exact_point (p : point) : outcome p3 :=
  if dfinite (px p) && dfinite (py p) && dfinite (pz p) then Ok (P3 (qd (px p)) (qd (py p)) (qd (pz p))) else UB.
Definition get_cgal_points (m : mesh) : outcome (list p3) := omapM exact_point (m_points m).
(** Mesh::get_cgal_faces, mesh.cpp:233-247 *)
Definition get_cgal_faces (m : mesh) : list (list N) := m_faces m.
(** CGAL::is_closed *)
Definition is_closed (s : surface) : bool := forallb (fun h => negb (is_border s h)) (s_halfedges s).
(** the body of UNode::UNode(Mesh, Point, unsigned short), unode.cpp:93-109; also of
    UNode(name, points, polygons, ...), 112-127.  surface.empty(): no vertex. *)
Definition body_of_soup (T : soup_tools) (P : list p3) (F : list (list N)) : outcome body :=
  let '(P, F) := t_orient T P F in
  let* s := t_build T P F in
  let s := if is_closed s && negb (t_outward T s) then t_reverse T s else s in
  Ok (mkBody s (match s_vertices s with [] => t_no_box T | _ => t_bbox T s end)).
Definition body_of_mesh (T : soup_tools) (m : mesh) : outcome body :=
  let* P := get_cgal_points m in body_of_soup T P (get_cgal_faces m).
Definition unode_of_mesh (T : soup_tools) (m : mesh) (ref : point) (epsg : N) : outcome (unode body) :=
  let* b := body_of_mesh T m in Ok (mkUNode (m_name m) ref epsg b).
(** UNode(name, points, polygons, ...), unode.cpp:110-125: the caller's vectors are passed by
    reference and oriented in place; they are returned with the node *)
Definition unode_of_soup (T : soup_tools) (n : str) (P : list p3) (F : list (list N)) (ref : point) (epsg : N) : outcome (unode body * (list p3 * list (list N))) :=
  let* b := body_of_soup T P F in Ok (mkUNode n ref epsg b, t_orient T P F).
