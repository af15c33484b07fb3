(** * Textout: model of the stream insertions of vectors, boxes, meshes and prints. *)
From Coq Require Strings.String.
Import Coq.Strings.String.StringSyntax.
Delimit Scope string_scope with string.
From Verif Require Import Base Dbl Geom Decimal Shadow Streams Handlers Surface Projection.
Open Scope nat_scope.

Definition say (s : String.string) : str := String.list_ascii_of_string s.
(** operator<<(ostream, Vector), vector.cpp:128-132 *)
Definition vector_text (v : vect) : str := print_dbl (vx v) ++ ch_sp :: print_dbl (vy v) ++ ch_sp :: print_dbl (vz v).
(** operator<<(ostream, Bbox), bbox.cpp:135-139 *)
Definition bbox_text (b : bbox) : str :=
  print_dbl (Shadow.xmin b) ++ ch_sp :: print_dbl (Shadow.xmax b) ++ ch_sp :: print_dbl (Shadow.ymin b) ++ ch_sp :: print_dbl (Shadow.ymax b) ++ ch_sp :: print_dbl (Shadow.zmin b) ++ ch_sp :: print_dbl (Shadow.zmax b).
(** operator<<(ostream, Mesh), mesh.cpp:332-346 *)
Definition mesh_text (m : mesh) : str :=
  say "#Name: "%string ++ m_name m ++ [ch_nl] ++
  say "#Bounding box: "%string ++ bbox_text (m_bbox m) ++ [ch_nl] ++
  say "OFF"%string ++ [ch_nl] ++
  print_N (nsize (m_points m)) ++ [ch_sp] ++ print_N (nsize (m_faces m)) ++ say " 0"%string ++ [ch_nl] ++
  concat (map (fun p => print_point p ++ [ch_nl]) (m_points m)) ++
  concat (map (fun f => print_face f ++ [ch_nl]) (m_faces m)).

Section PRINTS.
(** CGAL's insertions of polygons with holes, planes and boxes *)
Context (show_poly : poly -> str) (show_plane : plane -> str) (show_box : option box2 -> str).
(** operator<<(ostream, FacePrint), face_projection.cpp:335-340 *)
Definition face_text (f : face2) : str :=
  say "Id: "%string ++ print_N (N.of_nat (f_id f)) ++ [ch_nl] ++
  say "The Polygon describing borders :"%string ++ show_poly (f_border f) ++ [ch_nl] ++
  say "The supporting plane coefficients : "%string ++ show_plane (f_plane f) ++ [ch_nl].
(** operator<<(ostream, BrickPrint), brick_projection.cpp:425-431: the iterator writes a newline
    after each face *)
Definition brick_text (b : brick) : str :=
  say "Bounding box: "%string ++ show_box (br_box b) ++ [ch_nl] ++
  say "Face Projections: "%string ++ print_N (nsize (br_facets b)) ++ [ch_nl] ++
  concat (map (fun f => face_text f ++ [ch_nl]) (br_facets b)).
(** operator<<(ostream, FootPrint), scene_projection.cpp:161-169 *)
Definition foot_text (f : footprint) : str :=
  say "Name: "%string ++ fp_name f ++ [ch_nl] ++
  say "Reference Point: "%string ++ print_point (fp_ref f) ++ [ch_nl] ++
  say "EPSG index: "%string ++ print_N (fp_epsg f) ++ [ch_nl] ++
  brick_text (fp_proj f).
End PRINTS.
