(** * Specification vocabulary for scenes in OFF directories and conversions: C91, C92. *)
From Coq Require Import String.
From Verif Require Import Base Dbl Geom Decimal Shadow Spec_shadow Streams Spec_text Handlers Spec_io Surface Spec_surface Raster Export Spec_export Props_mesheq.
Close Scope string_scope.
Open Scope nat_scope.

(** [a] is the name of file [n] without its extension, which is ".off" up to case *)
Definition off_named (n a : str) : Prop := exists w, n = a ++ w /\ same_ignoring_case w (lit ".off").
(** the mesh stored as OFF in a file, under another name *)
Definition stored_as (f : fs) (p : path) (a : str) (x : mesh) : Prop := exists c r, f p = Some (File c) /\ off_read c = Ok r /\
  m_name x = a /\ m_points x = m_points r /\ m_faces x = m_faces r /\ m_bbox x = m_bbox r.
(** entries of the directory [d] that are buildings *)
Definition building_entry (f : fs) (d : path) (n : str) : Prop := a_file f (d ++ [n]) /\ exists a, off_named n a /\ a <> lit "terrain".
Definition building_in (f : fs) (d : path) (n : str) (x : mesh) : Prop := exists a, off_named n a /\ a <> lit "terrain" /\ stored_as f (d ++ [n]) a x.

(** a mesh whose polygons CGAL takes as they are: the soup is left alone by the orientation and
    built as it is, and it is open or faces outwards *)
Definition taken_as_is (T : soup_tools) (m : mesh) : Prop :=
  simple_faces m /\ (forall p, In p (m_points m) -> pt_real p) /\ exists P s,
    Forall2 at_point (m_points m) P /\ t_orient T P (m_faces m) = (P, m_faces m) /\ t_build T P (m_faces m) = Ok s /\ built_as P (m_faces m) s /\
    ((exists h, In h (s_halfedges s) /\ s_facet s h = None) \/ t_outward T s = true).
(** the same mesh: name, points (by ==) and faces (up to rotation) *)
Definition same_mesh (x y : mesh) : Prop := m_name y = m_name x /\ mesh_eqb x y = Ok true.
