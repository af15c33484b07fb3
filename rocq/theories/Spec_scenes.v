(** * Specification vocabulary for scenes assembled from OBJ and 3DS files (C79, C80). *)
From Coq Require Import String.
From Verif Require Import Base Dbl Decimal Shadow Spec_shadow Streams Spec_text Handlers Spec_io.
Close Scope string_scope.

(** the point a triple of single precision numbers stands for *)
Definition point_of_floats (q : spec_float * spec_float * spec_float) : point :=
  mkPoint (dbl_of_f32 (fst (fst q))) (dbl_of_f32 (snd (fst q))) (dbl_of_f32 (snd q)).
(** the face read from a stored triangle: its three indices in order when the stored normal
    agrees with that order, reversed otherwise *)
Definition oriented_face (lm : lib3ds_mesh) (t : lib3ds_face) (f : face) : Prop :=
  exists p q r, nth_error (lm_points lm) (N.to_nat (lf_a t)) = Some p /\ nth_error (lm_points lm) (N.to_nat (lf_b t)) = Some q /\
    nth_error (lm_points lm) (N.to_nat (lf_c t)) = Some r /\
    f = if dltb depsilon (v_det (pt_sub (point_of_floats q) (point_of_floats p)) (pt_sub (point_of_floats r) (point_of_floats q))
                            (mkVect (dbl_of_f32 (lf_nx t)) (dbl_of_f32 (lf_ny t)) (dbl_of_f32 (lf_nz t))))
        then [lf_a t; lf_b t; lf_c t] else [lf_a t; lf_c t; lf_b t].
(** the mesh a 3DS mesh is read as *)
Definition imported (lm : lib3ds_mesh) (r : mesh) : Prop :=
  m_name r = lm_name lm /\ m_points r = map point_of_floats (lm_points lm) /\ tight_box (m_points r) (m_bbox r) /\
  Forall2 (oriented_face lm) (lm_faces lm) (m_faces r).
(** the meshes below the first node named [id] whose letter is [c], in post-order *)
Definition parts_of (x : lib3ds_file) (root : node) (id : str) (c : ascii) (ps : list lib3ds_mesh) : Prop :=
  exists n ms, found_at root (c_str id) n /\ subtree_meshes (f_meshes x) n ms /\
    ps = filter (fun lm => Ascii.eqb (letter lm) c) ms.
(** [r] is the concatenation of the meshes [rs] *)
Definition joins (rs : list mesh) (r : mesh) : Prop :=
  m_points r = concat (map m_points rs) /\
  ((forall m, In m rs -> mesh_wf m) -> (sum_points rs <= two64)%N -> mesh_wf r /\ polygons r = concat (map polygons rs)).
(** a building: named [id], made of its F parts (walls) then its T parts (roofs) *)
Definition building_mesh (x : lib3ds_file) (root : node) (id : str) (b : mesh) : Prop :=
  m_name b = id /\ exists fs ts rs, parts_of x root id "F"%char fs /\ parts_of x root id "T"%char ts /\
    Forall2 imported (fs ++ ts) rs /\ joins rs b.
(** the M parts of one node *)
Definition relief_parts (x : lib3ds_file) (root : node) (id : str) (rs : list mesh) : Prop :=
  exists ps, parts_of x root id "M"%char ps /\ Forall2 imported ps rs.
(** the terrain: named "terrain", made of the M parts of the nodes named [ids], in turn *)
Definition relief_mesh (x : lib3ds_file) (root : node) (ids : list str) (t : mesh) : Prop :=
  m_name t = lit "terrain" /\ exists rss, Forall2 (relief_parts x root) ids rss /\ joins (concat rss) t.
