(** * Properties C01-C17: boxes, meshes, faces, vectors, 3DS conversion. *)
From Verif Require Import Base Dbl Dbl_facts Shadow Shadow_hist Spec_shadow
  Shadow_proofs Face_proofs Vec_proofs Face3ds_proofs.

(** C01: bounding-box union is a least upper bound *)
Theorem C01_union_is_lub : forall a b, box_nan_free a -> box_nan_free b ->
  encloses (bbox_add a b) a /\ encloses (bbox_add a b) b /\
  (forall c, encloses c a -> encloses c b -> encloses c (bbox_add a b)) /\
  box_nan_free (bbox_add a b).
Proof. exact bbox_add_lub_proof. Qed.
Print Assumptions C01_union_is_lub.
Theorem C01_union_comm : forall a b, box_nan_free a -> box_nan_free b ->
  box_same (bbox_add a b) (bbox_add b a).
Proof. exact bbox_add_comm_proof. Qed.
Print Assumptions C01_union_comm.
Theorem C01_union_assoc : forall a b c, box_nan_free a -> box_nan_free b ->
  bbox_add (bbox_add a b) c = bbox_add a (bbox_add b c).
Proof. exact bbox_add_assoc_proof. Qed.
Print Assumptions C01_union_assoc.
Theorem C01_union_idempotent : forall a, bbox_add a a = a.
Proof. exact bbox_add_idem_proof. Qed.
Print Assumptions C01_union_idempotent.
Theorem C01_empty_right_neutral : forall a, bbox_add a bbox_empty = a.
Proof. exact bbox_add_empty_r. Qed.
Print Assumptions C01_empty_right_neutral.
Theorem C01_empty_left_neutral : forall a, box_nan_free a -> bbox_add bbox_empty a = a.
Proof. exact bbox_add_empty_l. Qed.
Print Assumptions C01_empty_left_neutral.
Example C01_example : box_nan_free (pt_bbox p123) /\ box_nan_free (pt_bbox point_default) /\
  encloses (bbox_add (pt_bbox p123) (pt_bbox point_default)) (pt_bbox p123) /\
  ~ encloses (pt_bbox p123) (pt_bbox point_default).
Proof.
  unfold box_nan_free, encloses. repeat split; try (vm_compute; reflexivity).
  intros (H & _). vm_compute in H. discriminate.
Qed.

(** C02: a constructed mesh's bounding box is tight *)
Theorem C02_mesh_box_tight : forall n P F,
  tight_box P (m_bbox (mesh_make n P F)) /\
  m_name (mesh_make n P F) = n /\ m_points (mesh_make n P F) = P /\ m_faces (mesh_make n P F) = F.
Proof. exact mesh_make_tight_proof. Qed.
Print Assumptions C02_mesh_box_tight.
Example C02_example :
  compute_bbox [p123; mkPoint dnan (dofZ 7) (dofZ (-1))] =
  mkBbox (dofZ 1) (dofZ 1) (dofZ 2) (dofZ 7) (dofZ (-1)) (dofZ 3).
Proof. vm_compute. reflexivity. Qed.

(** C03: what assignment, copy, move and swap transfer; box invariant over histories *)
Theorem C03_transfer : forall a b,
  (mesh_copy b = b) /\
  (fst (mesh_move b) = b) /\
  (fst (mesh_move_assign a b) = b) /\
  (mesh_swap a b = (b, a)) /\
  (m_name (mesh_assign a b) = m_name b /\ m_points (mesh_assign a b) = m_points b /\
   m_faces (mesh_assign a b) = m_faces b /\ m_bbox (mesh_assign a b) = m_bbox a) /\
  (forall n, let m := fst (mesh_set_name b n) in m_name m = n /\ m_points m = m_points b /\ m_faces m = m_faces b /\ m_bbox m = m_bbox b /\
     snd (mesh_set_name b n) = m) /\
  (* a moved-from mesh has no name, points or faces, but keeps its box *)
  (forall m, m = snd (mesh_move b) \/ m = snd (mesh_move_assign a b) -> m_name m = [] /\ m_points m = [] /\ m_faces m = [] /\ m_bbox m = m_bbox b).
Proof. exact C03_transfer_proof. Qed.
Print Assumptions C03_transfer.
Theorem C03_boxes_tight_without_assign : forall os s i m,
  no_copy_assign_run store_init os -> mrun store_init os = Some s -> s i = Some m ->
  tight_box (m_points m) (m_bbox m).
Proof. exact C03_boxes_tight_proof. Qed.
Print Assumptions C03_boxes_tight_without_assign.
Definition C03_history : list mop :=
  [OMake 0 [] [p123] []; ODefault 1; OCopy 2 0; OMove 3 2; OSwap 1 3; OAddAssign 1 0; OAdd 4 1 0; OSetName 4 []; OMoveAssign 3 4].
Example C03_example : exists s m, no_copy_assign_run store_init C03_history /\
  mrun store_init C03_history = Some s /\ s 3%nat = Some m /\ length (m_points m) = 3%nat.
Proof.
  eexists. eexists. split; [|split; [vm_compute; reflexivity|split; vm_compute; reflexivity]].
  cbn. repeat split; discriminate.
Qed.
(** with a copy assignment the box may no longer contain the points *)
Theorem C03_assign_refuted :
  exists os s i m p, mrun store_init os = Some s /\ s i = Some m /\ In p (m_points m) /\
    ~ box_contains_point (m_bbox m) p.
Proof. exact C03_refuted_proof. Qed.
Print Assumptions C03_assign_refuted.

(** C04: mesh sum concatenates geometry *)
Theorem C04_sum_concatenates : forall a b, mesh_wf a -> mesh_wf b ->
  (nsize (m_points a) + nsize (m_points b) <= two64)%N ->
  mesh_wf (mesh_add a b) /\
  polygons (mesh_add a b) = polygons a ++ polygons b /\
  m_points (mesh_add a b) = m_points a ++ m_points b /\
  length (m_faces (mesh_add a b)) = (length (m_faces a) + length (m_faces b))%nat.
Proof. exact C04_proof. Qed.
Print Assumptions C04_sum_concatenates.
Definition tri_mesh : mesh := mesh_make ["a"%char] [p123; point_default; mkPoint (dofZ 4) (dofZ 5) dzero] [[0;1;2]%N].
Example C04_example : mesh_wf tri_mesh /\ (nsize (m_points tri_mesh) + nsize (m_points tri_mesh) <= two64)%N /\
  m_faces (mesh_add tri_mesh tri_mesh) = [[0;1;2]; [3;4;5]]%N.
Proof.
  split; [|split; [vm_compute; discriminate|vm_compute; reflexivity]].
  intros f [<-|[]]. split; [cbn; lia|]. intros i Hi. cbn in Hi. vm_compute. intuition; subst; reflexivity.
Qed.

(** C05: associativity and units of the sum *)
Theorem C05_sum_assoc : forall a b c, m_points a <> [] -> m_points b <> [] ->
  m_name (mesh_add (mesh_add a b) c) = m_name (mesh_add a (mesh_add b c)) /\
  m_points (mesh_add (mesh_add a b) c) = m_points (mesh_add a (mesh_add b c)) /\
  m_faces (mesh_add (mesh_add a b) c) = m_faces (mesh_add a (mesh_add b c)).
Proof. exact C05_assoc_proof. Qed.
Print Assumptions C05_sum_assoc.
Theorem C05_sum_units : forall m,
  (m_name (mesh_add mesh_empty m) = m_name m /\ m_points (mesh_add mesh_empty m) = m_points m /\
   m_faces (mesh_add mesh_empty m) = m_faces m) /\
  (m_points m <> [] ->
   m_name (mesh_add m mesh_empty) = m_name m ++ [underscore] /\
   m_points (mesh_add m mesh_empty) = m_points m /\ m_faces (mesh_add m mesh_empty) = m_faces m /\
   m_bbox (mesh_add m mesh_empty) = m_bbox m).
Proof. exact C05_units_proof. Qed.
Print Assumptions C05_sum_units.
Theorem C05_empty_middle_refuted : exists a b c,
  mesh_add (mesh_add a b) c <> mesh_add a (mesh_add b c) /\ m_points a <> [] /\ m_points c <> [].
Proof. exact C05_refuted_proof. Qed.
Print Assumptions C05_empty_middle_refuted.
Example C05_example : m_points tri_mesh <> [] /\
  m_name (mesh_add (mesh_add tri_mesh tri_mesh) tri_mesh) = ["a";"_";"a";"_";"a"]%char.
Proof. split; [discriminate|vm_compute; reflexivity]. Qed.

(** C06: bounding box of a sum *)
Theorem C06_box_of_sum : forall a b,
  (m_points a <> [] -> m_bbox (mesh_add a b) = bbox_add (m_bbox a) (m_bbox b)) /\
  (m_points a = [] -> m_bbox (mesh_add a b) = m_bbox a).
Proof. exact C06_two_proof. Qed.
Print Assumptions C06_box_of_sum.
Theorem C06_box_of_fold : forall l a, m_points a = [] ->
  m_bbox (fold_left mesh_add l a) =
  fold_left bbox_add (map m_bbox (after_first_nonempty l)) (m_bbox a).
Proof. exact C06_fold_proof. Qed.
Print Assumptions C06_box_of_fold.
Theorem C06_fold_box_refuted : exists l p,
  In p (m_points (fold_left mesh_add l mesh_empty)) /\
  ~ box_contains_point (m_bbox (fold_left mesh_add l mesh_empty)) p.
Proof. exact C06_refuted_proof. Qed.
Print Assumptions C06_fold_box_refuted.
Example C06_example : m_points mesh_empty = [] /\ after_first_nonempty [mesh_empty; tri_mesh; tri_mesh] = [tri_mesh].
Proof. split; reflexivity. Qed.

(** C07: self-addition *)
Theorem C07_self_addition : forall m,
  (mesh_add_assign_self m = UB <-> m_points m <> []) /\
  (m_points m = [] -> mesh_add_assign_self m = Ok m).
Proof. exact C07_proof. Qed.
Print Assumptions C07_self_addition.

(** C08: face equality *)
Theorem C08_equality_is_rotation : forall a b, NoDup a -> a <> [] ->
  (face_eqb a b = Ok true <-> rotation a b).
Proof. exact C08_rotation_proof. Qed.
Print Assumptions C08_equality_is_rotation.
Theorem C08_equality_implies_rotation : forall a b, face_eqb a b = Ok true -> rotation a b.
Proof. exact face_eqb_rotation. Qed.
Print Assumptions C08_equality_implies_rotation.
Theorem C08_equivalence :
  (forall a, NoDup a -> a <> [] -> face_eqb a a = Ok true) /\
  (forall a b, NoDup a -> a <> [] -> face_eqb a b = Ok true -> face_eqb b a = Ok true) /\
  (forall a b c, NoDup a -> a <> [] -> face_eqb a b = Ok true -> face_eqb b c = Ok true -> face_eqb a c = Ok true).
Proof. exact C08_equivalence_proof. Qed.
Print Assumptions C08_equivalence.
Theorem C08_neq_is_negation : forall a b, NoDup a -> a <> [] \/ b <> [] ->
  face_neqb a b = omap negb (face_eqb a b).
Proof. exact C08_neq_proof. Qed.
Print Assumptions C08_neq_is_negation.
Theorem C08_repeated_index_refuted : exists a b,
  (3 <= length a)%nat /\ face_eqb a b = Ok true /\ face_neqb a b = Ok true /\
  face_eqb b a = Ok false /\ rotation b a.
Proof. exact C08_refuted_proof. Qed.
Print Assumptions C08_repeated_index_refuted.
Theorem C08_degree_zero_throws : face_eqb [] [] = Throw OutOfRange /\ face_neqb [] [] = Throw OutOfRange.
Proof. exact C08_degree0_proof. Qed.
Print Assumptions C08_degree_zero_throws.
Example C08_example : NoDup [5;7;9;2]%N /\ face_eqb [5;7;9;2]%N [9;2;5;7]%N = Ok true /\
  face_eqb [5;7;9;2]%N [5;2;9;7]%N = Ok false.
Proof. repeat split; try reflexivity. repeat constructor; cbn; intuition discriminate. Qed.

(** C09: inversion and rotation *)
Theorem C09_invert_orientation : forall f,
  (f = [] -> face_invert f = UB) /\
  (f <> [] -> exists g, face_invert f = Ok g /\ face_invert g = Ok f /\ hd_error g = hd_error f /\
     length g = length f /\ Permutation (cycle_edges g) (map flip (cycle_edges f)) /\ tl g = rev (tl f)).
Proof. exact C09_invert_proof. Qed.
Print Assumptions C09_invert_orientation.
Theorem C09_rotate : forall f n,
  (~ (0 <= n <= Z.of_nat (length f))%Z -> face_rotate f n = UB) /\
  ((0 <= n <= Z.of_nat (length f))%Z -> exists g, face_rotate f n = Ok g /\ rotation f g /\
     (forall i, (i < length f)%nat -> nth_error g i = nth_error f ((i + Z.to_nat n) mod length f)) /\
     Permutation (cycle_edges g) (cycle_edges f) /\
     (NoDup f -> f <> [] -> face_eqb f g = Ok true)).
Proof. exact C09_rotate_proof. Qed.
Print Assumptions C09_rotate.
Theorem C09_full_turn : forall f, rotate1_times (length f) f = Ok f.
Proof. exact C09_full_turn_proof. Qed.
Print Assumptions C09_full_turn.
Example C09_example : face_invert [1;2;3;4]%N = Ok [1;4;3;2]%N /\ face_rotate [1;2;3;4]%N 3 = Ok [4;1;2;3]%N.
Proof. split; reflexivity. Qed.

(** C10: construction, overide, offset *)
Theorem C10_construction : forall l,
  (face_make l = Throw LogicError <-> (length l < 3)%nat) /\
  (face_make l = Ok l <-> (3 <= length l)%nat) /\ (forall f, face_make l = Ok f -> f = l) /\ face_make l <> UB.
Proof. exact C10_make_proof. Qed.
Print Assumptions C10_construction.
Theorem C10_overide : forall f i j,
  (fst (face_overide f i j) = true <-> In i f) /\
  (~ In i f -> snd (face_overide f i j) = f) /\
  (forall u v, f = u ++ i :: v -> ~ In i u -> snd (face_overide f i j) = u ++ j :: v).
Proof. exact C10_overide_proof. Qed.
Print Assumptions C10_overide.
Theorem C10_offset : forall d f, (d < two64)%N -> (forall i, In i f -> (i < two64)%N) ->
  map (fun i => (i + d) mod two64)%N f = face_offset d f /\
  face_offset (two64 - d) (face_offset d f) = f.
Proof. exact C10_offset_proof. Qed.
Print Assumptions C10_offset.
Example C10_example : face_overide [4;7;7]%N 7 1 = (true, [4;1;7]%N) /\ (7 < two64)%N /\
  face_offset 5 [18446744073709551615; 3]%N = [4; 8]%N.
Proof. repeat split; reflexivity. Qed.

(** C11: convexity *)
Theorem C11_convexity_value : forall f P,
  (length f <= length P)%nat ->
  (length f = 3%nat -> face_is_convex f P = Ok true) /\
  ((3 < length f)%nat -> (forall i, In i f -> (i < nsize P)%N) ->
   face_is_convex f P = Ok (forallb (corner_convex f P) (seq 0 (length f)))).
Proof. exact C11_value_proof. Qed.
Print Assumptions C11_convexity_value.
Theorem C11_convexity_throws : forall f P,
  (face_is_convex f P = Throw OutOfRange <->
   (length P < length f)%nat \/ (length f < 3)%nat \/
   ((3 < length f)%nat /\ exists i, (i < length f)%nat /\
      (forall j, (j < i)%nat -> corner_exists f P j /\ corner_convex f P j = true) /\ ~ corner_exists f P i)) /\
  (face_is_convex f P <> UB) /\ (forall e, face_is_convex f P = Throw e -> e = OutOfRange).
Proof. exact C11_throws_proof. Qed.
Print Assumptions C11_convexity_throws.
Definition pt2 (x y : Z) : point := mkPoint (dofZ x) (dofZ y) dzero.
Definition square : list point := [pt2 0 0; pt2 1 0; pt2 1 1; pt2 0 1].
Definition dart : list point := [pt2 0 0; pt2 4 0; pt2 1 1; pt2 0 4].
Example C11_example : face_is_convex [0;1;2;3]%N square = Ok true /\ face_is_convex [0;1;2;3]%N dart = Ok false /\
  face_is_convex [0;1;2;9]%N square = Throw OutOfRange.
Proof. repeat split; vm_compute; reflexivity. Qed.

(** C12: fan triangulation *)
Theorem C12_fan : forall f P,
  (length f <= length P)%nat -> (forall i, In i f -> (i < nsize P)%N) ->
  (face_is_convex f P = Ok true -> exists lfs,
     face_to_3ds f P = Ok lfs /\ length lfs = (length f - 2)%nat /\
     map lf_tri lfs = map word_tri (fan f) /\
     ((forall i, In i f -> (i < 65536)%N) ->
       map lf_tri lfs = fan f /\
       Permutation (flat_map (fun lf => tri_edges (lf_tri lf)) lfs) (cycle_edges f ++ diagonals f))) /\
  (face_is_convex f P = Ok false -> face_to_3ds f P = Throw LogicError).
Proof. exact C12_fan_proof. Qed.
Print Assumptions C12_fan.
Example C12_example : (length [0;1;2;3]%N <= length square)%nat /\ face_is_convex [0;1;2;3]%N square = Ok true /\
  omap (map lf_tri) (face_to_3ds [0;1;2;3]%N square) = Ok [(0,1,2); (0,2,3)]%N /\
  diagonals [0;1;2;3]%N = [(0,2); (2,0)]%N.
Proof. split; [cbn; lia|]. repeat split; vm_compute; reflexivity. Qed.

(** C13: 3DS export keeps the first triangle of each face *)
Theorem C13_export_first_triangles : forall m lm, mesh_to_3ds m = Ok lm ->
  length (lm_faces lm) = sum_deg 2 (m_faces m) /\
  (forall k f, nth_error (m_faces m) k = Some f ->
     exists t r, face_to_3ds f (m_points m) = Ok (t :: r) /\ nth_error (lm_faces lm) k = Some t) /\
  (forall k, (length (m_faces m) <= k < sum_deg 2 (m_faces m))%nat -> nth_error (lm_faces lm) k = Some (mkLFace 0 0 0 (S754_zero false) (S754_zero false) (S754_zero false))) /\
  (sum_deg 2 (m_faces m) = length (m_faces m) <-> forall f, In f (m_faces m) -> length f = 3%nat).
Proof. exact C13_proof. Qed.
Print Assumptions C13_export_first_triangles.
Example C13_example : exists lm, mesh_to_3ds (mesh_make [] square [[0;1;2;3]%N]) = Ok lm /\
  map lf_tri (lm_faces lm) = [(0,1,2); (0,0,0)]%N.
Proof. eexists. split; vm_compute; reflexivity. Qed.

(** C14: 3DS round trip of a triangle mesh *)
Theorem C14_round_trip : forall m,
  (length (c_str (m_name m)) < 63)%nat -> (nsize (m_points m) < 65536)%N ->
  (Z.of_nat (length (m_faces m)) < 2147483648)%Z ->
  mesh_wf m -> (forall f, In f (m_faces m) -> length f = 3%nat) -> (3 <= length (m_points m))%nat ->
  exists lm m', mesh_to_3ds m = Ok lm /\ mesh_of_3ds lm = Ok m' /\
    m_name m' = c_str (m_name m) /\
    m_points m' = map round32_point (m_points m) /\ tight_box (m_points m') (m_bbox m') /\
    Forall2 (fun f f' => exists a b c, f = [a; b; c] /\
               f' = if dltb depsilon (det_3ds (m_points m) a b c) then [a; b; c] else [a; c; b])
            (m_faces m) (m_faces m').
Proof. exact C14_proof. Qed.
Print Assumptions C14_round_trip.
Theorem C14_degenerate_reversed : forall P a b c,
  let v := v_cross (vec_pp (pt P a) (pt P b)) (vec_pp (pt P b) (pt P c)) in
  is_zero (vx v) -> is_zero (vy v) -> is_zero (vz v) ->
  dltb depsilon (det_3ds P a b c) = false.
Proof. exact C14_degenerate_proof. Qed.
Print Assumptions C14_degenerate_reversed.
Example C14_example :
  omap m_faces (bind (mesh_to_3ds (mesh_make [] square [[0;1;2]; [2;1;0]; [0;1;1]]%N)) mesh_of_3ds)
  = Ok [[0;1;2]; [2;1;0]; [0;1;1]]%N /\
  omap m_faces (bind (mesh_to_3ds (mesh_make [] (square ++ [pt2 2 0]) [[0;1;4]]%N)) mesh_of_3ds)
  = Ok [[0;4;1]]%N.
Proof. split; vm_compute; reflexivity. Qed.

(** C15: 3DS size limits *)
Theorem C15_memory_safety : forall m,
  (forall f, In f (m_faces m) -> (3 <= length f)%nat) ->
  (Z.of_nat (sum_deg 2 (m_faces m)) < 2147483648)%Z ->
  (mesh_to_3ds m = UB <-> (63 <= length (c_str (m_name m)))%nat \/ (65536 <= nsize (m_points m))%N).
Proof. exact C15_proof. Qed.
Print Assumptions C15_memory_safety.
Example C15_example : mesh_to_3ds (mesh_make (repeat "a"%char 63) square []) = UB /\
  (exists lm, mesh_to_3ds (mesh_make (repeat "a"%char 62) square []) = Ok lm).
Proof. split; [|eexists]; vm_compute; reflexivity. Qed.

(** C16: vector algebra on doubles *)
Theorem C16_vector_laws :
  (forall a b, v_add a b = v_add b a) /\ (forall a b, v_dot a b = v_dot b a) /\
  (forall a b, v_opposite (v_sub a b) (v_sub b a)) /\ (forall a b, v_opposite (v_cross a b) (v_cross b a)) /\
  (forall p q, v_opposite (pt_sub p q) (pt_sub q p)).
Proof. exact C16_proof. Qed.
Print Assumptions C16_vector_laws.
Theorem C16_opposite_meaning : forall x y, opposite x y ->
  (disnan x = true /\ disnan y = true) \/ (disnan x = false /\ deqb x (dopp y) = true).
Proof. exact opposite_meaning_proof. Qed.
Print Assumptions C16_opposite_meaning.
Theorem C16_translate_back_refuted : exists p q,
  (dfinite (px p) = true /\ dfinite (px q) = true /\ dvalid (px p) = true /\ dvalid (px q) = true) /\
  pt_eqb (pt_add p (pt_sub q p)) q = false.
Proof. exact C16_refuted_proof. Qed.
Print Assumptions C16_translate_back_refuted.

(** C17: normals of degenerate corners *)
Theorem C17_degenerate_normal_is_nan : forall a b c,
  let v := v_cross (vec_pp a b) (vec_pp b c) in
  is_zero (vx v) -> is_zero (vy v) -> is_zero (vz v) -> normal_to a b c = mkVect dnan dnan dnan.
Proof. exact normal_zero. Qed.
Print Assumptions C17_degenerate_normal_is_nan.
Example C17_example : let v := v_cross (vec_pp (pt2 0 0) (pt2 1 2)) (vec_pp (pt2 1 2) (pt2 3 6)) in
  v = mkVect dzero dzero dzero /\ normal_to (pt2 0 0) (pt2 1 0) (pt2 1 1) = mkVect dzero dzero (dofZ 1).
Proof. split; vm_compute; reflexivity. Qed.
