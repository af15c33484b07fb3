(** * Specification vocabulary for the shadow layer (properties C01-C17).

    Independent of the model's helpers: only the record types and the double
    comparison operators are used. *)
From Verif Require Import Base Dbl Shadow.

(** ** Boxes *)
Definition box_nan_free (b : bbox) : Prop :=
  disnan (xmin b) = false /\ disnan (xmax b) = false /\ disnan (ymin b) = false /\
  disnan (ymax b) = false /\ disnan (zmin b) = false /\ disnan (zmax b) = false.
(** [encloses a b]: the box b lies in the box a *)
Definition encloses (a b : bbox) : Prop :=
  dleb (xmin a) (xmin b) = true /\ dleb (xmax b) (xmax a) = true /\
  dleb (ymin a) (ymin b) = true /\ dleb (ymax b) (ymax a) = true /\
  dleb (zmin a) (zmin b) = true /\ dleb (zmax b) (zmax a) = true.
(** equality of boxes by double == *)
Definition box_same (a b : bbox) : Prop :=
  deqb (xmin a) (xmin b) = true /\ deqb (xmax a) (xmax b) = true /\
  deqb (ymin a) (ymin b) = true /\ deqb (ymax a) (ymax b) = true /\
  deqb (zmin a) (zmin b) = true /\ deqb (zmax a) (zmax b) = true.
(** [x] is within [lo, hi] unless it is NaN *)
Definition within (lo hi x : dbl) : Prop := disnan x = false -> dleb lo x = true /\ dleb x hi = true.
(** the interval [lo,hi] is the tight range of the non-NaN values of [l] *)
Definition tight_range (l : list dbl) (lo hi : dbl) : Prop :=
  (forall x, In x l -> within lo hi x) /\
  (In lo l \/ (lo = dinf /\ forall x, In x l -> disnan x = true)) /\
  (In hi l \/ (hi = dninf /\ forall x, In x l -> disnan x = true)) /\
  disnan lo = false /\ disnan hi = false.
Definition tight_box (P : list point) (b : bbox) : Prop :=
  tight_range (map px P) (xmin b) (xmax b) /\
  tight_range (map py P) (ymin b) (ymax b) /\
  tight_range (map pz P) (zmin b) (zmax b).
Definition box_contains_point (b : bbox) (p : point) : Prop :=
  within (xmin b) (xmax b) (px p) /\ within (ymin b) (ymax b) (py p) /\ within (zmin b) (zmax b) (pz p).

(** ** Faces *)
(** [b] is a cyclic rotation of [a] *)
Definition rotation (a b : list N) : Prop := exists u v, a = u ++ v /\ b = v ++ u.
(** consecutive pairs of a closed cycle: (a0,a1),(a1,a2),...,(an,a0) *)
Definition cycle_edges (l : list N) : list (N * N) :=
  match l with [] => [] | a :: t => combine l (t ++ [a]) end.
Definition flip (e : N * N) : N * N := (snd e, fst e).

(** ** Meshes *)
(** every face has at least three corners and refers to existing points *)
Definition mesh_wf (m : mesh) : Prop :=
  forall f, In f (m_faces m) -> (3 <= length f)%nat /\ forall i, In i f -> (i < nsize (m_points m))%N.
(** the polygons of a mesh as coordinate lists ([None] would be a dangling index) *)
Definition polygons (m : mesh) : list (list (option point)) :=
  map (map (fun i => nth_error (m_points m) (N.to_nat i))) (m_faces m).
Definition sum_points (l : list mesh) : N := fold_right (fun m s => (nsize (m_points m) + s)%N) 0%N l.

(** ** Corners of a face, cyclically *)
Definition cyc (f : list N) (k : nat) : N := nth (k mod length f) f 0%N.
Definition pt (P : list point) (i : N) : point := nth (N.to_nat i) P point_default.
(** the three vertices of the corner at position k exist *)
Definition corner_exists (f : list N) (P : list point) (k : nat) : Prop :=
  (cyc f k < nsize P /\ cyc f (k + 1) < nsize P /\ cyc f (k + 2) < nsize P)%N.
(** direction of the first corner's normal *)
Definition first_normal (f : list N) (P : list point) : vect :=
  v_cross (vec_pp (pt P (cyc f 0)) (pt P (cyc f 1))) (vec_pp (pt P (cyc f 1)) (pt P (cyc f 2))).
(** at corner k = (A,B,C): ((AB ^ normal) . BC) < 0 *)
Definition corner_convex (f : list N) (P : list point) (k : nat) : bool :=
  let A := pt P (cyc f k) in let B := pt P (cyc f (k + 1)) in let C := pt P (cyc f (k + 2)) in
  dltb (v_dot (v_cross (vec_pp A B) (first_normal f P)) (vec_pp B C)) dzero.

(** ** Triangles of an exported face *)
Definition tri_edges (t : N * N * N) : list (N * N) :=
  let '(a, b, c) := t in [(a, b); (b, c); (c, a)].
Definition lf_tri (lf : lib3ds_face) : N * N * N := (lf_a lf, lf_b lf, lf_c lf).
(** the fan of a polygon v0 v1 ... vn: (v0,vi,vi+1) for i = 1 .. n-1 *)
Definition fan (f : list N) : list (N * N * N) :=
  map (fun i => (cyc f 0, cyc f (i + 1), cyc f (i + 2))) (seq 0 (length f - 2)).
(** the diagonals of the fan, each in both directions *)
Definition diagonals (f : list N) : list (N * N) :=
  flat_map (fun i => [(cyc f 0, cyc f i); (cyc f i, cyc f 0)]) (seq 2 (length f - 3)).

(** ** Vocabulary of single properties *)
(** indices cut to 16 bits *)
Definition word_tri (t : N * N * N) : N * N * N := let '(a, b, c) := t in (word a, word b, word c).
(** sum of (degree - k) over the faces *)
Definition sum_deg (k : nat) (F : list face) : nat := fold_right (fun f s => (length f - k + s)%nat) 0%nat F.
(** coordinates stored as binary32 and read back *)
Definition round32_point (p : point) : point := pt_of_3ds (pt_to_3ds p).
Definition round32 (x : dbl) : dbl := dbl_of_f32 (f32_of_dbl x).
(** the recomputed determinant of triangle (a,b,c), from the rounded points and normal *)
Definition det_3ds (P : list point) (a b c : N) : dbl :=
  let q i := round32_point (pt P i) in
  let n := normal_to (pt P a) (pt P b) (pt P c) in
  v_det (pt_sub (q b) (q a)) (pt_sub (q c) (q b)) (mkVect (round32 (vx n)) (round32 (vy n)) (round32 (vz n))).
(** rotate() called n times *)
Fixpoint rotate1_times (n : nat) (f : face) : outcome face :=
  match n with O => Ok f | S n => let* g := face_rotate1 f in rotate1_times n g end.
(** the meshes after the first that has points *)
Fixpoint after_first_nonempty (l : list mesh) : list mesh :=
  match l with
  | [] => []
  | m :: l => match m_points m with [] => after_first_nonempty l | _ => l end
  end.
Definition is_zero (x : dbl) : Prop := exists s, x = S754_zero s.
Definition v_opposite (a b : vect) : Prop :=
  opposite (vx a) (vx b) /\ opposite (vy a) (vy b) /\ opposite (vz a) (vz b).
