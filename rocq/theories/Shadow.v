(** * Shadow: model of src/lib/shadow (Bbox, Point, Vector, Face, Mesh).

    A C++ value is a Gallina value; a mutating member function returns the new
    value of [*this].  Coordinates are bit-exact doubles.  Face indices are
    [N] (size_t). *)
From Verif Require Import Base Dbl.

(** ** Point and Vector *)

(** src/include/shadow/point.h and src/lib/shadow/point.cpp:12-40; the valarray
    of size 3 is a triple (the size check of point.cpp:21-26 cannot fail for
    the valarrays built in the project, which all have size 3; a moved-from point
    has size 0, see Values). *)
Record point := mkPoint { px : dbl; py : dbl; pz : dbl }.
(** src/lib/shadow/vector.cpp:15-40 *)
Record vect := mkVect { vx : dbl; vy : dbl; vz : dbl }.

(** Point::Point(void), point.cpp:12-14 *)
Definition point_default : point := mkPoint dzero dzero dzero.
(** Vector::Vector(origin, target), vector.cpp:21-23 *)
Definition vec_pp (o t : point) : vect :=
  mkVect (dsub (px t) (px o)) (dsub (py t) (py o)) (dsub (pz t) (pz o)).
(** operator -(Point, Point) = Vector(rhs, lhs), point.cpp:118-121 *)
Definition pt_sub (lhs rhs : point) : vect := vec_pp rhs lhs.
(** operator +(Point, Vector), point.cpp:103-106, and Point::operator+= (92-96) *)
Definition pt_add (p : point) (v : vect) : point :=
  mkPoint (dadd (px p) (vx v)) (dadd (py p) (vy v)) (dadd (pz p) (vz v)).
(** operator ==(Point, Point), point.cpp:107-110: valarray of comparisons, then min() *)
Definition pt_eqb (a b : point) : bool :=
  deqb (px a) (px b) && (deqb (py a) (py b) && deqb (pz a) (pz b)).
(** operator !=(Point, Point), point.cpp:122-125 *)
Definition pt_neqb (a b : point) : bool := negb (pt_eqb b a).

(** vector.cpp:134-137 *)
Definition v_eqb (a b : vect) : bool :=
  deqb (vx a) (vx b) && (deqb (vy a) (vy b) && deqb (vz a) (vz b)).
(** operator + / += on vectors, vector.cpp:94-98,140-143 *)
Definition v_add (a b : vect) : vect :=
  mkVect (dadd (vx a) (vx b)) (dadd (vy a) (vy b)) (dadd (vz a) (vz b)).
(** operator - / -= on vectors, vector.cpp:112-116,145-148 *)
Definition v_sub (a b : vect) : vect :=
  mkVect (dsub (vx a) (vx b)) (dsub (vy a) (vy b)) (dsub (vz a) (vz b)).
(** operator *(scalar, vector), vector.cpp:100-104,150-153 *)
Definition v_scale (s : dbl) (a : vect) : vect :=
  mkVect (dmul s (vx a)) (dmul s (vy a)) (dmul s (vz a)).
(** operator /(vector, scalar), vector.cpp:106-110,155-158 *)
Definition v_div (a : vect) (s : dbl) : vect :=
  mkVect (ddiv (vx a) s) (ddiv (vy a) s) (ddiv (vz a) s).
(** dot product: (lhs.coordinates * rhs.coordinates).sum(), vector.cpp:160-163.
    The order of sum() is not specified; libstdc++ adds the elements of an
    expression from the last to the first (bits/valarray_after.h). *)
Definition v_dot (a b : vect) : dbl :=
  dadd (dadd (dmul (vz a) (vz b)) (dmul (vy a) (vy b))) (dmul (vx a) (vx b)).
(** cross product, vector.cpp:118-126,165-169 *)
Definition v_cross (a b : vect) : vect :=
  mkVect (dsub (dmul (vy a) (vz b)) (dmul (vz a) (vy b)))
         (dsub (dmul (vz a) (vx b)) (dmul (vx a) (vz b)))
         (dsub (dmul (vx a) (vy b)) (dmul (vy a) (vx b))).
(** norm_L2, vector.cpp:181-184 *)
Definition v_norm (a : vect) : dbl := dsqrt (v_dot a a).
(** determinant, vector.cpp:186-191, evaluated left to right *)
Definition v_det (a b c : vect) : dbl :=
  let t1 := dmul (dmul (vx a) (vy b)) (vz c) in
  let t2 := dmul (dmul (vx a) (vz b)) (vy c) in
  let t3 := dmul (dmul (vy a) (vx b)) (vz c) in
  let t4 := dmul (dmul (vy a) (vz b)) (vx c) in
  let t5 := dmul (dmul (vz a) (vx b)) (vy c) in
  let t6 := dmul (dmul (vz a) (vy b)) (vx c) in
  dsub (dadd (dadd (dsub (dsub t1 t2) t3) t4) t5) t6.
(** normal_to, point.cpp:131-136 *)
Definition normal_to (a b c : point) : vect :=
  let v := v_cross (vec_pp a b) (vec_pp b c) in
  v_div v (v_norm v).

(** ** Bbox *)

(** src/lib/shadow/bbox.cpp: extremes[0..5] = xmin,xmax,ymin,ymax,zmin,zmax *)
Record bbox := mkBbox { xmin : dbl; xmax : dbl; ymin : dbl; ymax : dbl; zmin : dbl; zmax : dbl }.
(** Bbox::Bbox(void), bbox.cpp:15-24 *)
Definition bbox_empty : bbox := mkBbox dinf dninf dinf dninf dinf dninf.
(** Bbox::Bbox(Point), bbox.cpp:35-47 and Point::bbox, point.cpp:98-101 *)
Definition pt_bbox (p : point) : bbox := mkBbox (px p) (px p) (py p) (py p) (pz p) (pz p).
(** Bbox::operator+= and operator+, bbox.cpp:119-128,141-146 *)
Definition bbox_add (a b : bbox) : bbox :=
  mkBbox (dmin (xmin a) (xmin b)) (dmax (xmax a) (xmax b))
         (dmin (ymin a) (ymin b)) (dmax (ymax a) (ymax b))
         (dmin (zmin a) (zmin b)) (dmax (zmax a) (zmax b)).

(** ** Face *)

(** A face is its index list (member [points]). *)
Definition face := list N.

(** Face::Face(vector) and Face::Face(initializer_list), face.cpp:23-34 *)
Definition face_make (l : list N) : outcome face :=
  if (length l <? 3)%nat then Throw LogicError else Ok l.
(** Face::Face(first, second, third, orientation), face.cpp:46-52 *)
Definition face_tri (a b c : N) (orientation : bool) : face :=
  if orientation then [a; b; c] else [a; c; b].
(** Face::invert_orientation, face.cpp:114-117.  [std::next(begin)] of an empty
    vector is undefined. *)
Definition face_invert (f : face) : outcome face :=
  match f with
  | [] => UB
  | a :: l => Ok (a :: rev l)
  end.
(** Face::rotate(n), face.cpp:122-125: the iterator [begin + n] must lie in
    [begin, end], otherwise the behaviour is undefined. *)
Definition face_rotate (f : face) (n : Z) : outcome face :=
  if (n <? 0)%Z || (Z.of_nat (length f) <? n)%Z then UB
  else Ok (skipn (Z.to_nat n) f ++ firstn (Z.to_nat n) f).
(** Face::rotate(void), face.cpp:118-121 *)
Definition face_rotate1 (f : face) : outcome face := face_rotate f 1.
(** Face::overide, face.cpp:127-138: find the first occurrence and overwrite it *)
Fixpoint face_overide (f : face) (i j : N) : bool * face :=
  match f with
  | [] => (false, [])
  | a :: l => if (a =? i)%N then (true, j :: l)
              else let '(b, l') := face_overide l i j in (b, a :: l')
  end.
(** Face::offset, face.cpp:140-153: size_t addition wraps *)
Definition face_offset (d : N) (f : face) : face := map (fun i => wrap64 (i + d)) f.

(** position of the first occurrence: std::find *)
Fixpoint find_idx (x : N) (l : list N) : option nat :=
  match l with
  | [] => None
  | a :: l => if (a =? x)%N then Some 0%nat else option_map S (find_idx x l)
  end.
(** operator ==(Face, Face), face.cpp:252-279.  [lhs.points.at(0)] throws on two
    degree-0 faces.  inner_product compares every position. *)
Definition face_eqb (lhs rhs : face) : outcome bool :=
  if negb (length lhs =? length rhs)%nat then Ok false
  else match lhs with
       | [] => Throw OutOfRange
       | a :: _ =>
         match find_idx a rhs with
         | None => Ok false
         | Some k => Ok (list_eqb N.eqb lhs (skipn k rhs ++ firstn k rhs))
         end
       end.
(** operator !=(Face, Face), face.cpp:280-283: note the swapped operands *)
Definition face_neqb (lhs rhs : face) : outcome bool := omap negb (face_eqb rhs lhs).

(** The three indices seen by the circulator at position [i]:
    face.cpp:178-195 computes next_1, next_2 with wrap-around at the two last
    positions. *)
Definition corner (f : face) (i : nat) : outcome (N * N * N) :=
  let d := length f in
  let* a := vat f i in
  let* b := (if (i =? d - 2)%nat then vat f (i + 1)
             else if (i =? d - 1)%nat then vat f 0 else vat f (i + 1)) in
  let* c := (if (i =? d - 2)%nat then vat f 0
             else if (i =? d - 1)%nat then vat f 1 else vat f (i + 2)) in
  Ok (a, b, c).
(** face.cpp:196-198: [external_direction * Vector(B, C) < 0] *)
Definition turn_ok (n : vect) (a b c : point) : bool :=
  dltb (v_dot (v_cross (vec_pp a b) n) (vec_pp b c)) dzero.
(** The do-while loop of face.cpp:175-199 from position [i] with [k] positions
    left (k >= 1): stops as soon as convexity is false. *)
Fixpoint convex_loop (f : face) (P : list point) (n : vect) (k i : nat) : outcome bool :=
  match k with
  | O => Ok true
  | S k =>
    let* (a, b, c) := corner f i in
    let* pa := vatN P a in
    let* pb := vatN P b in
    let* pc := vatN P c in
    if turn_ok n pa pb pc then convex_loop f P n k (S i) else Ok false
  end.
(** Face::is_convex, face.cpp:155-202 *)
Definition face_is_convex (f : face) (P : list point) : outcome bool :=
  let d := length f in
  if (length P <? d)%nat then Throw OutOfRange
  else if (d <? 3)%nat then Throw OutOfRange
  else if (d =? 3)%nat then Ok true
  else
    let* i0 := vat f 0 in let* i1 := vat f 1 in let* i2 := vat f 2 in
    let* p0 := vatN P i0 in let* p1 := vatN P i1 in let* p2 := vatN P i2 in
    convex_loop f P (v_cross (vec_pp p0 p1) (vec_pp p1 p2)) d 0.

(** A Lib3dsFace: three 16-bit indices and a float normal (other members are
    zero-initialised and never used by the project). *)
Record lib3ds_face := mkLFace { lf_a : N; lf_b : N; lf_c : N;
                                lf_nx : spec_float; lf_ny : spec_float; lf_nz : spec_float }.
Definition lface_zero : lib3ds_face :=
  mkLFace 0 0 0 (S754_zero false) (S754_zero false) (S754_zero false).
Definition word (n : N) : N := (n mod 65536)%N. (* Lib3dsWord = unsigned short *)

(** Body of the transform of face.cpp:219-228 *)
Definition fan_face (P : list point) (a b c : N) : outcome lib3ds_face :=
  let* pa := vatN P a in let* pb := vatN P b in let* pc := vatN P c in
  let n := normal_to pa pb pc in
  Ok (mkLFace (word a) (word b) (word c)
              (f32_of_dbl (vx n)) (f32_of_dbl (vy n)) (f32_of_dbl (vz n))).
(** consecutive pairs (v1,v2),(v2,v3),... of a list *)
Fixpoint fan_pairs (l : list N) : list (N * N) :=
  match l with
  | b :: ((c :: _) as l') => (b, c) :: fan_pairs l'
  | _ => []
  end.
(** Face::to_3ds, face.cpp:204-236.  For a degree below 3 [calloc(..., degree-2)]
    asks for an enormous block (which may fail) but [is_convex] then throws before
    the block is used. *)
Definition face_to_3ds (f : face) (P : list point) : outcome (list lib3ds_face) :=
  if (length P <? length f)%nat then Throw OutOfRange
  else
    let* cv := face_is_convex f P in
    if cv then
      match f with
      | [] => Throw OutOfRange
      | a :: l => omapM (fun bc => fan_face P a (fst bc) (snd bc)) (fan_pairs l)
      end
    else Throw LogicError.

(** ** Mesh *)

(** Members of Mesh, src/include/shadow/mesh.h *)
Record mesh := mkMesh { m_name : str; m_points : list point; m_faces : list face; m_bbox : bbox }.

(** Mesh::Mesh(void), mesh.cpp:19-20 (Bbox() default member) *)
Definition mesh_empty : mesh := mkMesh [] [] [] bbox_empty.
(** Mesh::compute_bbox, mesh.cpp:348-359 *)
Definition compute_bbox (P : list point) : bbox :=
  fold_left (fun b p => bbox_add b (pt_bbox p)) P bbox_empty.
(** Mesh::Mesh(name, points, faces), mesh.cpp:97-101 (and 103-107 with name "") *)
Definition mesh_make (n : str) (P : list point) (F : list face) : mesh :=
  mkMesh n P F (compute_bbox P).
(** Mesh::is_empty, mesh.cpp:179-182 *)
Definition mesh_is_empty (m : mesh) : bool := match m_points m with [] => true | _ => false end.
(** Mesh::Mesh(Mesh const&), mesh.cpp:21-22 *)
Definition mesh_copy (m : mesh) : mesh :=
  mkMesh (m_name m) (m_points m) (m_faces m) (m_bbox m).
(** Mesh::Mesh(Mesh&&), mesh.cpp:23-24: (new object, moved-from object).  Moving a
    std::vector / std::string leaves it empty in libstdc++; moving the Bbox
    (std::array<double,6>) copies it, so the moved-from mesh keeps its box. *)
Definition mesh_move (m : mesh) : mesh * mesh :=
  (mkMesh (m_name m) (m_points m) (m_faces m) (m_bbox m),
   mkMesh [] [] [] (m_bbox m)).
(** Mesh::operator=(Mesh const&), mesh.cpp:121-128: line 126 assigns
    [bounding_box] to itself, so the target's old box is kept. *)
Definition mesh_assign (this other : mesh) : mesh :=
  mkMesh (m_name other) (m_points other) (m_faces other) (m_bbox this).
(** Mesh::operator=(Mesh&&), mesh.cpp:129-136: (this, moved-from) *)
Definition mesh_move_assign (this other : mesh) : mesh * mesh :=
  (mkMesh (m_name other) (m_points other) (m_faces other) (m_bbox other),
   mkMesh [] [] [] (m_bbox other)).
(** Mesh::swap, mesh.cpp:112-119 *)
Definition mesh_swap (a b : mesh) : mesh * mesh :=
  (mkMesh (m_name b) (m_points b) (m_faces b) (m_bbox b),
   mkMesh (m_name a) (m_points a) (m_faces a) (m_bbox a)).
(** Mesh::set_name, mesh.cpp:185-189: (this, returned copy) *)
Definition mesh_set_name (m : mesh) (n : str) : mesh * mesh :=
  let m' := mkMesh n (m_points m) (m_faces m) (m_bbox m) in (m', mesh_copy m').

Definition underscore : ascii := "_"%char.
(** Mesh::operator+=, mesh.cpp:253-279, when [other] is a different object *)
Definition mesh_add_assign (this other : mesh) : mesh :=
  if mesh_is_empty this then mesh_assign this other
  else mkMesh (m_name this ++ underscore :: m_name other)
              (m_points this ++ m_points other)
              (m_faces this ++ map (face_offset (nsize (m_points this))) (m_faces other))
              (bbox_add (m_bbox this) (m_bbox other)).
(** Mesh::operator+= called on the same object ([m += m]): [points.insert(end,
    begin, end)] with iterators into the vector itself is undefined
    ([sequence.reqmts]: i and j are not iterators into a); on an empty mesh it is
    the self-assignment of line 256. *)
Definition mesh_add_assign_self (m : mesh) : outcome mesh :=
  if mesh_is_empty m then Ok (mesh_assign m m) else UB.
(** operator +(Mesh, Mesh), mesh.cpp:361-364: copy of lhs, then += *)
Definition mesh_add (lhs rhs : mesh) : mesh := mesh_add_assign (mesh_copy lhs) rhs.

(** inner_product with logical_and: every pair is compared, left to right *)
Fixpoint faces_eqb (l1 l2 : list face) (acc : bool) : outcome bool :=
  match l1, l2 with
  | f :: l1, g :: l2 => let* b := face_eqb f g in faces_eqb l1 l2 (acc && b)
  | _, _ => Ok acc
  end.
(** operator ==(Mesh, Mesh), mesh.cpp:366-392 (names and boxes are not compared) *)
Definition mesh_eqb (a b : mesh) : outcome bool :=
  if (length (m_points a) =? length (m_points b))%nat && (length (m_faces a) =? length (m_faces b))%nat then
    if list_eqb pt_eqb (m_points a) (m_points b)
    then faces_eqb (m_faces a) (m_faces b) true
    else Ok false
  else Ok false.

(** ** Conversion to and from lib3ds *)

(** Lib3dsMesh: name, point list (binary32 triples), face list. *)
Record lib3ds_mesh := mkLMesh { lm_name : str;
                                lm_points : list (spec_float * spec_float * spec_float);
                                lm_faces : list lib3ds_face }.

(** [c_str()]: the bytes up to the first NUL *)
Fixpoint c_str (s : str) : str :=
  match s with
  | [] => []
  | a :: s => if Ascii.eqb a zero then [] else a :: c_str s
  end.

(** Point to Lib3dsPoint, mesh.cpp:294-300 *)
Definition pt_to_3ds (p : point) : spec_float * spec_float * spec_float :=
  (f32_of_dbl (px p), f32_of_dbl (py p), f32_of_dbl (pz p)).
(** Point::Point(Lib3dsPoint), point.cpp:30-32 *)
Definition pt_of_3ds (q : spec_float * spec_float * spec_float) : point :=
  let '(x, y, z) := q in mkPoint (dbl_of_f32 x) (dbl_of_f32 y) (dbl_of_f32 z).

(** number of face slots, mesh.cpp:303-313: an [int] accumulation *)
Definition slots_3ds (F : list face) : Z :=
  fold_left (fun s f => (s + Z.of_nat (length f) - 2)%Z) F 0%Z.

(** mesh.cpp:317-325: [std::transform] into an array of [k] slots *)
Fixpoint store_faces (P : list point) (F : list face) (k : nat) : outcome (list lib3ds_face) :=
  match F with
  | [] => Ok []
  | f :: F =>
    let* fan := face_to_3ds f P in
    match fan, k with
    | t :: _, S k => let* ts := store_faces P F k in Ok (t :: ts)
    | _, _ => UB
    end
  end.
(** Mesh::to_3ds, mesh.cpp:281-330.
    - 283-286: strncpy of at most 63 bytes into an uninitialised 64-byte buffer:
      a name of 63 bytes or more is left unterminated: UB.
    - 287-301: the point count is truncated to 16 bits and that many points are
      allocated, but all points are written: UB from 65536 points on.
    - 303-315: [slots_3ds] zeroed face slots; a negative or int-overflowing count
      is reported as UB (simplification: such a count needs a face of degree < 3
      or 2^31 corners).
    - 317-325: each face writes one slot, the first triangle of its fan. *)
Definition mesh_to_3ds (m : mesh) : outcome lib3ds_mesh :=
  let n := c_str (m_name m) in
  if (63 <=? length n)%nat then UB
  else if (65536 <=? nsize (m_points m))%N then UB
  else
    let k := slots_3ds (m_faces m) in
    if (k <? 0)%Z || (2147483648 <=? k)%Z then UB
    else
      let* tris := store_faces (m_points m) (m_faces m) (Z.to_nat k) in
      Ok (mkLMesh n (map pt_to_3ds (m_points m))
                  (tris ++ repeat lface_zero (Z.to_nat k - length tris))).

(** Mesh::Mesh(pointer to Lib3dsMesh), mesh.cpp:25-63: unchecked [operator[]] on points *)
Definition face_of_3ds (P : list point) (lf : lib3ds_face) : outcome face :=
  let* p0 := vidxN P (lf_a lf) in
  let* p1 := vidxN P (lf_b lf) in
  let* p2 := vidxN P (lf_c lf) in
  let n := mkVect (dbl_of_f32 (lf_nx lf)) (dbl_of_f32 (lf_ny lf)) (dbl_of_f32 (lf_nz lf)) in
  Ok (face_tri (lf_a lf) (lf_b lf) (lf_c lf)
        (dltb depsilon (v_det (pt_sub p1 p0) (pt_sub p2 p1) n))).
Definition mesh_of_3ds (lm : lib3ds_mesh) : outcome mesh :=
  let P := map pt_of_3ds (lm_points lm) in
  let* F := omapM (face_of_3ds P) (lm_faces lm) in
  Ok (mkMesh (lm_name lm) P F (compute_bbox P)).
