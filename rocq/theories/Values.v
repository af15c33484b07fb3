(** * Values: model of the special members (copy, move, assignment, swap) of the value classes
    and of the lifetime of T3DSHandler objects.  Histories of such operations on any number of
    variables. *)
From Verif Require Import Base Dbl Geom Decimal Shadow Streams Handlers Surface Projection Raster.
Open Scope nat_scope.

(** what a class defines.  A moved-from member keeps its value if moving it copies it (numbers,
    boxes, CGAL handles); what other members hold afterwards is an argument *)
Record special (T : Type) := mkSpecial {
  sp_copy : T -> T;                (* T(T const& other) *)
  sp_move : T -> T * T;            (* T(T && other): the new object, other afterwards *)
  sp_assign : T -> T -> T;         (* *this = other: *this before, other *)
  sp_massign : T -> T -> T * T;    (* *this = std::move(other): *this, other afterwards *)
  sp_mself : T -> T;               (* x = std::move(x) *)
  sp_swap : T -> T -> T * T        (* swap(x, y) *)
}.
Arguments mkSpecial {T}.
Arguments sp_copy {T}. Arguments sp_move {T}. Arguments sp_assign {T}. Arguments sp_massign {T}. Arguments sp_mself {T}. Arguments sp_swap {T}.

(** ** Operations on variables *)
Inductive vop (T : Type) :=
| VMake (x : nat) (v : T)             (* T x(...) with this value *)
| VChange (x : nat) (g : T -> T)      (* any other member function *)
| VCopy (x y : nat)                   (* T x(y) *)
| VMove (x y : nat)                   (* T x(std::move(y)) *)
| VAssign (x y : nat)                 (* x = y *)
| VMoveAssign (x y : nat)             (* x = std::move(y) *)
| VSwap (x y : nat)                   (* swap(x, y) *)
| VDestroy (x : nat).
Arguments VMake {T}. Arguments VChange {T}. Arguments VCopy {T}. Arguments VMove {T}. Arguments VAssign {T}. Arguments VMoveAssign {T}. Arguments VSwap {T}. Arguments VDestroy {T}.
Definition vset {A} (s : nat -> option A) (x : nat) (a : option A) : nat -> option A := fun y => if y =? x then a else s y.
(** None: not a program (a variable used before its definition, defined twice) *)
Definition vstep {T} (C : special T) (s : nat -> option T) (o : vop T) : option (nat -> option T) :=
  match o with
  | VMake x v => match s x with None => Some (vset s x (Some v)) | _ => None end
  | VChange x g => match s x with Some v => Some (vset s x (Some (g v))) | _ => None end
  | VCopy x y => match s x, s y with None, Some w => Some (vset s x (Some (sp_copy C w))) | _, _ => None end
  | VMove x y => match s x, s y with None, Some w => let (n, l) := sp_move C w in Some (vset (vset s y (Some l)) x (Some n)) | _, _ => None end
  | VAssign x y => match s x, s y with Some v, Some w => Some (vset s x (Some (sp_assign C v w))) | _, _ => None end
  | VMoveAssign x y => match s x, s y with
      | Some v, Some w => if x =? y then Some (vset s x (Some (sp_mself C v))) else let (n, l) := sp_massign C v w in Some (vset (vset s y (Some l)) x (Some n))
      | _, _ => None end
  | VSwap x y => match s x, s y with Some v, Some w => let (a, b) := sp_swap C v w in Some (vset (vset s x (Some a)) y (Some b)) | _, _ => None end
  | VDestroy x => match s x with Some _ => Some (vset s x None) | _ => None end
  end.
Fixpoint vrun {T} (C : special T) (s : nat -> option T) (os : list (vop T)) : option (nat -> option T) :=
  match os with [] => Some s | o :: os => match vstep C s o with Some s' => vrun C s' os | None => None end end.

(** ** The classes *)
(** what is left in a moved-from string, valarray, vector, polygon, polyhedron.  [lo_point] and [lo_ref] are what
    is left in a point that is a member of a moved-from object, where [point] has three coordinates:
    simplification, a moved-from Point has no coordinates (point_special below) *)
Record left_over (D S : Type) := mkLeft {
  lo_str : str -> str; lo_array : list dbl -> list dbl; lo_point : point -> point; lo_ref : D * D * D -> D * D * D; lo_face : face -> face; lo_facets : list face2 -> list face2; lo_poly : poly -> poly; lo_image : list D -> list D; lo_hits : list Z -> list Z;
  lo_surface : S -> S; lo_nodes : list (unode (S * box3)) -> list (unode (S * box3)) }.
Arguments lo_str {D S}. Arguments lo_array {D S}. Arguments lo_point {D S}. Arguments lo_ref {D S}. Arguments lo_face {D S}. Arguments lo_facets {D S}. Arguments lo_poly {D S}. Arguments lo_image {D S}. Arguments lo_hits {D S}. Arguments lo_surface {D S}. Arguments lo_nodes {D S}.

Section CLASSES.
Context (A : arith) {S : Type} (L : left_over (num A) S).
(** shadow::Point: one valarray<double>, point.h:55, point.cpp:34-40, 76-90.  Moving a valarray
    takes its elements *)
Definition point_special : special (list dbl) :=
  mkSpecial (fun o => o) (fun o => (o, lo_array L o)) (fun _ o => o) (fun _ o => (o, lo_array L o)) (lo_array L) (fun a b => (b, a)).
(** shadow::Vector: one valarray<double>, vector.h:46, vector.cpp:34-40, 76-92 *)
Definition vect_special : special (list dbl) :=
  mkSpecial (fun o => o) (fun o => (o, lo_array L o)) (fun _ o => o) (fun _ o => (o, lo_array L o)) (lo_array L) (fun a b => (b, a)).
(** shadow::Bbox: one array, bbox.cpp:103-117 *)
Definition bbox_special : special bbox := mkSpecial (fun o => o) (fun o => (o, o)) (fun _ o => o) (fun _ o => (o, o)) (fun v => v) (fun a b => (b, a)).
(** shadow::Face: one vector, face.cpp:17-22, 55-69 *)
Definition face_special : special face := mkSpecial (fun o => o) (fun o => (o, lo_face L o)) (fun _ o => o) (fun _ o => (o, lo_face L o)) (lo_face L) (fun a b => (b, a)).
(** FacePrint, face_projection.cpp:60-90 *)
Definition face2_left (o : face2) : face2 := mkFace2 (f_id o) (lo_poly L (f_border o)) (f_plane o).
Definition face2_special : special face2 := mkSpecial
  (fun o => mkFace2 (f_id o) (f_border o) (f_plane o))
  (fun o => (mkFace2 (f_id o) (f_border o) (f_plane o), face2_left o))
  (fun _ o => mkFace2 (f_id o) (f_border o) (f_plane o))
  (fun _ o => (mkFace2 (f_id o) (f_border o) (f_plane o), face2_left o))
  face2_left
  (fun a b => (mkFace2 (f_id b) (f_border b) (f_plane b), mkFace2 (f_id a) (f_border a) (f_plane a))).
(** BrickPrint, brick_projection.cpp:38-71 *)
Definition brick_left (o : brick) : brick := mkBrick (br_box o) (lo_facets L (br_facets o)).
Definition brick_special : special brick := mkSpecial
  (fun o => mkBrick (br_box o) (br_facets o))
  (fun o => (mkBrick (br_box o) (br_facets o), brick_left o))
  (fun _ o => mkBrick (br_box o) (br_facets o))
  (fun _ o => (mkBrick (br_box o) (br_facets o), brick_left o))
  brick_left
  (fun a b => (mkBrick (br_box b) (br_facets b), mkBrick (br_box a) (br_facets a))).
(** FootPrint, scene_projection.cpp:35-70; its print is copied, moved and swapped as above *)
Definition foot_left (o : footprint) : footprint := mkFoot (lo_str L (fp_name o)) (lo_point L (fp_ref o)) (fp_epsg o) (brick_left (fp_proj o)).
Definition foot_special : special footprint := mkSpecial
  (fun o => mkFoot (fp_name o) (fp_ref o) (fp_epsg o) (sp_copy brick_special (fp_proj o)))
  (fun o => let (p, l) := sp_move brick_special (fp_proj o) in (mkFoot (fp_name o) (fp_ref o) (fp_epsg o) p, mkFoot (lo_str L (fp_name o)) (lo_point L (fp_ref o)) (fp_epsg o) l))
  (fun v o => mkFoot (fp_name o) (fp_ref o) (fp_epsg o) (sp_assign brick_special (fp_proj v) (fp_proj o)))
  (fun v o => let (p, l) := sp_massign brick_special (fp_proj v) (fp_proj o) in (mkFoot (fp_name o) (fp_ref o) (fp_epsg o) p, mkFoot (lo_str L (fp_name o)) (lo_point L (fp_ref o)) (fp_epsg o) l))
  foot_left
  (fun a b => let (p, q) := sp_swap brick_special (fp_proj a) (fp_proj b) in (mkFoot (fp_name b) (fp_ref b) (fp_epsg b) p, mkFoot (fp_name a) (fp_ref a) (fp_epsg a) q)).
(** RasterPrint, raster_projection.cpp:74-96, 142-155, 207-235 *)
Definition raster_left (o : raster A) : raster A :=
  mkRaster A (lo_str L (r_name A o)) (lo_ref L (r_ref A o)) (r_epsg A o) (r_height A o) (r_width A o) (r_px A o) (lo_image L (r_image A o)) (lo_hits L (r_hits A o)) (r_offset A o).
Definition raster_same (o : raster A) : raster A :=
  mkRaster A (r_name A o) (r_ref A o) (r_epsg A o) (r_height A o) (r_width A o) (r_px A o) (r_image A o) (r_hits A o) (r_offset A o).
Definition raster_special : special (raster A) := mkSpecial raster_same (fun o => (raster_same o, raster_left o)) (fun _ o => raster_same o) (fun _ o => (raster_same o, raster_left o))
  raster_left (fun a b => (raster_same b, raster_same a)).
(** Camera, camera.h:29-32, camera.cpp:35-74; Affine_transformation_2 and _3 and Vector_3 are
    handles: moving copies them *)
Record camera := mkCamera { cam_name : str; cam_calibration : (Qc * Qc * Qc) * (Qc * Qc * Qc); cam_position : p3; cam_orientation : affine }.
Definition camera_left (o : camera) : camera := mkCamera (lo_str L (cam_name o)) (cam_calibration o) (cam_position o) (cam_orientation o).
Definition camera_same (o : camera) : camera := mkCamera (cam_name o) (cam_calibration o) (cam_position o) (cam_orientation o).
Definition camera_special : special camera := mkSpecial camera_same (fun o => (camera_same o, camera_left o)) (fun _ o => camera_same o) (fun _ o => (camera_same o, camera_left o))
  camera_left (fun a b => (camera_same b, camera_same a)).
(** UNode, unode.cpp:26-41, 129-158: a surface and its box.  The copy constructor applies
    std::move to a name that is const: it copies *)
Definition unode_left (o : unode (S * box3)) : unode (S * box3) := mkUNode (lo_str L (u_name o)) (lo_point L (u_ref o)) (u_epsg o) (lo_surface L (fst (u_surf o)), snd (u_surf o)).
Definition unode_same (o : unode (S * box3)) : unode (S * box3) := mkUNode (u_name o) (u_ref o) (u_epsg o) (fst (u_surf o), snd (u_surf o)).
Definition unode_special : special (unode (S * box3)) := mkSpecial unode_same (fun o => (unode_same o, unode_left o)) (fun _ o => unode_same o) (fun _ o => (unode_same o, unode_left o))
  unode_left (fun a b => (unode_same b, unode_same a)).
(** Scene, scene.cpp:32-67 *)
Definition scene_left (o : scene (S * box3)) : scene (S * box3) := mkScene (lo_point L (sc_pivot o)) (sc_epsg o) (lo_nodes L (sc_buildings o)) (unode_left (sc_terrain o)).
Definition scene_special : special (scene (S * box3)) := mkSpecial
  (fun o => mkScene (sc_pivot o) (sc_epsg o) (sc_buildings o) (sp_copy unode_special (sc_terrain o)))
  (fun o => let (t, l) := sp_move unode_special (sc_terrain o) in (mkScene (sc_pivot o) (sc_epsg o) (sc_buildings o) t, mkScene (lo_point L (sc_pivot o)) (sc_epsg o) (lo_nodes L (sc_buildings o)) l))
  (fun v o => mkScene (sc_pivot o) (sc_epsg o) (sc_buildings o) (sp_assign unode_special (sc_terrain v) (sc_terrain o)))
  (fun v o => let (t, l) := sp_massign unode_special (sc_terrain v) (sc_terrain o) in (mkScene (sc_pivot o) (sc_epsg o) (sc_buildings o) t, mkScene (lo_point L (sc_pivot o)) (sc_epsg o) (lo_nodes L (sc_buildings o)) l))
  scene_left
  (fun a b => let (t, u) := sp_swap unode_special (sc_terrain a) (sc_terrain b) in (mkScene (sc_pivot b) (sc_epsg b) (sc_buildings b) t, mkScene (sc_pivot a) (sc_epsg a) (sc_buildings a) u)).
End CLASSES.
(** ** Points and vectors as the arrays they hold *)
(** Point(void), Point(x, y, z), Point(pointer), point.cpp:12-20; Vector(void), Vector(x, y, z),
    Vector(pointer), vector.cpp:15-20, 30-32 *)
Definition array3 (x y z : dbl) : list dbl := [x; y; z].
(** Point(valarray), point.cpp:21-26; Vector(valarray), vector.cpp:24-29 *)
Definition of_valarray (l : list dbl) : outcome (list dbl) := if length l =? 3 then Ok l else Throw LogicError.
(** x(), y(), z(): coordinates[i], point.cpp:51-74, vector.cpp:51-74 *)
Definition coordinate (l : list dbl) (i : nat) : outcome dbl := vidx l i.
(** valarray operators +, += and - on the arrays, point.cpp:92-106, vector.cpp:94-148: the sizes
    must be the same *)
Definition array_op (f : dbl -> dbl -> dbl) (a b : list dbl) : outcome (list dbl) :=
  if length a =? length b then Ok (map (fun e => f (fst e) (snd e)) (combine a b)) else UB.
(** operator +(Point, Vector), point.cpp:103-106: the result goes through Point(valarray) *)
Definition array_plus (a b : list dbl) : outcome (list dbl) := let* c := array_op dadd a b in of_valarray c.
(** operator ==, point.cpp:107-110, vector.cpp:134-137: min() of an empty array is undefined *)
Definition array_eqb (a b : list dbl) : outcome bool :=
  if length a =? length b then match a with [] => UB | _ => Ok (forallb (fun e => deqb (fst e) (snd e)) (combine a b)) end else UB.
(** Camera(name, calibration, position, rotations), camera.cpp:23-27: the orientation is
    computed by rotation_transform *)
Definition camera_make (matrix : Qc * p3 -> affine) (n : str) (cal : (Qc * Qc * Qc) * (Qc * Qc * Qc)) (pos : p3) (rotations : list (Qc * p3)) : outcome camera :=
  let* o := rotation_transform matrix rotations in Ok (mkCamera n cal pos o).
(** Camera(name, focal, sx, sy, principal point, position, rotations), camera.cpp:11-15, the rows
    of the calibration; finite doubles (simplification).  [tod] is CGAL's to_double *)
Definition camera_calibrated (matrix : Qc * p3 -> affine) (tod : Qc -> dbl) (n : str) (focal sx sy : dbl) (pp : p2) (pos : p3) (rotations : list (Qc * p3)) : outcome camera :=
  camera_make matrix n ((qd (dmul focal sx), 0, qd (tod (x2 pp))), (0, qd (dmul focal sy), qd (tod (y2 pp))))%Qc pos rotations.
(** Camera(name, focal, principal point, position, rotations), camera.cpp:17-21 *)
Definition camera_square (matrix : Qc * p3 -> affine) (tod : Qc -> dbl) (n : str) (focal : dbl) (pp : p2) (pos : p3) (rotations : list (Qc * p3)) : outcome camera :=
  camera_make matrix n ((qd focal, 0, qd (tod (x2 pp))), (0, qd focal, qd (tod (y2 pp))))%Qc pos rotations.

(** ** T3DSHandler, io_3ds.h:44, io_3ds.cpp:12-49: a raw pointer to a lib3ds file, released by
    the destructor; no copy constructor or assignment is declared, so both copy the pointer *)
Inductive hop :=
| HOpen (x : nat) (loaded : bool)   (* T3DSHandler x(path, read): lib3ds_file_load may answer null *)
| HNew (x : nat)                    (* T3DSHandler x(path, write): lib3ds_file_new *)
| HCopy (x y : nat)                 (* T3DSHandler x(y), also T3DSHandler x(std::move(y)) *)
| HAssign (x y : nat)               (* x = y, also x = std::move(y) *)
| HUse (x : nat)                    (* any member function that reads the file *)
| HDestroy (x : nat).               (* ~T3DSHandler: lib3ds_file_free(file), which dereferences it *)
(** the handlers alive with their pointers (None is null), the files allocated and released *)
Record handles := mkHandles { hd_alive : list (nat * option nat); hd_next : nat; hd_freed : list nat }.
Definition hd_empty : handles := mkHandles [] 0 [].
Definition hd_find (h : handles) (x : nat) : option (option nat) := option_map snd (find (fun e => fst e =? x) (hd_alive h)).
Definition hd_readable (h : handles) (p : option nat) : bool := match p with Some k => negb (existsb (Nat.eqb k) (hd_freed h)) | None => false end.
(** None: not a program *)
Definition hstep (h : handles) (o : hop) : option (outcome handles) :=
  match o with
  | HOpen x ok => match hd_find h x with
      | None => Some (Ok (if ok then mkHandles ((x, Some (hd_next h)) :: hd_alive h) (S (hd_next h)) (hd_freed h) else mkHandles ((x, None) :: hd_alive h) (hd_next h) (hd_freed h)))
      | _ => None end
  | HNew x => match hd_find h x with None => Some (Ok (mkHandles ((x, Some (hd_next h)) :: hd_alive h) (S (hd_next h)) (hd_freed h))) | _ => None end
  | HCopy x y => match hd_find h x, hd_find h y with None, Some p => Some (Ok (mkHandles ((x, p) :: hd_alive h) (hd_next h) (hd_freed h))) | _, _ => None end
  | HAssign x y => match hd_find h x, hd_find h y with
      | Some _, Some p => Some (Ok (mkHandles (map (fun e => if fst e =? x then (x, p) else e) (hd_alive h)) (hd_next h) (hd_freed h)))
      | _, _ => None end
  | HUse x => match hd_find h x with Some p => Some (if hd_readable h p then Ok h else UB) | None => None end
  | HDestroy x => match hd_find h x with
      | Some p => Some (if hd_readable h p
          then Ok (mkHandles (filter (fun e => negb (fst e =? x)) (hd_alive h)) (hd_next h) (match p with Some k => k :: hd_freed h | None => hd_freed h end))
          else UB)
      | None => None end
  end.
Fixpoint hrun (h : handles) (os : list hop) : option (outcome handles) :=
  match os with
  | [] => Some (Ok h)
  | o :: os => match hstep h o with Some (Ok h') => hrun h' os | r => r end
  end.
