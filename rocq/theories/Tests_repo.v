(* The project's own unit tests, run on the model: a check of the model's fidelity, not a proof of anything.
   Every input and every expected result below is the one written in /repo/src/tests or kept in /repo/ressources;
   an example that did not compute to [true] would show that the model and the program differ. *)
From Coq Require Import ZArith List Bool Ascii String.
From Coq Require Import QArith Qcanon.
From Verif Require Import Base Dbl Geom Decimal Shadow Streams Textout Spec_io Surface Projection Raster.
Import ListNotations List.
Open Scope nat_scope.
Notation face_eqb := Shadow.face_eqb.

(* a literal of the test programs, 15.5343 for example: the double nearest to it *)
Definition num (s : string) : dbl := match scan_double (lit s) with Some (d, _) => d | None => dnan end.
(* a literal with the suffix f, seen as a double: the double nearest, rounded to single and widened
   (double rounding does not matter for these literals: they have six digits) *)
Definition numf (s : string) : dbl := dbl_of_f32 (f32_of_dbl (num s)).
Definition pt (x y z : string) : point := mkPoint (num x) (num y) (num z).
Definition ptf (x y z : string) : point := mkPoint (numf x) (numf y) (numf z).
Definition is_true (o : outcome bool) : bool := match o with Ok true => true | _ => false end.
Definition is_false (o : outcome bool) : bool := match o with Ok false => true | _ => false end.
Definition is_out_of_range {A} (o : outcome A) : bool := match o with Throw OutOfRange => true | _ => false end.

(* --- test_shadow_face.cpp --- *)
Definition tri : face := [2; 0; 1]%N.
Definition tri_coord : list point :=
  [pt "15.5343" "-13.4504" "60.8789"; pt "15.7204" "-13.188" "60.8789"; pt "15.7204" "-13.188" "61.1764"].
(* :9-29 *)
Example face_print : print_face tri = lit "3 2 0 1". Proof. vm_compute. reflexivity. Qed.
(* :31-40 *)
Example face_inverted : is_true (let* f := face_invert tri in face_eqb f [2; 1; 0]%N) = true. Proof. vm_compute. reflexivity. Qed.
(* :42-48 *)
Example face_convex : is_true (face_is_convex tri tri_coord) = true. Proof. vm_compute. reflexivity. Qed.
(* :50-60 *)
Example face_3ds :
  is_true (let* l := face_to_3ds tri tri_coord in
           match l with lf :: _ => face_eqb tri (face_tri (lf_a lf) (lf_b lf) (lf_c lf) true) | [] => Ok false end) = true.
Proof. vm_compute. reflexivity. Qed.

Definition quad : face := [3; 0; 2; 1]%N.
(* :63-75 *)
Example quad_print : print_face quad = lit "4 3 0 2 1". Proof. vm_compute. reflexivity. Qed.
(* :77-85 *)
Example quad_inverted : is_true (let* f := face_invert quad in face_eqb f [3; 1; 2; 0]%N) = true. Proof. vm_compute. reflexivity. Qed.
(* :87-98 *)
Example quad_range : is_out_of_range (face_is_convex quad tri_coord) = true. Proof. vm_compute. reflexivity. Qed.
(* :100-112 *)
Example quad_not_simple :
  is_false (face_is_convex quad
    [pt "15.5343" "-13.4504" "60.8789"; pt "15.65" "-14.325" "60.8789"; pt "15.65" "-12.988" "60.8789"; pt "15.7204" "-13.188" "60.8789"]) = true.
Proof. vm_compute. reflexivity. Qed.
(* :114-126 *)
Definition quad_coord : list point :=
  [pt "15.5343" "-13.4504" "60.8789"; pt "15.7204" "-13.188" "60.8789"; pt "15.65" "-12.988" "60.8789"; pt "15.65" "-14.325" "60.8789"].
Example quad_convex : is_true (face_is_convex quad quad_coord) = true. Proof. vm_compute. reflexivity. Qed.
(* :128-140 *)
Example quad_not_convex :
  is_false (face_is_convex quad
    [pt "15.5343" "-13.4504" "60.8789"; pt "15.7204" "-13.188" "60.8789"; pt "15.65" "-14." "60.8789"; pt "15.65" "-14.325" "60.8789"]) = true.
Proof. vm_compute. reflexivity. Qed.
(* :142-156 *)
Example quad_3ds :
  omap (map (fun lf => (lf_a lf, lf_b lf, lf_c lf))) (face_to_3ds quad quad_coord) = Ok [(3, 0, 2); (3, 2, 1)]%N.
Proof. vm_compute. reflexivity. Qed.

(* --- test_shadow_geometry.cpp --- *)
Definition first := pt "15.5343" "-13.4504" "60.8789".
Definition second := pt "15.7204" "-13.188" "60.8789".
Definition third := pt "15.7204" "-13.188" "61.1764".
(* :14-23 *)
Example point_text : print_point first = lit "15.5343 -13.4504 60.8789". Proof. vm_compute. reflexivity. Qed.
(* :26-39 *)
Example vector_3 : vector_text (vec_pp first third) = lit "0.1861 0.2624 0.2975". Proof. vm_compute. reflexivity. Qed.
(* :47-56 *)
Example vector_2 : vector_text (vec_pp first second) = lit "0.1861 0.2624 0". Proof. vm_compute. reflexivity. Qed.
(* :57-66 *)
Example subtracted : vector_text (pt_sub third second) = lit "0 0 0.2975". Proof. vm_compute. reflexivity. Qed.
(* :67-75 *)
Example translated : pt_eqb (pt_add first (vec_pp first second)) second = true. Proof. vm_compute. reflexivity. Qed.
(* :76-82 *)
Example different : pt_neqb first second = true. Proof. vm_compute. reflexivity. Qed.
(* :83-92 *)
Example empty_box : bbox_text bbox_empty = lit "inf -inf inf -inf inf -inf". Proof. vm_compute. reflexivity. Qed.
(* :93-102 *)
Example three_box :
  bbox_text (bbox_add (bbox_add (pt_bbox first) (pt_bbox second)) (pt_bbox third)) =
  lit "15.5343 15.7204 -13.4504 -13.188 60.8789 61.1764".
Proof. vm_compute. reflexivity. Qed.
(* :103-112 *)
Definition m := v_cross (vec_pp first second) (vec_pp second third).
Example cross_product : vector_text m = lit "0.078064 -0.0553647 0". Proof. vm_compute. reflexivity. Qed.
(* :113-121 *)
Example normal : v_eqb (normal_to first second third) (v_div m (v_norm m)) = true. Proof. vm_compute. reflexivity. Qed.
(* :122-131 *)
Definition u := pt_sub second first.
Definition v := pt_sub third second.
Definition dabs (d : dbl) : dbl := SFabs d.
Example normal_determinant :
  let n := normal_to first second third in
  dltb (dabs (dsub (v_det n u v) (v_dot n (v_cross u v)))) depsilon = true.
Proof. vm_compute. reflexivity. Qed.
(* :132-140 *)
Example collinear : deqb (v_det (v_scale (num "10.") u) (v_scale (num "20000.") u) v) dzero = true. Proof. vm_compute. reflexivity. Qed.

(* --- test_shadow_mesh.cpp --- *)
(* :15-27: the mesh of lib3ds the test builds *)
Definition f32 (s : string) : spec_float := f32_of_dbl (num s).
Definition lib_mesh : lib3ds_mesh :=
  mkLMesh [] [(f32 "15.5343", f32 "-13.4504", f32 "60.8789"); (f32 "15.7204", f32 "-13.188", f32 "60.8789");
              (f32 "15.7204", f32 "-13.188", f32 "61.1764")]
    [mkLFace 0 1 2 (S754_zero false) (S754_zero false) (S754_zero false)].
(* :29-38 *)
Definition own_mesh : mesh :=
  mesh_make [] [ptf "15.5343" "-13.4504" "60.8789"; ptf "15.7204" "-13.188" "60.8789"; ptf "15.7204" "-13.188" "61.1764"] [[0; 2; 1]%N].
(* :40-47 *)
Example mesh_created : is_true (let* n := mesh_of_3ds lib_mesh in mesh_eqb n own_mesh) = true. Proof. vm_compute. reflexivity. Qed.
(* :48-73 *)
Definition endl : str := [ch_nl].
Example mesh_out :
  match mesh_of_3ds lib_mesh with
  | Ok n => mesh_text n =
      lit "#Name: " ++ endl ++ lit "#Bounding box: " ++ bbox_text (m_bbox n) ++ endl ++ lit "OFF" ++ endl
      ++ lit "3 1 0" ++ endl
      ++ concat (map (fun p => print_dbl (px p) ++ lit " " ++ print_dbl (py p) ++ lit " " ++ print_dbl (pz p) ++ endl) (m_points n))
      ++ concat (map (fun f => print_face f ++ endl) (m_faces n))
  | _ => False
  end.
Proof. vm_compute. reflexivity. Qed.
(* :75-85 *)
Example mesh_back :
  is_true (let* n := mesh_of_3ds lib_mesh in let* l := mesh_to_3ds n in let* n' := mesh_of_3ds l in mesh_eqb n n') = true.
Proof. vm_compute. reflexivity. Qed.

(* :89-149, with the files of ressources/3dModels/OFF and ressources/tests/building_sum_mesh.off *)
Definition F29051 : string :=
"#Name: F29051
#Bounding box: 65.82 70.27 190.19 192.27 -48 41.59
OFF
4 2 0
65.82 190.19 38.67
65.82 190.19 -48
70.27 192.27 -48
70.27 192.27 41.59
3 1 2 0
3 3 0 2
".
Definition F29054 : string :=
"#Name: F29054
#Bounding box: 70.27 74.72 192.27 194.35 -48 41.59
OFF
4 2 0
70.27 192.27 41.59
70.27 192.27 -48
74.72 194.35 -48
74.72 194.35 38.67
3 0 1 2
3 2 3 0
".
Definition F29057 : string :=
"#Name: F29057
#Bounding box: 73.35 74.72 194.35 197.28 -48 38.67
OFF
4 2 0
74.72 194.35 38.67
74.72 194.35 -48
73.35 197.28 -48
73.35 197.28 38.67
3 0 1 2
3 2 3 0
".
Definition F29060 : string :=
"#Name: F29060
#Bounding box: 68.91 73.35 195.17 197.28 -48 41.59
OFF
4 2 0
73.35 197.28 38.67
73.35 197.28 -48
68.91 195.17 -48
68.91 195.17 41.59
3 1 2 0
3 3 0 2
".
Definition F29063 : string :=
"#Name: F29063
#Bounding box: 66.05 68.91 193.82 195.17 -48 41.59
OFF
4 2 0
68.91 195.17 41.59
68.91 195.17 -48
66.05 193.82 -48
66.05 193.82 39.71
3 0 1 2
3 2 3 0
".
Definition F29066 : string :=
"#Name: F29066
#Bounding box: 64.47 66.05 193.08 193.82 -48 39.71
OFF
4 2 0
66.05 193.82 39.71
66.05 193.82 -48
64.47 193.08 -48
64.47 193.08 38.67
3 0 1 2
3 2 3 0
".
Definition F29069 : string :=
"#Name: F29069
#Bounding box: 64.47 65.82 190.19 193.08 -48 38.67
OFF
4 2 0
64.47 193.08 38.67
64.47 193.08 -48
65.82 190.19 -48
65.82 190.19 38.67
3 0 1 2
3 2 3 0
".
Definition T11107 : string :=
"#Name: T11107
#Bounding box: 64.47 70.27 190.19 195.17 38.67 41.59
OFF
5 3 0
65.82 190.19 38.67
64.47 193.08 38.67
66.05 193.82 39.71
68.91 195.17 41.59
70.27 192.27 41.59
3 2 0 1
3 3 4 2
3 0 2 4
".
Definition T11108 : string :=
"#Name: T11108
#Bounding box: 68.91 74.72 192.27 197.28 38.67 41.59
OFF
4 2 0
70.27 192.27 41.59
68.91 195.17 41.59
73.35 197.28 38.67
74.72 194.35 38.67
3 3 0 1
3 1 2 3
".
Definition building_sum_mesh : string :=
"#Name: F29051_F29054_F29057_F29060_F29063_F29066_F29069_T11107_T11108
#Bounding box: 64.47 74.72 190.19 197.28 -48 41.59
OFF
37 19 0
65.82 190.19 38.67
65.82 190.19 -48
70.27 192.27 -48
70.27 192.27 41.59
70.27 192.27 41.59
70.27 192.27 -48
74.72 194.35 -48
74.72 194.35 38.67
74.72 194.35 38.67
74.72 194.35 -48
73.35 197.28 -48
73.35 197.28 38.67
73.35 197.28 38.67
73.35 197.28 -48
68.91 195.17 -48
68.91 195.17 41.59
68.91 195.17 41.59
68.91 195.17 -48
66.05 193.82 -48
66.05 193.82 39.71
66.05 193.82 39.71
66.05 193.82 -48
64.47 193.08 -48
64.47 193.08 38.67
64.47 193.08 38.67
64.47 193.08 -48
65.82 190.19 -48
65.82 190.19 38.67
65.82 190.19 38.67
64.47 193.08 38.67
66.05 193.82 39.71
68.91 195.17 41.59
70.27 192.27 41.59
70.27 192.27 41.59
68.91 195.17 41.59
73.35 197.28 38.67
74.72 194.35 38.67
3 1 2 0
3 3 0 2
3 4 5 6
3 6 7 4
3 8 9 10
3 10 11 8
3 13 14 12
3 15 12 14
3 16 17 18
3 18 19 16
3 20 21 22
3 22 23 20
3 24 25 26
3 26 27 24
3 30 28 29
3 31 32 30
3 28 30 32
3 36 33 34
3 34 35 36
".
Definition file (s : string) : outcome mesh := off_read (lit s).
Fixpoint stitch (a : mesh) (l : list string) : outcome mesh :=
  match l with [] => Ok a | s :: l => let* b := file s in stitch (mesh_add a b) l end.
Example stitched :
  is_true (let* a := file F29051 in
           let* s := stitch a [F29054; F29057; F29060; F29063; F29066; F29069; T11107; T11108] in
           let* t := file building_sum_mesh in mesh_eqb s t) = true.
Proof. vm_compute. reflexivity. Qed.

(* --- test_io_obj.cpp :10-53 and :146-171 --- *)
Definition minimal_obj : string :=
"# Minimal example

v -0.5 -0.5 0.5
v -0.5 -0.5 -0.5
v -0.5 0.5 -0.5
v -0.5 0.5 0.5
v 0.5 -0.5 0.5
v 0.5 -0.5 -0.5
v 0.5 0.5 -0.5
v 0.5 0.5 0.5

o 1
f 4 3 2 1
f 2 6 5 1
f 3 7 6 2
f 8 7 3 4
f 5 8 4 1
f 6 7 8 5

# End of file
".
Definition obj_minimal_txt : string :=
"#Name: 1
#Bounding box: -0.5 0.5 -0.5 0.5 -0.5 0.5
OFF
8 6 0
-0.5 0.5 0.5
-0.5 0.5 -0.5
-0.5 -0.5 -0.5
-0.5 -0.5 0.5
0.5 -0.5 -0.5
0.5 -0.5 0.5
0.5 0.5 -0.5
0.5 0.5 0.5
4 0 1 2 3
4 2 4 5 3
4 1 6 4 2
4 7 6 1 0
4 5 7 0 3
4 4 6 7 5

".
Definition two_obj : string :=
"# Minimal example

v -0.5 -0.5 0.5
v -0.5 -0.5 -0.5
v -0.5 0.5 -0.5
v -0.5 0.5 0.5
v 0.5 -0.5 0.5
v 0.5 -0.5 -0.5
v 0.5 0.5 -0.5
v 0.5 0.5 0.5
v 1 1 2
v 1 1 1
v 1 2 1
v 1 2 2
v 2 1 2
v 2 1 1
v 2 2 1
v 2 2 2

# First object
o 1
f 4 3 2 1
f 2 6 5 1
f 3 7 6 2
f 8 7 3 4
f 5 8 4 1
f 6 7 8 5

# Second object
o 2
f 12 11 10 9
f 10 14 13 9
f 11 15 14 10
f 16 15 11 12
f 13 16 12 9
f 14 15 16 13

# End of file
".
Definition two_separated_obj : string :=
"# Minimal example

v -0.5 -0.5 0.5
v -0.5 -0.5 -0.5
v -0.5 0.5 -0.5
v -0.5 0.5 0.5
v 0.5 -0.5 0.5
v 0.5 -0.5 -0.5
v 0.5 0.5 -0.5
v 0.5 0.5 0.5

# First object
o 1
f 4 3 2 1
f 2 6 5 1
f 3 7 6 2
f 8 7 3 4
f 5 8 4 1
f 6 7 8 5

# Second object
o 2
v 1 1 2
v 1 1 1
v 1 2 1
v 1 2 2
v 2 1 2
v 2 1 1
v 2 2 1
v 2 2 2

f 12 11 10 9
f 10 14 13 9
f 11 15 14 10
f 16 15 11 12
f 13 16 12 9
f 14 15 16 13

# End of file
".
Definition obj_two_txt : string :=
"#Name: 1
#Bounding box: -0.5 0.5 -0.5 0.5 -0.5 0.5
OFF
8 6 0
-0.5 0.5 0.5
-0.5 0.5 -0.5
-0.5 -0.5 -0.5
-0.5 -0.5 0.5
0.5 -0.5 -0.5
0.5 -0.5 0.5
0.5 0.5 -0.5
0.5 0.5 0.5
4 0 1 2 3
4 2 4 5 3
4 1 6 4 2
4 7 6 1 0
4 5 7 0 3
4 4 6 7 5

#Name: 2
#Bounding box: 1 2 1 2 1 2
OFF
8 6 0
1 2 2
1 2 1
1 1 1
1 1 2
2 1 1
2 1 2
2 2 1
2 2 2
4 0 1 2 3
4 2 4 5 3
4 1 6 4 2
4 7 6 1 0
4 5 7 0 3
4 4 6 7 5

".
(* std::copy to an ostream_iterator<Mesh>(auxilary, "\n"), readlines, and the lines out again *)
Definition listing (ms : list mesh) : str :=
  concat (map print_line (readlines (concat (map (fun m => mesh_text m ++ endl) ms)))).
Example obj_minimal : omap listing (obj_read (lit minimal_obj)) = Ok (lit obj_minimal_txt). Proof. vm_compute. reflexivity. Qed.
Example obj_two : omap listing (obj_read (lit two_obj)) = Ok (lit obj_two_txt). Proof. vm_compute. reflexivity. Qed.
(* :78-123: written and read back *)
Example obj_minimal_again :
  omap listing (let* ms := obj_read (lit minimal_obj) in let* t := obj_write ms in obj_read t) = Ok (lit obj_minimal_txt).
Proof. vm_compute. reflexivity. Qed.

(* --- test_projection_face.cpp and test_projection_brick.cpp --- *)
(* an exact coordinate made from a literal of the tests *)
Definition ex (s : string) : Qc := qd (num s).
Definition exact (x y z : string) : p3 := P3 (ex x) (ex y) (ex z).
Definition at2 (x y : string) : p2 := P2 (ex x) (ex y).
Definition flat (p : p3) : p2 := P2 (x3 p) (y3 p).
(* bounded_side by the crossings of a horizontal half-line: a stand-in for CGAL's *)
Definition turn (a b p : p2) : Qc := ((x2 b - x2 a) * (y2 p - y2 a) - (y2 b - y2 a) * (x2 p - x2 a))%Qc.
Definition within (a b c : Qc) : bool := (Qcleb a c && Qcleb c b) || (Qcleb b c && Qcleb c a).
Definition on_edge (p : p2) (e : p2 * p2) : bool :=
  let '(a, b) := e in Qceqb (turn a b p) 0 && within (x2 a) (x2 b) (x2 p) && within (y2 a) (y2 b) (y2 p).
Definition crosses (p : p2) (e : p2 * p2) : bool :=
  let '(a, b) := e in
  if Qcleb (y2 a) (y2 p) then Qcltb (y2 p) (y2 b) && Qcltb 0 (turn a b p)
  else Qcleb (y2 b) (y2 p) && Qcltb (turn a b p) 0.
Definition edges_of (l : list p2) : list (p2 * p2) := match l with [] => [] | a :: r => combine l (r ++ [a]) end.
Definition side_of (l : list p2) (p : p2) : side :=
  if existsb (on_edge p) (edges_of l) then Boundary
  else if Nat.odd (length (filter (crosses p) (edges_of l))) then Inside else Outside.
(* the Boolean operations are not used by these tests: any will do *)
Definition K : kernel :=
  mkKernel side_of (fun _ => true) unit tt (fun _ => tt) (fun _ _ => tt) (fun _ _ => tt) (fun _ _ => tt)
    (fun _ => true) (fun _ => []) (fun _ _ => []) (fun q => qd (dq q)) (fun q => qd (dq q)).
(* test_utils.cpp:3-58: the three helpers *)
Definition test_facet (id : nat) (l : list p2) (hs : list (list p2)) (pl : plane) : face2 := mkFace2 id (mkPoly l hs) pl.
Definition test_triangle (id : nat) (a b c : p3) : face2 := test_facet id [flat a; flat b; flat c] [] (plane_through a b c).
Definition small (bound : Qc) (q : Qc) : bool := Qcltb (Qcabs q) bound.
Definition float_epsilon : Qc := Q2Qc (1 # 8388608).
Definition ok (f : Qc -> bool) (o : outcome Qc) : bool := match o with Ok q => f q | _ => false end.
Definition overflows {A} (o : outcome A) : bool := match o with Throw OverflowError => true | _ => false end.
Definition fifth (c a : p2) : p2 := P2 (x2 c + ex ".2" * (x2 a - x2 c))%Qc (y2 c + ex ".2" * (y2 a - y2 c))%Qc.

(* test_projection_face.cpp:10-65 *)
Definition A0 := exact "1.25" "98.64" "5.".
Definition B0 := exact "1.25" "98.64" "0.".
Definition C0 := exact "87.3" ".029" "3.615".
Definition upright := test_triangle 0 A0 B0 C0.
Example upright_checks :
  is_perpendicular upright && Qcltb (face_area K upright) epsilon && is_degenerate K upright
  && face_contains K upright (fifth (flat C0) (flat A0))
  && overflows (face_height K upright (at2 "0" "0")) && negb (face_contains K upright (at2 "0" "0")) = true.
Proof. vm_compute. reflexivity. Qed.
(* :67-143 *)
Definition A1 := exact "64.25" "50." "0.".
Definition B1 := exact "1.25" "98.64" "5.".
Definition C1 := exact "87.3" ".029" "3.615".
Definition degenerate :=
  test_facet 0 [flat A1; flat B1; flat C1] [[flat A1; flat B1; flat C1]] (plane_through A1 B1 C1).
Example degenerate_checks :
  negb (is_perpendicular degenerate) && Qcltb (face_area K degenerate) epsilon && is_degenerate K degenerate
  && face_contains K degenerate (fifth (flat C1) (flat A1))
  && ok (small epsilon) (face_height K degenerate (at2 "0" "0"))
  && ok (fun h => small float_epsilon (h - ex "21.9535182665")%Qc) (plane_height K degenerate (at2 "0" "0"))
  && negb (face_contains K degenerate (at2 "0" "0")) = true.
Proof. vm_compute. reflexivity. Qed.
(* :144-221 *)
Definition A2 := exact "-3" "-5" "5.".
Definition B2 := exact "3" "-5" "5.".
Definition C2 := exact "3" "5" "0.".
Definition D2 := exact "-3" "5" ".0".
Definition pierced :=
  test_facet 0 [flat A2; flat B2; flat C2; flat D2] [[at2 "-1" "-3"; at2 "-1" "3"; at2 "1" "3"; at2 "1" "-3"]] (plane_through A2 B2 C2).
(* the area: here the program adds 12 for the hole, whose orientation is clockwise *)
Example pierced_checks :
  negb (is_perpendicular pierced) && small epsilon (face_area K pierced - ex "72")%Qc && negb (is_degenerate K pierced)
  && face_contains K pierced (fifth (flat C2) (flat A2))
  && ok (small epsilon) (face_height K pierced (at2 "0" "0"))
  && ok (fun h => small float_epsilon (h - ex "2.5")%Qc) (plane_height K pierced (at2 "0" "0"))
  && negb (face_contains K pierced (at2 "0" "0")) = true.
Proof. vm_compute. reflexivity. Qed.

(* CGAL's insertions of numbers, polygons, planes and boxes in ASCII mode *)
Definition show_q (q : Qc) : str := print_dbl (dq q).
Definition show_ring (l : list p2) : str :=
  print_N (nsize l) ++ lit " " ++ concat (map (fun p => show_q (x2 p) ++ lit " " ++ show_q (y2 p) ++ lit " ") l).
Definition show_poly (p : poly) : str :=
  show_ring (outer p) ++ lit " " ++ print_N (nsize (holes p)) ++ lit " " ++ concat (map (fun h => show_ring h ++ lit " ") (holes p)).
Definition show_plane (p : plane) : str :=
  show_q (pl_a p) ++ lit " " ++ show_q (pl_b p) ++ lit " " ++ show_q (pl_c p) ++ lit " " ++ show_q (pl_d p).
Definition show_box (b : option box2) : str :=
  match b with
  | Some b => show_q (xmin b) ++ lit " " ++ show_q (ymin b) ++ lit " " ++ show_q (xmax b) ++ lit " " ++ show_q (ymax b)
  | None => lit "inf inf -inf -inf"
  end.
Definition brick_out (b : brick) : str := brick_text show_poly show_plane show_box b.
(* test_projection_brick.cpp:12-31 *)
Example brick_1 :
  brick_out (brick_of (test_triangle 0 A1 B1 C1)) =
  lit "Bounding box: 1.25 0.029 87.3 98.64" ++ endl ++ lit "Face Projections: 1" ++ endl ++ lit "Id: 0" ++ endl
  ++ lit "The Polygon describing borders :3 64.25 50 1.25 98.64 87.3 0.029  0 " ++ endl
  ++ lit "The supporting plane coefficients : 425.689 342.995 2027.02 -44500.2" ++ endl ++ endl.
Proof. vm_compute. reflexivity. Qed.
(* :58-67 *)
Definition face_1 := test_triangle 1 (exact "-1." "0" "5.") (exact "1." "0." "2.") (exact "0" "1." "3.615").
Definition face_2 := test_triangle 2 (exact "-.5" ".33" "5.") (exact ".5" ".33" "5.") (exact "0" ".67" "8.2").
Example brick_2 :
  brick_out (brick_of face_2) =
  lit "Bounding box: -0.5 0.33 0.5 0.67" ++ endl ++ lit "Face Projections: 1" ++ endl ++ lit "Id: 2" ++ endl
  ++ lit "The Polygon describing borders :3 -0.5 0.33 0.5 0.33 0 0.67  0 " ++ endl
  ++ lit "The supporting plane coefficients : 0 -3.2 0.34 -0.644" ++ endl ++ endl.
Proof. vm_compute. reflexivity. Qed.

(* Boolean operations for convex polygons without holes, in the place of CGAL's: a set is a list of convex pieces
   with disjoint interiors, and the polygon it was last intersected with *)
Definition meet (a b p q : p2) : p2 := (* where the line through [a] and [b] cuts the segment from [p] to [q] *)
  let s := turn a b p in let t := turn a b q in let k := (s / (s - t))%Qc in
  P2 (x2 p + k * (x2 q - x2 p))%Qc (y2 p + k * (y2 q - y2 p))%Qc.
Definition clip_edge (a b : p2) (e : p2 * p2) : list p2 :=
  let '(p, q) := e in
  let s := turn a b p in let t := turn a b q in
  (if Qcleb 0 s then [p] else []) ++ (if (Qcltb 0 s && Qcltb t 0) || (Qcltb s 0 && Qcltb 0 t) then [meet a b p q] else []).
Definition real (l : list p2) : list (list p2) := if Qcltb 0 (ring_area l) then [l] else [].
Definition clip (a b : p2) (l : list p2) : list p2 :=
  match real (flat_map (clip_edge a b) (edges_of l)) with [l] => l | _ => [] end.
Definition inter1 (l m : list p2) : list (list p2) := real (fold_left (fun l e => clip (fst e) (snd e) l) (edges_of m) l).
Fixpoint diff_along (es : list (p2 * p2)) (l : list p2) : list (list p2) :=
  match es with [] => [] | e :: es => real (clip (snd e) (fst e) l) ++ diff_along es (clip (fst e) (snd e) l) end.
Definition diff1 (m l : list p2) : list (list p2) := match inter1 l m with [] => [l] | _ => diff_along (edges_of m) l end.
Definition area_of (l : list (list p2)) : Qc := qsum (map ring_area l).
Definition whole (q : poly) : poly := mkPoly (outer q) [].
Definition C : kernel :=
  mkKernel side_of (fun _ => true) (list (list p2) * option (list p2)) ([], None) (fun p => ([outer p], None))
    (fun s p => (fst s ++ fold_left (fun ps m => flat_map (diff1 m) ps) (fst s) [outer p], None))
    (fun s p => (flat_map (fun l => inter1 l (outer p)) (fst s), Some (outer p)))
    (fun s p => (flat_map (diff1 (outer p)) (fst s), None))
    (fun s => match fst s with [] => true | _ => false end)
    (fun s => match snd s with
              | Some q => if Qceqb (area_of (fst s)) (ring_area q) then [mkPoly q []] else map (fun l => mkPoly l []) (fst s)
              | None => map (fun l => mkPoly l []) (fst s)
              end)
    (fun p q => map (fun l => mkPoly l []) (inter1 (outer p) (outer q)))
    (fun q => qd (dq q)) (fun q => qd (dq q)).
(* test_projection_brick.cpp:32-38: a facet against the brick made of itself *)
Example brick_itself :
  let f := test_triangle 0 A1 B1 C1 in
  contains_face C (brick_of f) f && overlaps C (brick_of f) (f_border f) && is_true (is_under C (brick_of f) f) = true.
Proof. vm_compute. reflexivity. Qed.
(* :68-85 *)
Example brick_others :
  negb (contains_face C (brick_of face_2) face_1) && overlaps C (brick_of face_2) (f_border face_1)
  && (contains_face C (brick_of face_1) face_2 && overlaps C (brick_of face_1) (f_border face_2) && is_false (is_under C (brick_of face_1) face_2)) = true.
Proof. vm_compute. reflexivity. Qed.
(* test_projection_algorithms.cpp:210-291 and test_io_projection.cpp:14-46: the closed mesh *)
Definition zp (x y z : Z) : p3 := P3 (Geom.qz x) (Geom.qz y) (Geom.qz z).
Definition corners : list p3 := [zp (-10) 6 8; zp (-18) (-14) 5; zp (-2) (-13) 6; zp (-10) (-10) (-15); zp (-2) 10 0; zp (-18) 9 1].
Definition triangles : list (list nat) := [[0; 1; 2]; [4; 3; 5]; [0; 2; 4]; [3; 4; 2]; [5; 1; 0]; [1; 5; 3]; [5; 0; 4]; [1; 3; 2]].
Definition closed_print : outcome brick :=
  let* fs := omapM (fun it => face_of C (fst it) (map (fun i => nth i corners v0) (snd it))) (combine (seq 0 8) triangles) in
  ofold (fun b f => add_brick C b (brick_of f)) (filter_facets C fs) brick_empty.
Definition zq (x y : Z) : p2 := P2 (Geom.qz x) (Geom.qz y).
Definition zplane (a b c d : Z) : plane := mkPlane (Geom.qz a) (Geom.qz b) (Geom.qz c) (Geom.qz d).
Definition expected : outcome brick :=
  ofold (fun b f => add_brick C b (brick_of f))
    [test_facet 1 [zq (-18) 9; zq (-18) (-14); zq (-10) 6] [] (zplane (-149) 32 184 (-3154));
     test_facet 2 [zq (-10) 6; zq (-2) (-13); zq (-2) 10] [] (zplane 160 48 184 (-160));
     test_facet 3 [zq (-18) 9; zq (-10) 6; zq (-2) 10] [] (zplane (-4) 120 56 (-1208))]
    (brick_of (test_facet 0 [zq (-10) 6; zq (-18) (-14); zq (-2) (-13)] [] (zplane (-17) (-40) 312 (-2426)))).
Example closed_mesh :
  match closed_print, expected with Ok b, Ok e => (length (br_facets b) =? 4) && brick_eqb b e | _, _ => false end = true.
Proof. vm_compute. reflexivity. Qed.

(* test_projection_brick.cpp:86-96 and test_projection_algorithms.cpp:12-48: the higher triangle lies inside the lower one.
   Boolean operations for a polygon strictly inside another; the hole starts at the vertex where CGAL starts it *)
Definition strictly (l m : list p2) : bool := forallb (fun p => match side_of m p with Inside => true | _ => false end) l.
Definition hole_of (l : list p2) : list p2 := match l with a :: b :: l => b :: a :: rev l | _ => l end.
Definition inside_of (p q : poly) : list poly :=
  if strictly (outer q) (outer p) then [q] else if strictly (outer p) (outer q) then [p] else [].
Definition pierce (q p : poly) : list poly :=
  if strictly (outer q) (outer p) then [mkPoly (outer p) (holes p ++ [hole_of (outer q)])]
  else if ring_eqb (outer p) (outer q) || strictly (outer p) (outer q) then [] else [p].
Definition N : kernel :=
  mkKernel side_of (fun _ => true) (list poly) [] (fun p => [p]) (fun s p => s ++ [p])
    (fun s p => flat_map (fun q => inside_of q p) s) (fun s p => flat_map (pierce p) s)
    (fun s => match s with [] => true | _ => false end) (fun s => s) inside_of (fun q => qd (dq q)) (fun q => qd (dq q)).
Example brick_sum :
  omap brick_out (add_brick N (brick_of face_1) (brick_of face_2)) =
  Ok (lit "Bounding box: -1 0 1 1" ++ endl ++ lit "Face Projections: 2" ++ endl
      ++ lit "Id: 1" ++ endl ++ lit "The Polygon describing borders :3 -1 0 1 0 0 1  1 3 0.5 0.33 -0.5 0.33 0 0.67  " ++ endl
      ++ lit "The supporting plane coefficients : 3 -0.23 2 -7" ++ endl ++ endl
      ++ lit "Id: 2" ++ endl ++ lit "The Polygon describing borders :3 -0.5 0.33 0.5 0.33 0 0.67  0 " ++ endl
      ++ lit "The supporting plane coefficients : 0 -3.2 0.34 -0.644" ++ endl ++ endl).
Proof. vm_compute. reflexivity. Qed.
