(** * Projection: model of src/lib/projection/face_projection.cpp (geometry), brick_projection.cpp,
    scene_projection.cpp, of trace / orthoprint / unpack (projection/utilities.cpp) and of
    orthoproject (scene_algorithms.cpp).

    Polygons are lists of exact points.  What CGAL computes by its planar arrangements
    (point location, simplicity, Boolean operations on polygon sets) and the conversion to
    double are operations of a record [kernel]; theorems quantify over every such record,
    with the laws used stated as a hypothesis ([kernel_ok], Spec_projection).  Sums of
    doubles are rounded by an operation of that record too ([k_rnd]). *)
From Verif Require Import Base Dbl Geom Decimal Shadow Streams Handlers Surface.
Open Scope nat_scope.

Record p2 := P2 { x2 : Qc; y2 : Qc }.
Definition p2_eqb (a b : p2) : bool := Qceqb (x2 a) (x2 b) && Qceqb (y2 a) (y2 b).
(** Plane_3: a x + b y + c z + d = 0 *)
Record plane := mkPlane { pl_a : Qc; pl_b : Qc; pl_c : Qc; pl_d : Qc }.
(** Plane_3(p, q, r) (CGAL) *)
Definition plane_through (p q r : p3) : plane :=
  let n := cross (vsub q p) (vsub r p) in mkPlane (x3 n) (y3 n) (z3 n) (- dot n p)%Qc.
(** sign of a number *)
Definition qsign (q : Qc) : comparison := (q ?= 0)%Qc.
Definition sign_eqb (a b : comparison) : bool := match a, b with Eq, Eq | Lt, Lt | Gt, Gt => true | _, _ => false end.
(** CGAL's equality of planes: same direction, then proportional d *)
Definition plane_eqb (h p : plane) : bool :=
  sign_eqb (qsign (pl_a h)) (qsign (pl_a p)) && sign_eqb (qsign (pl_b h)) (qsign (pl_b p)) && sign_eqb (qsign (pl_c h)) (qsign (pl_c p)) &&
  Qceqb (pl_a h * pl_b p) (pl_a p * pl_b h) && Qceqb (pl_a h * pl_c p) (pl_a p * pl_c h) && Qceqb (pl_b h * pl_c p) (pl_b p * pl_c h) &&
  (if negb (Qceqb (pl_a h) 0) then Qceqb (pl_a p * pl_d h) (pl_a h * pl_d p)
   else if negb (Qceqb (pl_b h) 0) then Qceqb (pl_b p * pl_d h) (pl_b h * pl_d p)
   else Qceqb (pl_c p * pl_d h) (pl_c h * pl_d p)).

(** Polygon_2: its vertices in order; Polygon_with_holes_2 *)
Record poly := mkPoly { outer : list p2; holes : list (list p2) }.
(** Polygon_2 == (CGAL): the second ring is turned so that it starts at its first vertex equal
    to the first vertex of the first ring, then compared vertex by vertex *)
Fixpoint turn_to (a : p2) (pre l : list p2) : option (list p2) :=
  match l with [] => None | b :: l' => if p2_eqb a b then Some (l ++ pre) else turn_to a (pre ++ [b]) l' end.
Definition ring_eqb (l m : list p2) : bool :=
  match l, m with
  | [], [] => true
  | [], _ => false
  | a :: _, _ => (length l =? length m) && match turn_to a [] m with Some m' => list_eqb p2_eqb l m' | None => false end
  end.
(** Polygon_with_holes_2 == : holes in any order (CGAL) *)
Fixpoint remove_first {A} (eqb : A -> A -> bool) (a : A) (l : list A) : option (list A) :=
  match l with [] => None | b :: l => if eqb a b then Some l else option_map (cons b) (remove_first eqb a l) end.
Fixpoint same_any_order {A} (eqb : A -> A -> bool) (l m : list A) : bool :=
  match l with [] => match m with [] => true | _ => false end
             | a :: l => match remove_first eqb a m with Some m => same_any_order eqb l m | None => false end end.
Definition poly_eqb (p q : poly) : bool :=
  (length (holes p) =? length (holes q)) && ring_eqb (outer p) (outer q) && same_any_order ring_eqb (holes p) (holes q).
(** Polygon_2::area *)
Fixpoint ring_sum (F : p2 -> p2 -> Qc) (first a : p2) (l : list p2) : Qc :=
  match l with [] => F a first | b :: l => (F a b + ring_sum F first b l)%Qc end.
Definition cross2 (a b : p2) : Qc := (x2 a * y2 b - y2 a * x2 b)%Qc.
Definition ring_area (l : list p2) : Qc := match l with [] => 0%Qc | a :: l => (ring_sum cross2 a a l / qz 2)%Qc end.
(** Polygon_2::reverse_orientation (CGAL): the first vertex stays *)
Definition reverse_ring (l : list p2) : list p2 := match l with [] => [] | a :: l => a :: rev l end.
(** Bbox_2; None is the empty box.  Bounds are exact (CGAL rounds them outwards to doubles:
    simplification, lifted for in_domain in Domain.v) *)
Record box2 := mkBox2 { xmin : Qc; ymin : Qc; xmax : Qc; ymax : Qc }.
Definition qmin (a b : Qc) : Qc := if Qcleb a b then a else b.
Definition qmax (a b : Qc) : Qc := if Qcleb a b then b else a.
Definition box_add (a b : option box2) : option box2 :=
  match a, b with
  | None, b => b | a, None => a
  | Some a, Some b => Some (mkBox2 (qmin (xmin a) (xmin b)) (qmin (ymin a) (ymin b)) (qmax (xmax a) (xmax b)) (qmax (ymax a) (ymax b)))
  end.
Definition point_box (p : p2) : option box2 := Some (mkBox2 (x2 p) (y2 p) (x2 p) (y2 p)).
Definition ring_box (l : list p2) : option box2 := fold_left (fun b p => box_add b (point_box p)) l None.

(** ** CGAL *)
Inductive side := Inside | Boundary | Outside.
Record kernel := mkKernel {
  k_side : list p2 -> p2 -> side;          (* Polygon_2::bounded_side *)
  k_simple : list p2 -> bool;              (* Polygon_2::is_simple *)
  k_set : Type;                            (* Polygon_set_2 *)
  k_none : k_set;                          (* default constructor *)
  k_of : poly -> k_set;                    (* constructor from a polygon *)
  k_join : k_set -> poly -> k_set;         (* join *)
  k_inter : k_set -> poly -> k_set;        (* intersection *)
  k_diff : k_set -> poly -> k_set;         (* difference *)
  k_null : k_set -> bool;                  (* is_empty *)
  k_pieces : k_set -> list poly;           (* polygons_with_holes *)
  k_inter2 : poly -> poly -> list poly;    (* CGAL::intersection(p, q, out) *)
  k_tod : Qc -> Qc;                        (* to_double *)
  k_rnd : Qc -> Qc                         (* the rounding of a sum or difference of two doubles *)
}.

(** ** FacePrint *)
Record face2 := mkFace2 { f_id : nat; f_border : poly; f_plane : plane }.
(** std::numeric_limits<double>::epsilon() *)
Definition epsilon : Qc := Q2Qc (1 # 4503599627370496).

Section KERNEL.
Context (K : kernel).
(** trace, utilities.cpp:7-26, from the points of the facet in order *)
Definition trace (l : list p3) : outcome (list p2 * plane) :=
  match l with
  | p :: q :: r :: _ => Ok (map (fun p => P2 (x3 p) (y3 p)) l, plane_through p q r)
  | [p; q] => Ok (map (fun p => P2 (x3 p) (y3 p)) l, plane_through p q p)
  | _ => UB
  end.
(** FacePrint::FacePrint(Facet), face_projection.cpp:29-38; orientation is the sign of the
    area, which is what it means for a simple polygon *)
Definition face_of (id : nat) (l : list p3) : outcome face2 :=
  let* (t, pl) := trace l in
  Ok (mkFace2 id (mkPoly (if k_simple K t && Qcltb (ring_area t) 0 then reverse_ring t else t) []) pl).
(** bbox, face_projection.cpp:112-115 *)
Definition face_box (f : face2) : option box2 := ring_box (outer (f_border f)).
(** get_plane_height(Point_2), face_projection.cpp:117-122 *)
Definition plane_height (f : face2) (p : p2) : outcome Qc :=
  let pl := f_plane f in
  if Qceqb (pl_c pl) 0 then Throw OverflowError
  else Ok (k_tod K ((- pl_d pl - pl_a pl * x2 p - pl_b pl * y2 p) / pl_c pl)%Qc).
(** area, face_projection.cpp:186-197, as is_degenerate compares it with epsilon: every difference
    is rounded (values beyond the doubles are not modelled here; [face_area_d] of Cli.v is the
    same in binary64) *)
Definition face_area (f : face2) : Qc :=
  fold_left (fun t h => k_rnd K (t - k_tod K (ring_area h))%Qc) (holes (f_border f)) (k_tod K (ring_area (outer (f_border f)))).
(** is_perpendicular, is_degenerate, is_empty, face_projection.cpp:235-249 *)
Definition is_perpendicular (f : face2) : bool := Qceqb (pl_c (f_plane f)) 0.
Definition is_degenerate (f : face2) : bool :=
  is_perpendicular f || (match holes (f_border f) with [] => false | _ => true end && Qcltb (Qcabs (face_area f)) epsilon).
Definition face_empty (f : face2) : bool := match outer (f_border f) with [] => true | _ => false end.
(** contains, face_projection.cpp:251-263 *)
Definition poly_contains (b : poly) (p : p2) : bool :=
  match k_side K (outer b) p with Outside => false | _ => true end &&
  forallb (fun h => match k_side K h p with Inside => false | _ => true end) (holes b).
Definition face_contains (f : face2) (p : p2) : bool := poly_contains (f_border f) p.
(** get_height(Point_2), face_projection.cpp:130-133: a product of three values, all computed *)
Definition face_height (f : face2) (p : p2) : outcome Qc :=
  let* z := plane_height f p in
  Ok (if negb (is_degenerate f) && face_contains f p then z else 0%Qc).
(** equal_border, equal_plane, operator ==, face_projection.cpp:203-222,342-345 *)
Definition equal_border (f g : face2) : bool :=
  (length (holes (f_border f)) =? length (holes (f_border g))) &&
  (ring_eqb (outer (f_border f)) (outer (f_border g)) && list_eqb ring_eqb (holes (f_border f)) (holes (f_border g))).
Definition face_eqb (f g : face2) : bool := equal_border f g && plane_eqb (f_plane f) (f_plane g).

(** ** BrickPrint *)
Record brick := mkBrick { br_box : option box2; br_facets : list face2 }.
Definition brick_empty : brick := mkBrick None [].
(** BrickPrint(FacePrint), brick_projection.cpp:21-24 *)
Definition brick_of (f : face2) : brick := mkBrick (face_box f) [f].
(** contains(Point_2), brick_projection.cpp:112-122 *)
Definition brick_contains (b : brick) (p : p2) : bool := existsb (fun f => face_contains f p) (br_facets b).
(** the union of the facets, brick_projection.cpp:134-136 *)
Definition brick_union (b : brick) : k_set K := fold_left (fun s f => k_join K s (f_border f)) (br_facets b) (k_none K).
(** contains(FacePrint), brick_projection.cpp:132-141 *)
Definition contains_face (b : brick) (f : face2) : bool :=
  match k_pieces K (k_inter K (brick_union b) (f_border f)) with [q] => poly_eqb q (f_border f) | _ => false end.
(** overlaps, brick_projection.cpp:142-161 *)
Definition overlaps (b : brick) (q : poly) : bool := negb (k_null K (k_inter K (brick_union b) q)).
(** get_height(Point_2), brick_projection.cpp:182-196 *)
Definition brick_height (b : brick) (p : p2) : outcome Qc :=
  if brick_contains b p then ofold (fun t f => let* z := face_height f p in Ok (k_rnd K (t + z)%Qc)) (br_facets b) 0%Qc else Ok 0%Qc.
(** CGAL::centroid of the first three vertices of a polygon; operator[] beyond the end is undefined *)
Definition sample (l : list p2) : outcome p2 :=
  match l with a :: b :: c :: _ => Ok (P2 ((x2 a + x2 b + x2 c) / qz 3) ((y2 a + y2 b + y2 c) / qz 3))%Qc | _ => UB end.
(** is_under, brick_projection.cpp:162-180 *)
Definition is_under (b : brick) (f : face2) : outcome bool :=
  if is_perpendicular f || is_degenerate f then Ok true
  else
    let* p := sample (outer (f_border f)) in
    if contains_face b f then let* z := face_height f p in let* t := brick_height b p in Ok (Qcleb z t) else Ok false.
(** filter, brick_projection.cpp:278-291 *)
Definition filter_facets (l : list face2) : list face2 := filter (fun f => negb (face_empty f || is_degenerate f)) l.
Definition brick_filter (b : brick) : brick := mkBrick (br_box b) (filter_facets (br_facets b)).
(** unpack, utilities.cpp:55-73 *)
Definition unpack (l : list face2) (s : k_set K) (id : nat) (pl : plane) : list face2 :=
  l ++ map (fun q => mkFace2 id q pl) (k_pieces K s).
(** one pair of facets in occlusion, brick_projection.cpp:346-373: what is left of the two *)
Definition cut_one (l r : face2) (sets : k_set K * k_set K) (i : poly) : outcome (k_set K * k_set K) :=
  let* p := sample (outer i) in
  let* zl := plane_height l p in let* zr := plane_height r p in
  Ok (if Qcltb zr zl then (fst sets, k_diff K (snd sets) i) else (k_diff K (fst sets) i, snd sets)).
Definition occlude_pair (l r : face2) (acc : list face2 * list face2) : outcome (list face2 * list face2) :=
  let i := k_inter2 K (f_border l) (f_border r) in
  match i with
  | [] => Ok (fst acc ++ [l], snd acc ++ [r])
  | _ =>
    let* (sl, sr) := ofold (cut_one l r) i (k_of K (f_border l), k_of K (f_border r)) in
    Ok (unpack (fst acc) sl (f_id l) (f_plane l), unpack (snd acc) sr (f_id r) (f_plane r))
  end.
(** occlusion, brick_projection.cpp:339-377: [l] against the facets [cs]; returns what is
    left of [l] and of [cs] *)
Definition occlusion (cs : list face2) (l : face2) : outcome (list face2 * list face2) :=
  ofold (fun acc r => occlude_pair l r acc) (filter_facets cs) ([], []).
(** the loop of operator += (FacePrint), brick_projection.cpp:310-315 *)
Fixpoint occlude_all (cs : list face2) (rs : list face2) : outcome (list face2 * list face2) :=
  match rs with
  | [] => Ok ([], cs)
  | r :: rs => let* (lf, cs) := occlusion cs r in let* (res, cs) := occlude_all cs rs in Ok (lf ++ res, cs)
  end.
(** operator += (FacePrint), brick_projection.cpp:293-323 *)
Definition add_face (b : brick) (f : face2) : outcome brick :=
  let* fs :=
    match br_facets b with
    | [] => Ok [f]
    | _ =>
      if negb (overlaps b (f_border f)) then Ok (br_facets b ++ [f])
      else
        let* u := is_under b f in
        if u then Ok (br_facets b)
        else let* (res, cs) := occlude_all [f] (br_facets b) in Ok (res ++ cs)
    end in
  Ok (mkBrick (box_add (br_box b) (face_box f)) fs).
(** operator += (BrickPrint) and operator +, brick_projection.cpp:324-337,433-437 *)
Definition add_brick (b other : brick) : outcome brick :=
  let* r := ofold (fun b f => if face_empty f || is_degenerate f then Ok b else add_face b f) (br_facets other) (brick_filter b) in
  Ok (brick_filter r).
(** std::is_permutation (libstdc++) of ranges of the same length, which equal_facets has checked:
    what the ranges have in common at the start is skipped; each element that none before it
    equals must be found as often in the second range as from there on in the first *)
Definition count_eq {A} (eqb : A -> A -> bool) (a : A) (l : list A) : nat := length (filter (eqb a) l).
Fixpoint skip_common {A} (eqb : A -> A -> bool) (l m : list A) : list A * list A :=
  match l, m with
  | a :: l', b :: m' => if eqb a b then skip_common eqb l' m' else (l, m)
  | _, _ => (l, m)
  end.
Fixpoint perm_scan {A} (eqb : A -> A -> bool) (seen l m : list A) : bool :=
  match l with
  | [] => true
  | a :: l' =>
    if existsb (eqb a) seen then perm_scan eqb (seen ++ [a]) l' m
    else if (count_eq eqb a m =? 0) || negb (count_eq eqb a l =? count_eq eqb a m) then false
    else perm_scan eqb (seen ++ [a]) l' m
  end.
Definition is_permutation {A} (eqb : A -> A -> bool) (l m : list A) : bool :=
  (length l =? length m) && let '(l, m) := skip_common eqb l m in perm_scan eqb [] l m.
(** equal_facets and operator ==, brick_projection.cpp:411-423,438-441 *)
Definition brick_eqb (b c : brick) : bool := is_permutation face_eqb (br_facets b) (br_facets c).
(** ** FootPrint *)
Record footprint := mkFoot { fp_name : str; fp_ref : point; fp_epsg : N; fp_proj : brick }.
(** FacePrint of a facet of a surface *)
Definition face_print (s : surface) (f : nat) : outcome face2 := let* l := facet_points s f in face_of (s_id s f) l.
(** orthoprint, utilities.cpp:27-54 *)
Definition orthoprint (s : surface) : outcome (list face2) :=
  let* l := omapM (face_print s) (s_facets s) in Ok (filter_facets l).
(** FootPrint(UNode), scene_projection.cpp:14-28: the facet is converted to a BrickPrint *)
Definition foot_of {S} (surf : S -> surface) (u : unode S) : outcome footprint :=
  let* prints := orthoprint (surf (u_surf u)) in
  let* b := ofold (fun b f => add_brick b (brick_of f)) prints brick_empty in
  Ok (mkFoot (u_name u) (u_ref u) (u_epsg u) b).
(** operator +=, scene_projection.cpp:135-147: (the footprint afterwards, result).  The last
    [Throw] branch is never taken ([C57_no_exception] of Props_self.v). *)
Definition foot_add (a b : footprint) : footprint * outcome unit :=
  match br_facets (fp_proj a) with
  | [] => (b, Ok tt)
  | _ =>
    if pt_neqb (fp_ref a) (fp_ref b) || negb (fp_epsg a =? fp_epsg b)%N then (a, Throw LogicError)
    else match add_brick (fp_proj a) (fp_proj b) with
         | Ok p => (mkFoot (fp_name a) (fp_ref a) (fp_epsg a) p, Ok tt)
         | Throw e => (a, Throw e)
         | UB => (a, UB)
         end
  end.
(** operator +, scene_projection.cpp:183-187 *)
Definition foot_plus (a b : footprint) : outcome footprint :=
  match foot_add a b with (r, Ok _) => Ok r | (_, Throw e) => Throw e | (_, UB) => UB end.
(** the sum of save_scene_prints, scene_algorithms.cpp:74-78 *)
Definition foot_default : footprint := mkFoot [] point_default 2154 brick_empty.
Definition foot_sum (l : list footprint) : outcome footprint := ofold foot_plus l foot_default.
(** operator ==, scene_projection.cpp:170-177 *)
Definition foot_eqb (a b : footprint) : bool :=
  pt_eqb (fp_ref a) (fp_ref b) && (fp_epsg a =? fp_epsg b)%N && brick_eqb (fp_proj a) (fp_proj b).
(** orthoproject, scene_algorithms.cpp:98-117 *)
Definition orthoproject {S} (surf : S -> surface) (s : scene S) (terrain : bool) : outcome (list footprint) :=
  let* l := omapM (foot_of surf) (sc_buildings s) in
  if terrain then let* t := foot_of surf (sc_terrain s) in Ok (l ++ [t]) else Ok l.
End KERNEL.
