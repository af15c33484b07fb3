(** * Raster: model of src/lib/projection/raster_projection.cpp, of FacePrint::rasterize and the
    pixel heights (face_projection.cpp:123-180,293-333), of centroid (util_algorithms.cpp) and of
    rasterize_scene (scene_algorithms.cpp).

    The code computes with doubles.  The model is written once, over a record of arithmetic
    operations [arith]; [exact] is exact rational arithmetic, [doubles] is binary64.
    Bounding boxes are exact (CGAL rounds them outwards; simplification). *)
From Coq Require Import Qround.
From Coq Require Strings.String.
Import Coq.Strings.String.StringSyntax.
Delimit Scope string_scope with string.
From Verif Require Import Base Dbl Geom Decimal Shadow Streams Handlers Surface Projection.
Open Scope nat_scope.

(** double to size_t (static_cast): undefined outside of its range *)
Definition to_size (z : Z) : outcome N := if ((0 <=? z) && (z <? 18446744073709551616))%Z then Ok (Z.to_N z) else UB.
Record arith := mkArith {
  num : Type;
  n_add : num -> num -> num; n_sub : num -> num -> num; n_mul : num -> num -> num; n_div : num -> num -> num;
  n_ltb : num -> num -> bool; n_eqb : num -> num -> bool; n_abs : num -> num; n_opp : num -> num;
  n_floor : num -> outcome N; n_ceil : num -> outcome N;   (* static_cast<size_t>(std::floor(x)), ceil *)
  n_of : Z -> num;                                         (* static_cast<double>(integer) *)
  n_toq : num -> Qc;                                       (* to_exact *)
  n_ofq : Qc -> num;                                       (* to_inexact, to_double *)
  n_ofd : dbl -> num; n_tod : num -> dbl
}.
(** the value of a finite double (0 otherwise: simplification) *)
Definition qd (x : dbl) : Qc :=
  match x with
  | S754_finite s m e => let '(a, b) := frac m e in let v := Q2Qc (a # Z.to_pos b) in if s then (- v)%Qc else v
  | _ => 0%Qc
  end.
(** the double nearest to a rational *)
Definition dq (q : Qc) : dbl :=
  let n := Qnum (this q) in let d := Zpos (Qden (this q)) in
  if (n =? 0)%Z then dzero else rn64 (n <? 0)%Z (Z.abs n) d.
Definition exact : arith := mkArith Qc Qcplus Qcminus Qcmult Qcdiv Qcltb Qceqb Qcabs Qcopp
  (fun q => to_size (Qfloor (this q))) (fun q => to_size (Qceiling (this q))) qz (fun q => q) (fun q => q) qd dq.
Definition dabs (x : dbl) : dbl := SFabs x.
Definition doubles : arith := mkArith dbl dadd dsub dmul ddiv dltb deqb dabs dopp
  (fun x => match x with S754_infinity _ | S754_nan => UB | _ => to_size (Qfloor (this (qd x))) end)
  (fun x => match x with S754_infinity _ | S754_nan => UB | _ => to_size (Qceiling (this (qd x))) end)
  dofZ qd dq (fun x => x) (fun x => x).

(** std::unique *)
Fixpoint unique {A} (eqb : A -> A -> bool) (l : list A) : list A :=
  match l with
  | a :: ((b :: _) as l') => if eqb a b then a :: tl (unique eqb l') else a :: unique eqb l'
  | l => l
  end.
(** v[i] = a where v.at(i) succeeded *)
Definition set_nth {A} (l : list A) (k : nat) (a : A) : list A := firstn k l ++ a :: skipn (S k) l.
(** conversion to short *)
Definition wrap16 (z : Z) : Z := ((z + 32768) mod 65536 - 32768)%Z.

Section RASTER.
Context (A : arith) (K : kernel).
Notation D := (num A).
Definition ip2 := (D * D)%type.
(** CGAL::centroid of points: the sum of the coordinates divided by their number.  The
    precondition is that there is a point. *)
Definition mean_point (l : list ip2) : outcome ip2 :=
  match l with
  | [] => UB
  | _ => Ok (n_div A (fold_left (n_add A) (map fst l) (n_of A 0)) (n_of A (Z.of_nat (length l))),
             n_div A (fold_left (n_add A) (map snd l) (n_of A 0)) (n_of A (Z.of_nat (length l))))
  end.
(** centroid(Polygon), util_algorithms.cpp:90-111, and of a polygon with holes, 112-115 *)
Definition centroid (l : list p2) : outcome ip2 :=
  mean_point (unique (fun a b => n_eqb A (fst a) (fst b) && n_eqb A (snd a) (snd b)) (map (fun p => (n_ofq A (x2 p), n_ofq A (y2 p))) l)).
(** get_plane_height(InexactPoint_2), face_projection.cpp:123-129 *)
Definition iplane_height (f : face2) (p : ip2) : outcome D :=
  let pl := f_plane f in
  if n_ltb A (n_abs A (n_ofq A (pl_c pl))) (n_ofq A epsilon) then Throw OverflowError
  else Ok (n_div A (n_sub A (n_sub A (n_mul A (n_of A (-1)) (n_ofq A (pl_d pl))) (n_mul A (n_ofq A (pl_a pl)) (fst p))) (n_mul A (n_ofq A (pl_b pl)) (snd p))) (n_ofq A (pl_c pl))).
(** pixel_intersection, face_projection.cpp:139-157: the square below and right of (x, y) *)
Definition pixel_square (x y s : D) : poly :=
  mkPoly [P2 (n_toq A x) (n_toq A y); P2 (n_toq A x) (n_toq A (n_sub A y s)); P2 (n_toq A (n_add A x s)) (n_toq A (n_sub A y s)); P2 (n_toq A (n_add A x s)) (n_toq A y)] [].
Definition pixel_pieces (f : face2) (x y s : D) : list poly := k_inter2 K (pixel_square x y s) (f_border f).
(** get_height(x, y, size, hit), face_projection.cpp:159-180; None when not hit *)
Definition pixel_height (f : face2) (x y s : D) : outcome (option D) :=
  match pixel_pieces f x y s with
  | [] => Ok None
  | ps =>
    let* z := ofold (fun t p => let* c := centroid (outer p) in let* h := iplane_height f c in Ok (n_add A t (n_div A h (n_of A (Z.of_nat (length ps)))))) ps (n_of A 0) in
    Ok (Some z)
  end.
(** the assignment at face_projection.cpp:320-328.  The standard leaves the order of the read of
    the hit counter (in the numerator) and of its increment (in the denominator) undefined;
    the model reads first. *)
Definition put_pixel (img : list D * list Z) (k : N) (z : D) : outcome (list D * list Z) :=
  let* v := vatN (fst img) k in
  let* c := vatN (snd img) k in
  let c' := wrap16 (c + 1) in
  Ok (set_nth (fst img) (N.to_nat k) (n_div A (n_add A (n_mul A v (n_of A c)) z) (n_of A c')), set_nth (snd img) (N.to_nat k) c').
Definition iota (n : N) : list N := map N.of_nat (seq 0 (N.to_nat n)).
(** FacePrint::rasterize, face_projection.cpp:293-333 *)
Definition rasterize (img : list D * list Z) (tx ty : D) (height width : N) (s : D) (f : face2) : outcome (list D * list Z) :=
  if is_degenerate K f then Ok img else
  match face_box f with
  | None => UB
  | Some b =>
    let x0 := n_ofq A (xmin b) in let x1 := n_ofq A (xmax b) in let y0 := n_ofq A (ymin b) in let y1 := n_ofq A (ymax b) in
    let* i_min := n_floor A (n_div A (n_sub A ty y1) s) in
    let* j_min := n_floor A (n_div A (n_sub A x0 tx) s) in
    let* w := n_ceil A (n_div A (n_sub A x1 x0) s) in
    let* h := n_ceil A (n_div A (n_sub A y1 y0) s) in
    if ((height <? wrap64 (i_min + h)) && (width <? wrap64 (j_min + w)))%N then Throw RuntimeError else
    let n := wrap64 (w * h) in
    if (max_indexes <? n)%N then Throw LengthError else
    ofold (fun img index =>
      let* z := pixel_height f (n_add A x0 (n_mul A (n_of A (Z.of_N (index mod w))) s)) (n_sub A y1 (n_mul A (n_of A (Z.of_N (index / w))) s)) s in
      match z with
      | None => Ok img
      | Some z => put_pixel img (wrap64 (wrap64 (i_min + index / w) * width + j_min + index mod w)) z
      end) (iota n) img
  end.

(** ** RasterPrint *)
Record raster := mkRaster { r_name : str; r_ref : D * D * D; r_epsg : N; r_height : N; r_width : N; r_px : D; r_image : list D; r_hits : list Z; r_offset : bool }.
(** RasterPrint(), raster_projection.cpp:17-18 and the defaults of raster_projection.h:61-69 *)
Definition raster_default : raster := mkRaster [] (n_of A 0, n_of A 0, n_of A 0) 2154 0 0 (n_ofq A (Q2Qc (6 # 100))) [] [] false.
(** vertical_offset, raster_projection.cpp:237-246 *)
Definition vertical_offset (r : raster) : outcome raster :=
  if r_offset r then Ok r
  else
    let* img := ofold (fun img k => let* v := vatN img k in let* c := vatN (r_hits r) k in
        Ok (set_nth img (N.to_nat k) (n_add A v (n_mul A (n_of A (if (c =? 0)%Z then 0 else 1)) (snd (r_ref r))))))
      (iota (wrap64 (r_height r * r_width r))) (r_image r) in
    Ok (mkRaster (r_name r) (r_ref r) (r_epsg r) (r_height r) (r_width r) (r_px r) img (r_hits r) true).
(** RasterPrint(FootPrint, pixel_size), raster_projection.cpp:19-39 *)
Definition raster_of (fp : footprint) (s : D) : outcome raster :=
  match br_box (fp_proj fp) with
  | None => UB
  | Some b =>
    let x0 := n_ofq A (xmin b) in let x1 := n_ofq A (xmax b) in let y0 := n_ofq A (ymin b) in let y1 := n_ofq A (ymax b) in
    let* height := n_ceil A (n_div A (n_sub A y1 y0) s) in
    let* width := n_ceil A (n_div A (n_sub A x1 x0) s) in
    if (max_indexes <? wrap64 (height * width))%N then Throw LengthError else
    let n := N.to_nat (wrap64 (height * width)) in
    let* img := ofold (fun img f => rasterize img x0 y1 height width s f) (br_facets (fp_proj fp)) (repeat (n_of A 0) n, repeat 0%Z n) in
    let ref := (n_add A (n_ofd A (px (fp_ref fp))) x0, n_add A (n_ofd A (py (fp_ref fp))) y1, n_add A (n_ofd A (pz (fp_ref fp))) (n_of A 0)) in
    vertical_offset (mkRaster (fp_name fp) ref (fp_epsg fp) height width s (fst img) (snd img) false)
  end.
(** rasterize_scene, scene_algorithms.cpp:118-134 *)
Definition rasterize_scene (l : list footprint) (s : D) : outcome (list raster) := omapM (fun fp => raster_of fp s) l.
(** at, hit, raster_projection.cpp:157-180 *)
Definition raster_at {X} (get : raster -> list X) (r : raster) (i j : N) : outcome X :=
  if ((r_height r <? i) && (r_width r <? j))%N then Throw OutOfRange else vatN (get r) (wrap64 (i * r_width r + j)).
(** equal_metadata and operator ==, raster_projection.cpp:323-359: the comparison of the pixels
    reads as many pixels of the second raster as the first has, and its result is dropped *)
Definition ref_eqb (a b : D * D * D) : bool :=
  n_eqb A (fst (fst a)) (fst (fst b)) && (n_eqb A (snd (fst a)) (snd (fst b)) && n_eqb A (snd a) (snd b)).
Definition equal_metadata (a b : raster) : bool :=
  n_ltb A (n_abs A (n_sub A (r_px a) (r_px b))) (n_ofq A epsilon) && ref_eqb (r_ref a) (r_ref b) && (r_epsg a =? r_epsg b)%N && (r_height a =? r_height b)%N && (r_width a =? r_width b)%N.
Definition raster_eqb (a b : raster) : outcome bool :=
  if equal_metadata a b then (if length (r_image a) <=? length (r_image b) then Ok true else UB) else Ok false.

(** ** GDAL datasets *)
(** [d_geog] is what GetEPSGGeogCS finds in the stored projection, if one is stored; [d_geo]
    the six coefficients; [d_band] the pixels of the first band, if it can be read *)
Record dataset := mkDataset { d_xsize : Z; d_ysize : Z; d_geog : option Z; d_geo : option (D * D * D * D * D * D); d_band : option (list D) }.
(** RasterPrint(name, dataset), raster_projection.cpp:40-73; sizes and buffers fit in memory
    (simplification) *)
Definition raster_read (name : str) (d : dataset) : outcome raster :=
  let height := Z.to_N (d_ysize d) in let width := Z.to_N (d_xsize d) in
  let epsg := match d_geog d with Some e => e | None => 2154%Z end in
  let epsg := if (0 <? epsg)%Z then Z.to_N (epsg mod 65536) else 2154%N in
  match d_geo d with
  | None => Throw RuntimeError
  | Some (g0, g1, g2, g3, g4, g5) =>
    if n_ltb A (n_ofq A epsilon) (n_abs A (n_add A g1 g5)) then Throw LogicError
    else match d_band d with
         | None => Throw RuntimeError
         | Some l => Ok (mkRaster name (g0, g3, n_of A 0) epsg height width g1 l (repeat 1%Z (N.to_nat (height * width))) true)
         end
  end.
(** conversion of size_t to int *)
Definition to_int (n : N) : Z := ((Z.of_N n + 2147483648) mod 4294967296 - 2147483648)%Z.
(** GDALDriver::Create (GTiff): a null pointer for sizes that are not positive *)
Definition gdal_create (w h : Z) : option dataset :=
  if ((0 <? w) && (0 <? h))%Z then Some (mkDataset w h (Some (-1)%Z) None (Some (repeat (n_of A 0) (Z.to_nat (w * h))))) else None.
(** to_gdal, raster_projection.cpp:248-289; [geog] gives the EPSG code of the geographic
    system underlying the system of a given EPSG code, or a negative number; [accept] says
    whether RasterIO succeeds.  RasterIO reads width x height values from the buffer. *)
Definition to_gdal (geog : N -> Z) (accept : bool) (r : raster) (d : dataset) : outcome dataset :=
  let n := Z.to_nat (to_int (r_width r) * to_int (r_height r)) in
  if length (r_image r) <? n then UB
  else if accept then
    Ok (mkDataset (d_xsize d) (d_ysize d) (Some (geog (r_epsg r)))
         (Some (fst (fst (r_ref r)), r_px r, n_of A 0, snd (fst (r_ref r)), n_of A 0, n_opp A (r_px r))) (Some (firstn n (r_image r))))
  else Throw RuntimeError.
(** what RasterHandler::write stores, io_raster.cpp:66-76: the null pointer is not checked *)
Definition raster_store (geog : N -> Z) (accept : bool) (r : raster) : outcome dataset :=
  match gdal_create (to_int (r_width r)) (to_int (r_height r)) with None => UB | Some d => to_gdal geog accept r d end.

(** ** Text *)
(** os << std::setprecision(6) << std::fixed << x *)
Definition print_fixed (x : dbl) : str :=
  match x with
  | S754_zero s => sign_str s ++ ["0"; "."; "0"; "0"; "0"; "0"; "0"; "0"]%char
  | S754_finite s m e => let '(a, b) := frac m e in let n := rhe (a * 1000000) b in
      sign_str s ++ print_nat (n / 1000000) ++ ch_dot :: fixed_digits 6 (n mod 1000000) []
  | x => print_dbl x
  end.
Definition show_num (x : D) : str := print_fixed (n_tod A x).
(** operator <<, raster_projection.cpp:291-321: what follows the header *)
Definition matrix_text (r : raster) : outcome str :=
  let n := wrap64 (r_height r * r_width r) in
  let* body := omapM (fun it =>
      let* v := vatN (r_image r) it in
      Ok (show_num v ++ if negb ((it + 1) mod r_width r =? 0)%N then [","; " "]%char
                        else "]"%char :: (if negb (it + 1 =? wrap64 (r_width r * r_height r))%N then [","%char; ch_nl; " "%char; "["%char] else []))) (iota n) in
  Ok (["["; "["]%char ++ concat body ++ ["]"%char; ch_nl]).
Definition hdr (s : String.string) : str := String.list_ascii_of_string s.
Definition raster_header (r : raster) : str :=
  hdr "Name : "%string ++ r_name r ++ [ch_nl] ++
  hdr "Reference (Top left) Point : "%string ++ print_point (mkPoint (n_tod A (fst (fst (r_ref r)))) (n_tod A (snd (fst (r_ref r)))) (n_tod A (snd (r_ref r)))) ++ [ch_nl] ++
  hdr "EPSG code : "%string ++ print_N (r_epsg r) ++ [ch_nl] ++ hdr "Height : "%string ++ print_N (r_height r) ++ [ch_nl] ++ hdr "Width : "%string ++ print_N (r_width r) ++ [ch_nl] ++
  hdr "Image Matrix : "%string ++ [ch_nl].
Definition raster_text (r : raster) : outcome str := let* m := matrix_text r in Ok (raster_header r ++ m).
End RASTER.
