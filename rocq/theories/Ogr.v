(** * Ogr: model of the vector files: to_ogr / get_ogr_point, get_ogr_ring, get_ogr_polygon (projection/utilities.cpp), FacePrint,
    BrickPrint and FootPrint to and from OGR.

    An OGR layer is its definition and its features.  Coordinates and real fields are the
    doubles stored, as exact numbers.  Simplifications: what the driver stores is what it
    gives back (a shapefile keeps 15 significant digits of a real field and turns rings);
    a field of another type reads as 0; memory is not modelled. *)
From Coq Require Strings.String.
From Verif Require Import Base Dbl Geom Decimal Shadow Streams Handlers Surface Projection Raster.
Import Coq.Strings.String.StringSyntax.
Delimit Scope string_scope with string.
Open Scope nat_scope.

(** OGRField, OGRGeometry, OGRFeature, OGRLayer (GDAL).  [ly_srs] is what GetEPSGGeogCS gives
    for the spatial reference of the layer, if it has one. *)
Inductive fvalue := FInt (n : nat) | FReal (q : Qc) | FStr (s : str).
Inductive geometry := GPolygon (rings : list (list p2)) | GOther.
Record feature := mkFeature { ft_values : list (str * fvalue); ft_geom : option geometry }.
Record layer := mkLayer { ly_name : str; ly_srs : option Z; ly_fields : list str; ly_features : list feature }.

(** OGRFeature::SetField(name, value): nothing if the definition has no such field *)
Definition set_field (defn : list str) (name : str) (v : fvalue) (l : list (str * fvalue)) : list (str * fvalue) :=
  if existsb (str_eqb name) defn then (name, v) :: l else l.
(** OGRFeature::GetFieldAsInteger64, GetFieldAsDouble: 0 if there is no such field *)
Definition get_field (name : str) (ft : feature) : option fvalue :=
  match find (fun e => str_eqb (fst e) name) (ft_values ft) with Some e => Some (snd e) | None => None end.
Definition get_int (name : str) (ft : feature) : nat := match get_field name ft with Some (FInt n) => n | _ => 0 end.
Definition get_real (name : str) (ft : feature) : Qc := match get_field name ft with Some (FReal q) => q | _ => 0%Qc end.
Definition fld_id := hdr "Id"%string.
Definition fld_a := hdr "coeff_a"%string.
Definition fld_b := hdr "coeff_b"%string.
Definition fld_c := hdr "coeff_c"%string.
Definition fld_d := hdr "coeff_d"%string.
Definition fld_u := hdr "Unq_Errors"%string.
Definition fld_h := hdr "Bul_Errors"%string.
Definition fld_f := hdr "Fac_Errors"%string.
Definition s_none := hdr "None"%string.

Section KERNEL.
Context (K : kernel).
(** to_ogr(Point_2), utilities.cpp:75-78 *)
Definition point_out (ref : point) (p : p2) : p2 := P2 (k_tod K (x2 p + qd (px ref))) (k_tod K (y2 p + qd (py ref))).
(** OGRLinearRing::closeRings (GDAL) *)
Definition close_ring (l : list p2) : list p2 :=
  match l with
  | a :: _ :: _ => if p2_eqb a (last l a) then l else l ++ [a]
  | _ => l
  end.
(** to_ogr(Polygon), utilities.cpp:79-92 *)
Definition ring_out (ref : point) (l : list p2) : list p2 := close_ring (map (point_out ref) l).
(** to_ogr(Polygon_with_holes), utilities.cpp:93-106 *)
Definition poly_out (ref : point) (P : poly) : list (list p2) := ring_out ref (outer P) :: map (ring_out ref) (holes P).
(** get_ogr_ring, utilities.cpp:112-129: a vector of getNumPoints() - 1 points, 2^64 - 1 of an
    empty ring, which std::vector refuses with length_error *)
Definition ring_in (l : list p2) : outcome (list p2) :=
  match l with [] => Throw LengthError | _ => Ok (firstn (length l - 1) l) end.
(** get_ogr_polygon, utilities.cpp:130-145: the holes first; a polygon without ring has a null
    exterior ring, which is dereferenced *)
Definition poly_in (rings : list (list p2)) : outcome poly :=
  let* hs := omapM ring_in (tl rings) in
  match rings with [] => UB | r :: _ => let* o := ring_in r in Ok (mkPoly o hs) end.

(** FacePrint::to_ogr, face_projection.cpp:270-291 *)
Definition face_out (defn : list str) (ref : point) (labels : bool) (f : face2) : feature :=
  let s := set_field defn in
  let v := s fld_id (FInt (f_id f)) [] in
  let v := s fld_a (FReal (k_tod K (pl_a (f_plane f)))) v in
  let v := s fld_b (FReal (k_tod K (pl_b (f_plane f)))) v in
  let v := s fld_c (FReal (k_tod K (pl_c (f_plane f)))) v in
  let v := s fld_d (FReal (k_tod K (pl_d (f_plane f) + qd (pz ref)))) v in
  let v := if labels then s fld_f (FStr s_none) (s fld_h (FStr s_none) (s fld_u (FStr s_none) v)) else v in
  mkFeature v (Some (GPolygon (poly_out ref (f_border f)))).
(** FacePrint(pointers to OGRFeature and OGRFeatureDefn), face_projection.cpp:39-59 *)
Definition face_in (defn : list str) (ft : feature) : outcome face2 :=
  if length defn <? 5 then Throw OverflowError
  else match ft_geom ft with
       | Some (GPolygon rings) => let* P := poly_in rings in
           Ok (mkFace2 (get_int fld_id ft) P (mkPlane (get_real fld_a ft) (get_real fld_b ft) (get_real fld_c ft) (get_real fld_d ft)))
       | _ => Throw RuntimeError
       end.
(** BrickPrint::to_ogr, brick_projection.cpp:379-409: CreateField adds to the definition;
    [accept] says whether the layer takes a feature *)
Definition brick_fields (labels : bool) : list str :=
  [fld_id; fld_a; fld_b; fld_c; fld_d] ++ if labels then [fld_u; fld_h; fld_f] else [].
Definition brick_out (accept : feature -> bool) (ly : layer) (ref : point) (labels : bool) (b : brick) : outcome layer :=
  let defn := ly_fields ly ++ brick_fields labels in
  ofold (fun ly f => let ft := face_out defn ref labels f in
      if accept ft then Ok (mkLayer (ly_name ly) (ly_srs ly) (ly_fields ly) (ly_features ly ++ [ft])) else Throw RuntimeError)
    (br_facets b) (mkLayer (ly_name ly) (ly_srs ly) defn (ly_features ly)).
(** BrickPrint(pointer to OGRLayer), brick_projection.cpp:25-37 *)
Definition brick_in (ly : layer) : outcome brick :=
  ofold (fun b ft => let* f := face_in (ly_fields ly) ft in Ok (mkBrick (box_add (br_box b) (face_box f)) (br_facets b ++ [f])))
    (ly_features ly) brick_empty.
(** FootPrint::to_ogr, scene_projection.cpp:149-159: [create] says whether CreateLayer gives a
    layer, [geog] what GetEPSGGeogCS gives for an EPSG code *)
Definition foot_out (geog : N -> Z) (create : bool) (accept : feature -> bool) (labels : bool) (fp : footprint) : outcome layer :=
  if create then brick_out accept (mkLayer (fp_name fp) (Some (geog (fp_epsg fp))) [] []) (fp_ref fp) labels (fp_proj fp)
  else Throw RuntimeError.
(** FootPrint(std::string, pointer to OGRLayer), scene_projection.cpp:29-34: a null spatial reference is
    dereferenced; the code is cut to 16 bits *)
Definition foot_in (name : str) (ly : layer) : outcome footprint :=
  let* b := brick_in ly in
  match ly_srs ly with
  | None => UB
  | Some g => Ok (mkFoot name point_default (if (0 <? g)%Z then Z.to_N (g mod 65536) else 2154%N) b)
  end.
End KERNEL.
