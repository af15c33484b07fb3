(** * Specification vocabulary for rasters (C59-C66, C72). *)
From Verif Require Import Base Dbl Geom Decimal Shadow Streams Handlers Surface Projection Spec_projection Raster.
Open Scope nat_scope.

(** a natural number as a coordinate *)
Definition qn (n : N) : Qc := qz (Z.of_N n).
(** [n] cells of size [s] are the fewest that cover the length [len] *)
Definition cells (len s : Qc) (n : N) : Prop := (len <= qn n * s)%Qc /\ forall m, (len <= qn m * s)%Qc -> (n <= m)%N.
(** [n] whole steps of size [s] fit in the distance [d] *)
Definition steps (d s : Qc) (n : N) : Prop := (qn n * s <= d /\ d < (qn n + 1) * s)%Qc.
(** a raster of [h] rows and [w] columns over the box [B] that can be held in memory *)
Definition grid (B : box2) (s : Qc) (h w : N) : Prop :=
  cells (ymax B - ymin B)%Qc s h /\ cells (xmax B - xmin B)%Qc s w /\ (h < two64 /\ w < two64 /\ h * w <= max_indexes)%N /\
  (xmin B <= xmax B /\ ymin B <= ymax B)%Qc.

(** the mean of points *)
Definition mean (l : list p2) (c : p2) : Prop :=
  l <> [] /\ (x2 c * qn (nsize l) = qsum (map x2 l))%Qc /\ (y2 c * qn (nsize l) = qsum (map y2 l))%Qc.
(** the list without consecutive repetitions *)
Inductive squeezed {X} : list X -> list X -> Prop :=
| sq_nil : squeezed [] []
| sq_one a : squeezed [a] [a]
| sq_skip a l m : squeezed (a :: l) m -> squeezed (a :: a :: l) m
| sq_keep a b l m : a <> b -> squeezed (b :: l) m -> squeezed (a :: b :: l) (a :: m).
(** the mean of the vertices of a ring *)
Definition vertex_mean (l : list p2) (c : p2) : Prop := exists m, squeezed l m /\ mean m c.

Section KERNEL.
Context (K : kernel).
(** the square of side [s] below and right of (x, y) *)
Definition ground (x y s : Qc) : poly := mkPoly [P2 x y; P2 x (y - s); P2 (x + s) (y - s); P2 (x + s) y]%Qc [].
(** the part of facet [f] in that square has the mean height [z]: the mean, over the pieces
    of the intersection, of the height of the facet's plane at the piece's vertex mean *)
Definition seen_in (f : face2) (x y s z : Qc) : Prop :=
  let ps := k_inter2 K (ground x y s) (f_border f) in
  ps <> [] /\ exists zs, Forall2 (fun P z => exists c, vertex_mean (outer P) c /\ on_plane (f_plane f) (P3 (x2 c) (y2 c) z)) ps zs /\
    (z * qn (nsize ps) = qsum zs)%Qc.
(** the square with which pixel (i, j) of a raster of box [B] looks at a facet of box [b] *)
Definition window (B b : box2) (s : Qc) (i j : N) (x y : Qc) : Prop :=
  exists i0 j0 h w a c,
    steps (ymax B - ymax b)%Qc s i0 /\ steps (xmin b - xmin B)%Qc s j0 /\ cells (ymax b - ymin b)%Qc s h /\ cells (xmax b - xmin b)%Qc s w /\
    (a < h /\ c < w /\ i = i0 + a /\ j = j0 + c)%N /\ x = (xmin b + qn c * s)%Qc /\ y = (ymax b - qn a * s)%Qc.
(** facet [f] contributes the height [z] to pixel (i, j) *)
Definition gives (B : box2) (s : Qc) (f : face2) (i j : N) (z : Qc) : Prop :=
  is_degenerate K f = false /\ exists b x y, face_box f = Some b /\ window B b s i j x y /\ seen_in f x y s z.
(** the heights contributed to pixel (i, j) by a list of facets *)
Inductive given (B : box2) (s : Qc) (i j : N) : list face2 -> list Qc -> Prop :=
| g_nil : given B s i j [] []
| g_hit f l z zs : gives B s f i j z -> given B s i j l zs -> given B s i j (f :: l) (z :: zs)
| g_miss f l zs : (forall z, ~ gives B s f i j z) -> given B s i j l zs -> given B s i j (f :: l) zs.
(** a facet that can be drawn in [B]: it lies in it, and its plane is not nearly vertical *)
Definition drawable (B : box2) (f : face2) : Prop :=
  is_degenerate K f = true \/
  exists b, face_box f = Some b /\ box_le (Some b) (Some B) /\ (epsilon <= pl_c (f_plane f) \/ pl_c (f_plane f) <= - epsilon)%Qc.
(** what is assumed of CGAL here: the pieces of an intersection have vertices *)
Definition cuts_have_vertices : Prop := forall P Q q, In q (k_inter2 K P Q) -> outer q <> [].

(** what is assumed of CGAL to tell which squares a facet meets: [good] polygons are those
    it accepts; they have an interior, in the box of their outer ring, and squares are good *)
Record cut_ok (good : poly -> Prop) : Prop := mkCutOk {
  cut_square : forall x y s, (0 < s)%Qc -> good (ground x y s);
  cut_ground : forall x y s p, (0 < s)%Qc -> (inside K (ground x y s) p <-> (x < x2 p /\ x2 p < x + s /\ y - s < y2 p /\ y2 p < y)%Qc);
  cut_some : forall P, good P -> exists p, inside K P p;
  cut_good : forall P Q q, good P -> good Q -> In q (k_inter2 K P Q) -> good q;
  cut_in : forall P Q q p, good P -> good Q -> In q (k_inter2 K P Q) -> inside K q p -> inside K P p /\ inside K Q p;
  cut_meet : forall P Q p, good P -> good Q -> inside K P p -> inside K Q p -> k_inter2 K P Q <> [];
  cut_box : forall P p, good P -> inside K P p ->
    exists b, ring_box (outer P) = Some b /\ (xmin b < x2 p /\ x2 p < xmax b /\ ymin b < y2 p /\ y2 p < ymax b)%Qc
}.
(** the interior of facet [f] meets the ground square of pixel (i, j) of the raster over [B] *)
Definition meets_pixel (B : box2) (s : Qc) (f : face2) (i j : N) : Prop :=
  exists p, inside K (f_border f) p /\
    (xmin B + qn j * s < x2 p /\ x2 p < xmin B + (qn j + 1) * s /\ ymax B - (qn i + 1) * s < y2 p /\ y2 p < ymax B - qn i * s)%Qc.
(** the top left corner of the box of [f] is a corner of the grid *)
Definition on_grid (B : box2) (s : Qc) (f : face2) : Prop :=
  exists b i0 j0, face_box f = Some b /\ (ymax B - ymax b = qn i0 * s)%Qc /\ (xmin b - xmin B = qn j0 * s)%Qc.
End KERNEL.

(** pixel (i, j) of a raster *)
Definition pixel_is (r : raster exact) (i j : N) (v : Qc) (c : Z) : Prop :=
  nth_error (r_image exact r) (N.to_nat (i * r_width exact r + j)) = Some v /\ nth_error (r_hits exact r) (N.to_nat (i * r_width exact r + j)) = Some c.
(** the image and the hit counters have a value for every pixel, and no more *)
Definition sized {A} (r : raster A) : Prop :=
  nsize (r_image A r) = (r_height A r * r_width A r)%N /\ nsize (r_hits A r) = (r_height A r * r_width A r)%N /\ (r_height A r * r_width A r < two64)%N.

(** [v] is the mean of the heights [zs], or 0 if there are none *)
Definition averages (zs : list Qc) (v : Qc) : Prop := (zs = [] -> v = 0%Qc) /\ (v * qn (nsize zs) = qsum zs)%Qc.
(** strings joined by a separator *)
Fixpoint sep_by (s : str) (l : list str) : str := match l with [] => [] | [a] => a | a :: l => a ++ s ++ sep_by s l end.
(** the text of a matrix: bracketed rows of values, separated by commas, one row per line *)
Definition matrix_lines (rows : list (list str)) : str :=
  "["%char :: sep_by [","%char; ch_nl; " "%char] (map (fun row => "["%char :: sep_by [","; " "]%char row ++ ["]"%char]) rows) ++ ["]"%char; ch_nl].
