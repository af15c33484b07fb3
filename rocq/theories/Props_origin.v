(** * Property C106: the facets of the prints orthoproject makes come from the polygons of the scene's files. *)
From Coq Require Import String.
From Verif Require Import Base Dbl Dbl_facts Geom Decimal Shadow Spec_shadow Shadow_proofs Streams Spec_text Handlers Spec_io Handlers_proofs Surface Spec_surface Surface_proofs Scenefile_proofs Xml_proofs Props_text Props_obj Props_cli2
  Projection Raster Spec_ring Spec_projection Spec_raster Raster_proofs Dq_proofs Export Spec_export Props_mesheq Props_io Spec_scenes Scenes_proofs Props_scenes Props_export Ogr Cli Spec_cli Props_cli Spec_convert Props_convert Spec_back Spec_origin Spec_num Spec_arith Props_grid Spec_image Props_image.
From Coq Require Import QArith Qabs Qcanon.
From Coq Require Lqa.
From Verif Require Print_proofs Props_projection Props_self.
From Verif Require Import Rect.
From Verif Require Props_raster Lattice_proofs Arith_proofs.
Import List.
Close Scope string_scope.
Open Scope nat_scope.

(** ** Sums keep the planes of the facets *)
Section KEEP.
Context (K : kernel) (Q : plane -> Prop).
Definition keep (l : list face2) : Prop := forall f, In f l -> Q (f_plane f).
Lemma keep_app a b : keep a -> keep b -> keep (a ++ b).
Proof. intros H I' f Hf. apply in_app_or in Hf as [Hf|Hf]; auto. Qed.
Lemma ofold_keeps {A B} (P : A -> Prop) (R : B -> Prop) (f : A -> B -> outcome A) : (forall a b a', P a -> R b -> f a b = Ok a' -> P a') -> forall l a r, P a -> (forall b, In b l -> R b) -> ofold f l a = Ok r -> P r.
Proof.
  intros H. induction l as [|b l IH]; intros a r Pa Rl E; cbn [ofold] in E; [apply Ok_inj in E; now subst|]. apply bind_Ok in E as (a' & E1 & E). apply (IH a' r); auto; [|intros c Hc; apply Rl; now right]. apply (H a b a'); auto. apply Rl. now left.
Qed.
Lemma pair_keep l r acc a : Q (f_plane l) -> Q (f_plane r) -> keep (fst acc) /\ keep (snd acc) -> occlude_pair K l r acc = Ok a -> keep (fst a) /\ keep (snd a).
Proof.
  intros Hl Hr [U V]. unfold occlude_pair. destruct (k_inter2 K (f_border l) (f_border r)) as [|i is].
  - intros E. apply Ok_inj in E. subst a. cbn [fst snd]. split; apply keep_app; auto; intros f [<-|[]]; auto.
  - intros E. apply bind_Ok in E as ([sl sr] & _ & E). apply Ok_inj in E. subst a. cbn [fst snd]. unfold unpack. split; apply keep_app; auto; intros f Hf; apply in_map_iff in Hf as (q & <- & _); auto.
Qed.
Lemma occlude_all_keep : forall rs cs a, keep rs -> keep cs -> occlude_all K cs rs = Ok a -> keep (fst a) /\ keep (snd a).
Proof.
  induction rs as [|r rs IH]; intros cs a Kr Kc E; cbn [occlude_all] in E.
  - apply Ok_inj in E. subst a. split; [intros f []|exact Kc].
  - apply bind_Ok in E as ([lf c1] & E1 & E). apply bind_Ok in E as ([res c2] & E2 & E). apply Ok_inj in E. subst a. cbn [fst snd].
    unfold occlusion in E1. apply (ofold_keeps (fun acc => keep (fst acc) /\ keep (snd acc)) (fun c => Q (f_plane c))) in E1.
    + cbn [fst snd] in E1. destruct E1 as [E1 E1']. destruct (IH c1 (res, c2)) as [A B]; auto; [intros f Hf; apply Kr; now right|]. cbn [fst snd] in *. split; auto. now apply keep_app.
    + intros acc c a' Pa Rc Ea. apply (pair_keep r c acc a'); auto. apply Kr. now left.
    + split; intros f [].
    + intros c Hc. unfold filter_facets in Hc. apply filter_In in Hc as [Hc _]. now apply Kc.
Qed.
Lemma add_face_keep b f r : keep (br_facets b) -> Q (f_plane f) -> add_face K b f = Ok r -> keep (br_facets r).
Proof.
  intros Kb Hf E. unfold add_face in E. apply bind_Ok in E as (fs & E & E'). apply Ok_inj in E'. subst r. cbn [br_facets]. assert (keep [f]) as Kf by (intros g [<-|[]]; auto).
  destruct (br_facets b) as [|g l] eqn:Eb; [apply Ok_inj in E; now subst|]. destruct (negb (overlaps K b (f_border f))); [apply Ok_inj in E; subst; now apply keep_app|].
  apply bind_Ok in E as (u & _ & E). destruct u; [apply Ok_inj in E; now subst|]. apply bind_Ok in E as ([res cs] & E1 & E). apply Ok_inj in E. subst fs. destruct (occlude_all_keep (g :: l) [f] (res, cs) Kb Kf E1). now apply keep_app.
Qed.
Lemma built_keep b l : built K b l -> keep l -> keep (br_facets b).
Proof.
  induction 1 as [|f|b l f b' B IH E|b l c m b' B IH C IHc E|b l B IH]; intros Kl.
  - intros f [].
  - exact Kl.
  - apply (add_face_keep b f b'); auto; [apply IH; intros g Hg; apply Kl, in_or_app; now left|apply Kl, in_or_app; right; now left].
  - unfold add_brick in E. apply bind_Ok in E as (r & E & E'). apply Ok_inj in E'. subst b'. cbn [brick_filter br_facets]. assert (keep (br_facets r)) as Kr.
    { apply (ofold_keeps (fun b => keep (br_facets b)) (fun f => face_empty f || is_degenerate K f = false -> Q (f_plane f))) in E; auto.
      - intros a f a' Pa Rf Ea. destruct (face_empty f || is_degenerate K f) eqn:Ef; [apply Ok_inj in Ea; now subst|]. apply (add_face_keep a f a'); auto.
      - cbn [brick_filter br_facets]. intros g Hg. unfold filter_facets in Hg. apply filter_In in Hg as [Hg _]. apply IH; auto. intros k Hk. apply Kl, in_or_app. now left.
      - intros f Hf Ef. apply Kl, in_or_app. right. apply filter_In. split; auto. now rewrite Ef. }
    intros g Hg. unfold filter_facets in Hg. apply filter_In in Hg as [Hg _]. auto.
  - cbn [brick_filter br_facets]. intros g Hg. unfold filter_facets in Hg. apply filter_In in Hg as [Hg _]. now apply IH.
Qed.
End KEEP.

(** ** The print of a facet of a surface that is a mesh *)
Lemma built_points m P s v i : Forall2 at_point (m_points m) P -> Spec_surface.points s = P -> Spec_export.numbers s v i -> exists p, nth_error (m_points m) (N.to_nat i) = Some p /\ at_point p (s_point s v).
Proof.
  intros F E Nv. unfold Spec_export.numbers in Nv. apply (map_nth_error (s_point s)) in Nv. fold (Spec_surface.points s) in Nv. rewrite E in Nv. revert Nv. generalize (N.to_nat i) as k. clear E. induction F as [|p q l m0 X F IH]; intros k Nv; destruct k; try discriminate; cbn [nth_error] in *; [|now apply IH].
  injection Nv as <-. eauto.
Qed.
Lemma facet_polygon m P s f : Forall2 at_point (m_points m) P -> built_as P (m_faces m) s -> In f (s_facets s) -> forall pts, boundary s f pts -> exists pg, In pg (polygons m) /\ corners_of pg pts.
Proof.
  intros A (_ & _ & HP & HF) Hf pts (r & Cy & ->). destruct (Forall2_In_r _ _ _ HF f Hf) as (fc & Hfc & vs & fc' & C & (u & v & -> & ->) & M).
  set (at1 := fun i : N => nth_error (m_points m) (N.to_nat i)). exists (map at1 (u ++ v)). split; [unfold polygons; apply (in_map (map at1)); exact Hfc|].
  exists (map at1 (v ++ u)). split; [exists (map at1 u), (map at1 v); split; apply map_app|]. assert (corners s f (map (s_vert s) (s_rep s f :: r))) as C' by (exists r; auto). rewrite (corners_fun _ _ _ _ C C') in M.
  replace (map (fun h => s_point s (s_vert s h)) (s_rep s f :: r)) with (map (s_point s) (map (s_vert s) (s_rep s f :: r))) by apply map_map. clear -M A HP.
  induction M as [|w i vs fc X M IH]; cbn [map]; constructor; auto. unfold at1. destruct (built_points m P s w i A HP X) as (p & -> & Ap). eauto.
Qed.
Lemma print_drawn K m P s f x : Forall2 at_point (m_points m) P -> built_as P (m_faces m) s -> In f (s_facets s) -> print_of K s f x -> pl_c (f_plane x) <> 0%Qc -> exists pg, In pg (polygons m) /\ drawn K pg x.
Proof.
  intros A B Hf (p & q & rest & Bd & _ & (N1 & N2 & N3) & Op & Oq & Or & Hh & _ & Ho) Nv.
  destruct rest as [|r rest].
  { exfalso. apply Nv. rewrite N3. cbn [hd]. unfold cross, vsub. cbn [x3 y3 z3]. ring. }
  cbn [hd] in *. destruct (facet_polygon m P s f A B Hf _ Bd) as (pg & Hpg & Cp). exists pg. split; auto. exists p, q, r, rest. unfold vertical. cbv zeta. tauto.
Qed.
Lemma taken_surface T m ref epsg u : taken_as_is T m -> Handlers.unode_of_mesh (body_of_mesh T) ref epsg m = Ok u ->
  u_name u = m_name m /\ u_ref u = ref /\ u_epsg u = epsg /\ exists P, Forall2 at_point (m_points m) P /\ built_as P (m_faces m) (b_surface (u_surf u)).
Proof.
  intros (S & R & P & s & A & O & B & U & D) H. destruct (C85_round_trip T dq m P s ref epsg exact_dq S R A O B U D) as (u' & m' & H' & N & Ur & Ue & Us & _).
  change (Handlers.unode_of_mesh (body_of_mesh T) ref epsg m) with (unode_of_mesh T m ref epsg) in H. rewrite H' in H. apply Ok_inj in H. subst u'. repeat (split; [assumption|]). exists P. split; auto. now rewrite Us.
Qed.
(** ** C106: every facet of the print of a node made from a mesh is part of one of its polygons *)
Theorem C106_prints : forall T K m ref epsg u fp, taken_as_is T m -> Handlers.unode_of_mesh (body_of_mesh T) ref epsg m = Ok u -> foot_of K b_surface u = Ok fp ->
  fp_name fp = m_name m /\ fp_ref fp = ref /\ fp_epsg fp = epsg /\ forall y, In y (br_facets (fp_proj fp)) -> part_of K m y.
Proof.
  intros T K m ref epsg u fp Tk Hu Hf. destruct (taken_surface T m ref epsg u Tk Hu) as (Un & Ur & Ue & P & A & B).
  assert (labels : fp_name fp = u_name u /\ fp_ref fp = u_ref u /\ fp_epsg fp = u_epsg u). { unfold foot_of in Hf. apply bind_Ok in Hf as (pr & _ & Hf). apply bind_Ok in Hf as (b & _ & Hf). apply Ok_inj in Hf. subst fp. repeat split. }
  destruct labels as (L1 & L2 & L3). rewrite Un in L1. rewrite Ur in L2. rewrite Ue in L3. repeat (split; [assumption|]).
  destruct (Props_projection.C58_facets K _ b_surface u fp Hf) as (prints & Op & Bu). destruct B as (V & B). pose proof (conj V B : built_as P (m_faces m) (b_surface (u_surf u))) as BA.
  destruct (Props_projection.C51_orthoprint K _ V) as (pr & Op' & Fp). rewrite Op in Op'. apply Ok_inj in Op'.
  assert (forall x, In x prints -> exists pg, In pg (polygons m) /\ drawn K pg x) as Dr.
  { intros x Hx. rewrite Op' in Hx. apply filter_In in Hx as [Hx Nx]. destruct (Forall2_In_r _ _ _ Fp x Hx) as (f & Hfa & Pf). apply (print_drawn K m P _ f x A BA Hfa Pf). intros E. rewrite E in Nx. discriminate. }
  intros y Hy. split.
  - apply (built_keep K (fun pl => exists pg x, In pg (polygons m) /\ drawn K pg x /\ pl = f_plane x) _ _ Bu); auto. intros x Hx. destruct (Dr x Hx) as (pg & Hpg & D). eauto.
  - intros good sgood OK Gd. destruct (Props_projection.C52_no_new_surface K good sgood OK _ _ Bu) with (x := y) as (x & Hx & _ & Ep & Co); auto.
    + intros f Hff. destruct (Dr f Hff) as (pg & Hpg & D). apply (Gd pg f Hpg D).
    + destruct (Dr x Hx) as (pg & Hpg & D). exists pg, x. auto.
Qed.

(** ** Block models: every polygon horizontal or over a line *)
Lemma corner_level pg h l P : level pg h -> corners_of pg l -> In P l -> z3 P = h.
Proof.
  intros L (c & (u & v & -> & ->) & F) HP. destruct (Forall2_In_r _ _ _ F P HP) as (o & Ho & p & -> & (_ & _ & E)). rewrite E. apply L. apply in_app_or in Ho as [Ho|Ho]; apply in_or_app; auto.
Qed.
Lemma corner_wall pg a b c l P : (forall p, In (Some p) pg -> (a * qd (px p) + b * qd (py p) + c = 0)%Qc) -> corners_of pg l -> In P l -> (a * x3 P + b * y3 P + c = 0)%Qc.
Proof.
  intros L (k & (u & v & -> & ->) & F) HP. destruct (Forall2_In_r _ _ _ F P HP) as (o & Ho & p & -> & (E1 & E2 & _)). rewrite E1, E2. apply L. apply in_app_or in Ho as [Ho|Ho]; apply in_or_app; auto.
Qed.
Lemma drawn_wall K pg x : wall pg -> drawn K pg x -> False.
Proof.
  intros (a & b & c & N & L) (p & q & r & rest & Cs & (_ & _ & Nz) & _ & _ & _ & Nv & _). apply Nv. unfold vertical. rewrite Nz. unfold cross, vsub. cbn [x3 y3 z3].
  pose proof (corner_wall pg a b c _ p L Cs (or_introl eq_refl)) as Ep. pose proof (corner_wall pg a b c _ q L Cs (or_intror (or_introl eq_refl))) as Eq. pose proof (corner_wall pg a b c _ r L Cs (or_intror (or_intror (or_introl eq_refl)))) as Er.
  set (d := ((x3 q - x3 p) * (y3 r - y3 p) - (y3 q - y3 p) * (x3 r - x3 p))%Qc).
  assert (a * d = 0)%Qc as Da. { transitivity ((y3 r - y3 p) * ((a * x3 q + b * y3 q + c) - (a * x3 p + b * y3 p + c)) - (y3 q - y3 p) * ((a * x3 r + b * y3 r + c) - (a * x3 p + b * y3 p + c)))%Qc; [unfold d; ring|rewrite Ep, Eq, Er; ring]. }
  assert (b * d = 0)%Qc as Db. { transitivity ((x3 q - x3 p) * ((a * x3 r + b * y3 r + c) - (a * x3 p + b * y3 p + c)) - (x3 r - x3 p) * ((a * x3 q + b * y3 q + c) - (a * x3 p + b * y3 p + c)))%Qc; [unfold d; ring|rewrite Ep, Eq, Er; ring]. }
  destruct (Qc_eq_dec d 0) as [E|E]; [exact E|]. exfalso. apply N. apply Qcmult_integral in Da, Db. tauto.
Qed.
Lemma drawn_level K pg x h : level pg h -> drawn K pg x -> pl_a (f_plane x) = 0%Qc /\ pl_b (f_plane x) = 0%Qc /\ pl_c (f_plane x) <> 0%Qc /\ (pl_c (f_plane x) * h + pl_d (f_plane x) = 0)%Qc.
Proof.
  intros L (p & q & r & rest & Cs & (Na & Nb & _) & Op & _ & _ & Nv & _).
  pose proof (corner_level pg h _ p L Cs (or_introl eq_refl)) as Ep. pose proof (corner_level pg h _ q L Cs (or_intror (or_introl eq_refl))) as Eq. pose proof (corner_level pg h _ r L Cs (or_intror (or_intror (or_introl eq_refl)))) as Er.
  assert (pl_a (f_plane x) = 0%Qc) as A by (rewrite Na; unfold cross, vsub; cbn [x3 y3 z3]; rewrite Ep, Eq, Er; ring). assert (pl_b (f_plane x) = 0%Qc) as B by (rewrite Nb; unfold cross, vsub; cbn [x3 y3 z3]; rewrite Ep, Eq, Er; ring).
  split; auto. split; auto. split; [exact Nv|]. unfold on_plane in Op. rewrite A, B, Ep in Op. transitivity (0 * x3 p + 0 * y3 p + pl_c (f_plane x) * h + pl_d (f_plane x))%Qc; [ring|exact Op].
Qed.
(** the facets of the print of a block model lie at heights of its horizontal polygons *)
Theorem C106_blocks : forall K m y, block m -> part_of K m y -> exists h, height_in m h /\
  pl_a (f_plane y) = 0%Qc /\ pl_b (f_plane y) = 0%Qc /\ pl_c (f_plane y) <> 0%Qc /\ (pl_c (f_plane y) * h + pl_d (f_plane y) = 0)%Qc.
Proof.
  intros K m y B [(pg & x & Hpg & D & E) _]. destruct (B pg Hpg) as [W|[h L]]; [destruct (drawn_wall K pg x W D)|]. exists h. split; [exists pg; auto|]. rewrite E. now apply (drawn_level K pg).
Qed.
(** and so do the heights its pixels are given *)
Lemma flat_seen K f x y s z h : pl_a (f_plane f) = 0%Qc -> pl_b (f_plane f) = 0%Qc -> pl_c (f_plane f) <> 0%Qc -> (pl_c (f_plane f) * h + pl_d (f_plane f) = 0)%Qc -> seen_in K f x y s z -> z = h.
Proof.
  intros A B C D (N & zs & F & E). cbv zeta in *. set (ps := k_inter2 K (ground x y s) (f_border f)) in *. clearbody ps.
  assert (qsum zs = h * qn (nsize ps))%Qc as S.
  { clear N E. induction F as [|P z' ps zs (c & _ & On) F IH]; [change (qn (nsize (@nil poly))) with (qn 0); rewrite qn_0; change (qsum []) with 0%Qc; ring|]. change (qsum (z' :: zs)) with (z' + qsum zs)%Qc. rewrite IH.
    assert (z' = h) as ->. { apply (on_plane_fun (f_plane f) (x2 c) (y2 c)); auto. unfold on_plane. cbn [x3 y3 z3]. rewrite A, B. transitivity (pl_c (f_plane f) * h + pl_d (f_plane f))%Qc; [ring|exact D]. }
    replace (qn (nsize (P :: ps))) with (1 + qn (nsize ps))%Qc; [ring|]. unfold nsize. cbn [length]. rewrite Nnat.Nat2N.inj_succ. symmetry. rewrite <- N.add_1_l, qn_plus, qn_1. reflexivity. }
  rewrite S in E. assert (qn (nsize ps) <> 0%Qc) as Nz. { destruct ps as [|P ps]; [congruence|]. intros Q. apply (qn_nonzero (nsize (P :: ps))); auto. unfold nsize. cbn [length]. lia. }
  apply (Qc_cancel (qn (nsize ps))); auto.
Qed.
Theorem C106_heights : forall K m B S i j l zs, block m -> (forall y, In y l -> part_of K m y) -> given K B S i j l zs -> forall z, In z zs -> height_in m z.
Proof.
  intros K m B S i j l zs Bm H G. induction G as [|f l z zs (_ & b & x & y & _ & _ & Sn) G IH|f l zs _ G IH]; intros z' Hz; [destruct Hz| |apply IH; auto; intros; apply H; now right].
  destruct Hz as [<-|Hz]; [|apply IH; auto; intros; apply H; now right]. destruct (C106_blocks K m f Bm (H f (or_introl eq_refl))) as (h & Hh & A & B0 & C & D). now rewrite (flat_seen K f x y S z h A B0 C D Sn).
Qed.

Lemma given_len K B S i j l zs : given K B S i j l zs -> List.length zs <= List.length l.
Proof. induction 1; cbn [List.length]; lia. Qed.
Lemma average_range zs v lo hi : zs <> [] -> (forall z, In z zs -> lo <= z <= hi)%Qc -> averages zs v -> (lo <= v <= hi)%Qc.
Proof.
  intros Ne H [_ E]. assert (0 < qn (nsize zs))%Qc as P by (apply qn_pos; destruct zs; [congruence|unfold nsize; cbn [List.length]; lia]).
  assert (lo * qn (nsize zs) <= qsum zs /\ qsum zs <= hi * qn (nsize zs))%Qc as [A B].
  { clear -H. induction zs as [|z zs IH]; [change (qn (nsize [])) with (qn 0); rewrite qn_0; cbn [qsum]; replace (lo * 0)%Qc with 0%Qc by ring; replace (hi * 0)%Qc with 0%Qc by ring; split; apply Qcle_refl|].
    destruct IH as [A B]; [intros y Hy; apply H; now right|]. destruct (H z (or_introl eq_refl)) as [C D]. replace (qn (nsize (z :: zs))) with (1 + qn (nsize zs))%Qc by (unfold nsize; cbn [List.length]; rewrite Nnat.Nat2N.inj_succ, <- N.add_1_l, qn_plus, qn_1; reflexivity).
    cbn [qsum]. split; [replace (lo * (1 + qn (nsize zs)))%Qc with (lo + lo * qn (nsize zs))%Qc by ring|replace (hi * (1 + qn (nsize zs)))%Qc with (hi + hi * qn (nsize zs))%Qc by ring]; now apply Qcplus_le_compat. }
  rewrite <- E in A, B. split; apply (Qcmult_lt_0_le_reg_r _ _ (qn (nsize zs))); auto.
Qed.
(** the mean a pixel shows lies between the lowest and the highest of the mesh's horizontal polygons; of a mesh of one height it is that *)
Theorem C106_range : forall K m B S i j l zs v lo hi, block m -> (forall y, In y l -> part_of K m y) -> given K B S i j l zs -> zs <> [] -> averages zs v ->
  (forall h, height_in m h -> lo <= h <= hi)%Qc -> (lo <= v <= hi)%Qc.
Proof. intros K m B S i j l zs v lo hi Bm P G Ne A H. apply (average_range zs); auto. intros z Hz. apply H. exact (C106_heights K m B S i j l zs Bm P G z Hz). Qed.

(** ** Runs of orthoproject *)
Lemma resolves_fun p d d' : resolves p d -> resolves p d' -> d = d'.
Proof.
  intros [->|[-> N]] [E|[E N']]; auto; [now apply app_inj_tail in E|exfalso; exact (N' d eq_refl)|exfalso; exact (N d' E)].
Qed.
Lemma interleave_perm {A} (a b l : list A) : interleave a b l -> Permutation (a ++ b) l.
Proof. induction 1 as [|x a b l I' IH|x a b l I' IH]; [constructor|cbn; now constructor|]. rewrite <- IH. symmetry. apply Permutation_middle. Qed.
Lemma obj_scene (S : Type) (build : mesh -> outcome S) X f p c rs ms t : f (os_path p) = Some (File c) -> obj_read c = Ok rs -> NoDup (map m_name rs) -> interleave ms [t] rs -> m_name t = lit "terrain" ->
  forall ls, scene_read X build f ls (mkSceneH p [(lit "read", true)] obj) = scene_make build ms (mkMesh (m_name t) (m_points t) (m_faces t) (m_bbox mesh_empty)) point_default 2154.
Proof.
  intros Fc R Nd Il Tn ls. set (isT := fun x : mesh => str_eqb (m_name x) (lit "terrain")).
  assert (isT t = true) as Tt by (unfold isT; now apply str_eqb_eq).
  assert (forall x, In x ms -> isT x = false) as Nt.
  { intros x Hx. apply not_true_iff_false. intros E. apply str_eqb_eq in E. apply in_split in Hx as (m1 & m2 & ->). pose proof (interleave_perm _ _ _ Il) as Pe. apply (Permutation_map m_name) in Pe. apply Permutation_sym, (Permutation_NoDup (l' := map m_name ((m1 ++ x :: m2) ++ [t]))) in Pe; auto.
    rewrite <- app_assoc, map_app in Pe. cbn [app map] in Pe. apply NoDup_remove_2 in Pe. apply Pe. rewrite E, <- Tn, map_app. apply in_or_app. right. apply in_or_app. right. now left. }
  assert (filter (fun x => negb (isT x)) rs = ms) as Fm by (apply (interleave_filter _ ms [t]); auto; [intros x Hx; now rewrite (Nt x Hx)|intros x [<-|[]]; now rewrite Tt]).
  assert (filter isT rs = [t]) as Ft. { assert (interleave [t] ms rs) as Il' by (clear -Il; induction Il; constructor; auto). apply (interleave_filter _ [t] ms); auto. intros x [<-|[]]. exact Tt. }
  unfold scene_read. cbn [sh_fmt sh_path sh_modes]. unfold obj_get_scene.
  assert (obj_handler_read f (mkObjH p [(lit "read", true)] []) = Ok (mkObjH p [(lit "read", true)] rs)) as Rd. { apply obj_read_value; [repeat constructor; intros []|]. cbn [oh_modes oh_path oh_meshes]. split; [now left|]. split; auto. split; auto. exists c; auto. }
  rewrite Rd. cbn [bind]. unfold exclude_mesh. cbn [oh_meshes oh_path oh_modes]. change s_terrain with (lit "terrain"). fold isT. change (fun x => negb (str_eqb (m_name x) (lit "terrain"))) with (fun x => negb (isT x)). rewrite Ft, Fm. unfold scene_make_default. cbn [oh_meshes].
  replace (snd (mesh_set_name (sum_meshes [t]) (lit "terrain"))) with (mkMesh (m_name t) (m_points t) (m_faces t) (m_bbox mesh_empty)); [match goal with |- context [scene_make ?a ?l ?b ?c ?d] => destruct (scene_make a l b c d); reflexivity end|]. destruct t as [n P F bx]. cbn [m_name] in Tn. subst n. reflexivity.
Qed.
Lemma held_scene (S : Type) (build : mesh -> outcome S) X prune listing f p fmt ms t tr s : holds f listing p fmt ms t -> scene_of X build prune listing f p fmt false tr s ->
  exists bx, scene_make build ms (mkMesh (m_name t) (m_points t) (m_faces t) bx) point_default 2154 = Ok s.
Proof.
  intros Ho (h & d & s0 & Eh & Rd & Es & E). cbv iota in E. subst s0. destruct Ho as [(-> & d' & ns & rest & Rd' & Nd & Fd & Nn & Il & Fb & No & St)|(-> & Ex & Np & c & rs & Fc & R & Nd & Tn & Il)].
  - pose proof (resolves_fun _ _ _ Rd Rd'); subst d'. rewrite (proj1 (named_ok p _)) in Eh. apply Ok_inj in Eh. subst h. cbn [sh_fmt] in Es.
    rewrite (C91_scene S build X f (listing f d) d [(lit "read", true)] ns rest ms t) in Es; auto; [|repeat constructor; intros []|now left]. exists (m_bbox t). destruct t; exact Es.
  - rewrite (proj2 (named_ok p _) Ex) in Eh. apply Ok_inj in Eh. subst h. cbn [sh_fmt] in Es. destruct Rd as [->|[-> _]]; [exfalso; exact (obj_not_dot _ Ex d eq_refl)|].
    rewrite (obj_scene S build X f d c rs ms t) in Es; auto; [eexists; exact Es|]. now rewrite (os_path_plain _ Np).
Qed.
Lemma taken_box T x bx : taken_as_is T x -> taken_as_is T (mkMesh (m_name x) (m_points x) (m_faces x) bx).
Proof. intros H. exact H. Qed.
Lemma part_box K x bx y : part_of K (mkMesh (m_name x) (m_points x) (m_faces x) bx) y -> part_of K x y.
Proof. intros H. exact H. Qed.
(** the print [fp] shows the mesh [x] *)
Definition print_of_mesh (K : kernel) (x : mesh) (fp : footprint) : Prop :=
  fp_name fp = m_name x /\ fp_ref fp = point_default /\ fp_epsg fp = 2154%N /\ forall y, In y (br_facets (fp_proj fp)) -> part_of K x y.
Lemma omapM_made {A B C} (f : A -> outcome B) (g : B -> outcome C) la : forall lb lc, omapM f la = Ok lb -> omapM g lb = Ok lc -> Forall2 (fun a c => exists b, f a = Ok b /\ g b = Ok c) la lc.
Proof.
  induction la as [|a la IH]; intros lb lc E E'; cbn [omapM] in E; [apply Ok_inj in E; subst lb; cbn in E'; apply Ok_inj in E'; subst; constructor|].
  apply bind_Ok in E as (b & Ea & E). apply bind_Ok in E as (lb' & El & E). apply Ok_inj in E. subst lb. cbn [omapM] in E'. apply bind_Ok in E' as (c & Eb & E'). apply bind_Ok in E' as (lc' & El' & E'). apply Ok_inj in E'. subst lc. constructor; [eauto|now apply (IH lb')].
Qed.
Lemma scene_prints T K ms t s tr l : (forall x, In x (ms ++ [t]) -> taken_as_is T x) -> scene_make (body_of_mesh T) ms t point_default 2154 = Ok s -> orthoproject K b_surface s tr = Ok l ->
  Forall2 (print_of_mesh K) (ms ++ (if tr then [t] else [])) l.
Proof.
  intros Tk Es Eo. unfold scene_make in Es. apply bind_Ok in Es as (us & Eu & Es). apply bind_Ok in Es as (ut & Et & Es). apply Ok_inj in Es. subst s. unfold orthoproject in Eo. cbn [sc_buildings sc_terrain] in Eo. apply bind_Ok in Eo as (lb & El & Eo).
  assert (forall x u fp, In x (ms ++ [t]) -> Handlers.unode_of_mesh (body_of_mesh T) point_default 2154 x = Ok u -> foot_of K b_surface u = Ok fp -> print_of_mesh K x fp) as One by (intros x u fp Hx Hu Hf; exact (C106_prints T K x _ _ u fp (Tk x Hx) Hu Hf)).
  assert (Forall2 (print_of_mesh K) ms lb) as Fm.
  { pose proof (omapM_made _ _ _ _ _ Eu El) as F. assert (forall x, In x ms -> In x (ms ++ [t])) as Sub by (intros; apply in_or_app; now left). clear -F One Sub. revert Sub One. generalize (ms ++ [t]) as big. intros big Sub One. revert Sub.
    induction F as [|x fp xs l (u & Hu & Hf) F IH]; intros Sub; constructor; [apply (One x u); auto; apply Sub; now left|apply IH; intros; apply Sub; now right]. }
  destruct tr.
  - apply bind_Ok in Eo as (ft & Ef & Eo). apply Ok_inj in Eo. subst l. apply Forall2_app; auto. constructor; [|constructor]. apply (One t ut); auto. apply in_or_app. right. now left.
  - apply Ok_inj in Eo. subst l. now rewrite app_nil_r.
Qed.

Section RUN.
Context (T : soup_tools) (X : externals) (prune : body -> outcome body) (line : surface -> nat -> outcome str) (listing : fs -> path -> list str) (K : kernel) (G : gdal) (stod : str -> outcome dbl).
Notation ortho := (ortho_main X (body_of_mesh T) b_surface prune line listing K G stod).
(** A finished run on a scene whose meshes CGAL takes as they are, without pruning, has made one print for each mesh (that of the
    terrain last, if asked for), of its name, whose facets are parts of the mesh's polygons, and has stored it. *)
Theorem C106_run : forall m a w w' ms t, ortho_given stod m a -> oa_save a = true -> oa_prune a = false -> holds (w_fs w) listing (oa_path a) (oa_format a) ms t ->
  (forall x, In x (ms ++ [t]) -> taken_as_is T x) -> ortho (PArgs m) w = (w', Exit 0 None) ->
  let dir := parent_path (oa_path a) in
  exists s l V Vs R Rs, scene_of X (body_of_mesh T) prune listing (w_fs w) (oa_path a) (oa_format a) false (oa_terrain a) s /\ orthoproject K b_surface s (oa_terrain a) = Ok l /\
    Forall2 (print_of_mesh K) (ms ++ (if oa_terrain a then [t] else [])) l /\
    w_vectors w' = w_vectors w ++ V ++ Vs /\ Forall2 (fun fp e => shape_in K G (path_join dir (lit "vectors")) (oa_labels a) (fp_name fp) fp e) l V /\
    w_rasters w' = w_rasters w ++ Rs ++ R /\ (wants_images a -> Forall2 (fun fp i => image_in K G (path_join dir (lit "rasters")) (oa_pixel a) (fp_name fp) fp i) l R) /\
    (oa_sum a = false -> Vs = [] /\ Rs = []).
Proof.
  intros m a w w' ms t Ga Sv Pr Ho Tk E dir. destruct (C74_complete X (body_of_mesh T) b_surface prune line listing K G stod m a w w' Ga Sv E) as (s & l & V & Vs & R & Rs & Sc & O & EV & ER & FV & Sm & FR). fold dir in FV, Sm, FR.
  rewrite Pr in Sc. destruct (held_scene body (body_of_mesh T) X prune listing (w_fs w) _ _ ms t _ s Ho Sc) as (bx & Es).
  assert (forall x, In x (ms ++ [mkMesh (m_name t) (m_points t) (m_faces t) bx]) -> taken_as_is T x) as Tk'.
  { intros x Hx. apply in_app_or in Hx as [Hx|[<-|[]]]; [apply Tk, in_or_app; now left|]. apply (taken_box T t bx), Tk, in_or_app. right. now left. }
  pose proof (scene_prints T K ms _ s (oa_terrain a) l Tk' Es O) as P.
  exists s, l, V, Vs, R, Rs. split; [exact Sc|]. split; [exact O|]. split; [|split; [exact EV|split; [exact FV|split; [exact ER|split]]]].
  - destruct (oa_terrain a); [|exact P]. apply Forall2_app_inv_l in P as (l1 & l2 & P1 & P2 & ->). apply Forall2_app; auto. inversion P2 as [|z fp zs fps (A & B & C & D) P3]; subst. inversion P3; subst. constructor; [|constructor]. split; [exact A|]. split; [exact B|]. split; [exact C|exact D].
  - intros Wi. destruct FR as [[_ FR]|[N _]]; [exact FR|contradiction].
  - intros Es'. rewrite Es' in Sm. exact Sm.
Qed.
(** With a pixel size, the image of each mesh is stored under its name; for a block model on a binary lattice every pixel holds 0
    or, up to rounding, a mean of heights of horizontal polygons of the file. *)
Theorem C106_images : forall m a w w' ms t, ortho_given stod m a -> oa_save a = true -> oa_prune a = false -> wants_images a -> cuts_have_vertices K -> cuts_inside K ->
  holds (w_fs w) listing (oa_path a) (oa_format a) ms t -> (forall x, In x (ms ++ [t]) -> taken_as_is T x) -> ortho (PArgs m) w = (w', Exit 0 None) ->
  let dir := parent_path (oa_path a) in
  exists s l R Rs, scene_of X (body_of_mesh T) prune listing (w_fs w) (oa_path a) (oa_format a) false (oa_terrain a) s /\ orthoproject K b_surface s (oa_terrain a) = Ok l /\
    Forall2 (print_of_mesh K) (ms ++ (if oa_terrain a then [t] else [])) l /\ w_rasters w' = w_rasters w ++ Rs ++ R /\ (oa_sum a = false -> Rs = []) /\
    Forall2 (fun fp i => fst i = path_join (path_join dir (lit "rasters")) (fp_name fp ++ lit ".tiff") /\
      forall x S B H W e M, print_of_mesh K x fp -> block x -> plain_print K fp (oa_pixel a) S B H W e M 0 ->
        shows K fp (oa_pixel a) S B H W M 0 (snd i) /\
        exists band, d_band doubles (snd i) = Some band /\ forall r c, (r < H)%N -> (c < W)%N -> exists zs v d, (forall z, In z zs -> height_in x z) /\ averages zs v /\
          nth_error band (N.to_nat (r * W + c)) = Some d /\ (zs = [] -> represents d 0) /\
          (zs <> [] -> exists q, represents d q /\ (Qabs (q - this v) <= inject_Z (Z.of_nat (List.length zs) + 3) * 2 ^ (-52) * M)%Q))
      l R.
Proof.
  intros m a w w' ms t Ga Sv Pr Wi V CI Ho Tk E dir. destruct (C106_run m a w w' ms t Ga Sv Pr Ho Tk E) as (s & l & V0 & Vs & R & Rs & Sc & O & P & _ & _ & ER & FR & Sm). fold dir in FR. specialize (FR Wi).
  exists s, l, R, Rs. split; [exact Sc|]. split; [exact O|]. split; [exact P|]. clear Sc O. split; [exact ER|]. split; [intros Es; now apply Sm|]. clear -FR V CI.
  induction FR as [|fp i l R (Pi & r & Er & Es) FR IH]; constructor; [|exact IH]. split; [exact Pi|]. intros x S B H W e M (_ & _ & _ & Pa) Bl Pl.
  pose proof (image_shows K _ _ fp _ S B H W e M 0 r _ V CI Pl Er Es) as Sh. split; [exact Sh|]. destruct Sh as (_ & _ & _ & band & Eb & _ & Px). exists band. split; [exact Eb|]. intros i0 j0 Hi Hj. destruct (Px i0 j0 Hi Hj) as (zs & v & d & Gv & Av & Nd & Z & N).
  exists zs, v, d. split; [exact (C106_heights K x B S i0 j0 _ zs Bl Pa Gv)|]. split; [exact Av|]. split; [exact Nd|]. split; [exact Z|]. intros Nz. destruct (N Nz) as (q & Rq & Bq). exists q. split; [exact Rq|]. replace (v + 0)%Qc with v in Bq by ring. exact Bq.
Qed.
(** no stored pixel of a block model shows a height outside the model: it is 0 or lies, up to rounding, between the lowest and
    the highest of the mesh's horizontal polygons *)
Theorem C106_pixels : forall m a w w' ms t, ortho_given stod m a -> oa_save a = true -> oa_prune a = false -> wants_images a -> cuts_have_vertices K -> cuts_inside K ->
  holds (w_fs w) listing (oa_path a) (oa_format a) ms t -> (forall x, In x (ms ++ [t]) -> taken_as_is T x) -> ortho (PArgs m) w = (w', Exit 0 None) ->
  exists l R Rs, Forall2 (print_of_mesh K) (ms ++ (if oa_terrain a then [t] else [])) l /\ w_rasters w' = w_rasters w ++ Rs ++ R /\
    Forall2 (fun fp i => forall x S B H W e M lo hi, print_of_mesh K x fp -> block x -> plain_print K fp (oa_pixel a) S B H W e M 0 -> (forall h, height_in x h -> lo <= h <= hi)%Qc ->
      let E := (inject_Z (Z.of_nat (List.length (br_facets (fp_proj fp))) + 3) * 2 ^ (-52) * M)%Q in
      exists band, d_band doubles (snd i) = Some band /\ nsize band = (H * W)%N /\ forall d, In d band -> exists q, represents d q /\ (q == 0 \/ this lo - E <= q <= this hi + E)%Q) l R.
Proof.
  intros m a w w' ms t Ga Sv Pr Wi V CI Ho Tk Run. destruct (C106_images m a w w' ms t Ga Sv Pr Wi V CI Ho Tk Run) as (s & l & R & Rs & _ & _ & P & ER & _ & FR). exists l, R, Rs. split; [exact P|]. split; [exact ER|]. clear -FR.
  induction FR as [|fp i l R [_ Hi] FR IH]; constructor; [|exact IH]. clear FR IH. intros x S B H W e M lo hi Px Bl Pl Rg E. destruct (Hi x S B H W e M Px Bl Pl) as ((_ & _ & _ & band & Eb & Lb & Sh) & band' & Eb' & Cl). rewrite Eb in Eb'. injection Eb' as <-.
  exists band. split; [exact Eb|]. split; [exact Lb|]. intros d Hd. apply In_nth_error in Hd as [k Hk]. assert (k < List.length band) as Lk by (apply nth_error_Some; congruence). assert (N.of_nat k < H * W)%N as Lk' by (rewrite <- Lb; unfold nsize; lia).
  assert (W <> 0)%N as Wn by nia. destruct (Sh (N.of_nat k / W)%N (N.of_nat k mod W)%N) as (zs & v & d' & G & A & Ek & Z & Nz); [apply N.div_lt_upper_bound; lia|apply N.mod_lt; exact Wn|].
  replace (N.to_nat (N.of_nat k / W * W + N.of_nat k mod W)) with k in Ek by (rewrite N.mul_comm, <- N.div_mod by exact Wn; symmetry; apply Nnat.Nat2N.id). rewrite Hk in Ek. injection Ek as <-.
  destruct zs as [|z zs]; [exists 0%Q; split; [now apply Z|now left]|]. destruct (Nz ltac:(discriminate)) as (q & Rq & Bq). exists q. split; [exact Rq|]. right.
  assert (z :: zs <> []) as Ne by discriminate. destruct Px as (_ & _ & _ & Pa). pose proof (C106_range K x B S _ _ _ _ v lo hi Bl Pa G Ne A Rg) as [L1 L2].
  assert (List.length (z :: zs) <= List.length (br_facets (fp_proj fp))) as Ll by (exact (given_len K B S _ _ _ _ G)).
  assert (0 <= M)%Q as M0. { destruct Pl as (_ & _ & _ & _ & _ & _ & [HM _] & _). apply Qle_trans with (2 := HM). discriminate. }
  assert (inject_Z (Z.of_nat (List.length (z :: zs)) + 3) * 2 ^ (-52) * M <= E)%Q as LE.
  { unfold E. apply Qmult_le_compat_r; auto. apply Qmult_le_compat_r; [|discriminate]. rewrite <- Zle_Qle. lia. }
  replace (v + 0)%Qc with v in Bq by ring. unfold Qcle in L1, L2. clearbody E. clear -Bq LE L1 L2. assert (Qabs (q - this v) <= E)%Q as B by (eapply Qle_trans; [exact Bq|exact LE]). apply Qabs_Qle_condition in B. destruct B. split; Lqa.lra.
Qed.
End RUN.


(** *** The directory of C92_example: orthoproject makes the prints of the Hut and of the terrain *)
Definition print_map : list (str * value) :=
  [(lit "<scene>", VStr (lit "town")); (lit "--input-format", VStr (lit "OFF")); (lit "--prune", VBool false); (lit "--cache", VBool false); (lit "--graphs", VBool false);
   (lit "--terrain", VBool true); (lit "save", VBool true); (lit "--scene", VBool false); (lit "--labels", VBool false); (lit "rasterize", VBool true); (lit "--pixel-size", VStr (lit "1"))].
Definition print_a : ortho_arguments := mkOrtho [lit "town"] (lit "OFF") false false false true true false false (dofZ 1).
Notation town_run := (ortho_main no_ext (body_of_mesh square_tools) b_surface (fun s => Ok s) (fun _ _ => Ok []) listed rects gdal_fine stod_one (PArgs print_map) (mkWorld town_disk [] [])).
Definition town_prints : option (list footprint) :=
  match scene_read no_ext (body_of_mesh square_tools) town_disk town_ls (mkSceneH [lit "town"] [(lit "read", true)] off) with
  | Ok s => match orthoproject rects b_surface s true with Ok l => Some l | _ => None end
  | _ => None
  end.
Definition unit_box (b : box2) : bool := Qceqb (xmin b) (qz 0) && Qceqb (ymin b) (qz 0) && Qceqb (xmax b) (qz 1) && Qceqb (ymax b) (qz 1).
Lemma unit_box_eq b : unit_box b = true -> b = Props_raster.ibox 0 0 1 1.
Proof. unfold unit_box. rewrite !andb_true_iff. intros [[[A B] C] D]. apply Qceqb_eq in A, B, C, D. destruct b. cbn in *. subst. reflexivity. Qed.
Definition flat_facet (f : face2) : bool :=
  match face_box f with Some b => unit_box b | None => false end && Qceqb (pl_a (f_plane f)) (qz 0) && Qceqb (pl_b (f_plane f)) (qz 0) && Qceqb (pl_c (f_plane f)) (qz 1) && Qceqb (pl_d (f_plane f)) (qz 0).
Definition flat_print (fp : footprint) : bool :=
  match br_box (fp_proj fp) with Some b => unit_box b | None => false end && forallb flat_facet (br_facets (fp_proj fp)) && (List.length (br_facets (fp_proj fp)) <=? 2) && match pz (fp_ref fp) with S754_zero false => true | _ => false end.
Lemma flat_plain fp : flat_print fp = true -> plain_print rects fp (dofZ 1) (qz 1) (Props_raster.ibox 0 0 1 1) 1 1 (-1) 2 (qz 0).
Proof.
  unfold flat_print. rewrite !andb_true_iff. intros [[[Hb Hf] Hl] Hz]. destruct (br_box (fp_proj fp)) as [b|] eqn:Eb; [|discriminate]. apply unit_box_eq in Hb. subst b. rewrite forallb_forall in Hf. apply Nat.leb_le in Hl.
  assert (forall f, In f (br_facets (fp_proj fp)) -> face_box f = Some (Props_raster.ibox 0 0 1 1) /\ pl_a (f_plane f) = qz 0 /\ pl_b (f_plane f) = qz 0 /\ pl_c (f_plane f) = qz 1 /\ pl_d (f_plane f) = qz 0) as F.
  { intros f If. specialize (Hf f If). unfold flat_facet in Hf. rewrite !andb_true_iff in Hf. destruct Hf as [[[[A B] C] D] E]. apply Qceqb_eq in B, C, D, E. destruct (face_box f) as [b|]; [|discriminate]. apply unit_box_eq in A. subst b. auto. }
  unfold plain_print. split; [exact Eb|]. split.
  { split; [lia|]. split; [split; [|split; [|split]]; lattice_tac|]. split; [|split; [lattice_tac|split; [reflexivity|exact (Lattice_proofs.dofZ_int 1 ltac:(lia))]]].
    apply Forall_forall. intros f If. right. exists (Props_raster.ibox 0 0 1 1). split; [apply F, If|]. split; [|split; [|split]]; lattice_tac. }
  split; [lia|]. split; [Props_raster.grid_tac|]. split.
  { apply Forall_forall. intros f If. destruct (F f If) as (Fb & _ & _ & Ec & _). right. exists (Props_raster.ibox 0 0 1 1). split; [exact Fb|]. split; [apply Props_raster.box_le_intro; vm_compute; reflexivity|]. left. rewrite Ec. vm_compute. discriminate. }
  split; [lia|]. split; [split; vm_compute; discriminate|]. split.
  { apply Forall_forall. intros f If. destruct (F f If) as (_ & Ea & Eb' & Ec & Ed). right. split; [apply rects_one_piece|]. exists (qz 0). split; [|split; [exists (dofZ 0); exact (Lattice_proofs.dofZ_int 0 ltac:(lia))|vm_compute; discriminate]].
    split; [exact Ea|]. split; [exact Eb'|]. rewrite Ec, Ed. split; [apply Qceqb_eq; vm_compute; reflexivity|]. split; [exists (dofZ 1); exact (Lattice_proofs.dofZ_int 1 ltac:(lia))|]. exists (dofZ 0). exact (Lattice_proofs.dofZ_int 0 ltac:(lia)). }
  split; [destruct (pz (fp_ref fp)) as [[]| | |]; try discriminate; apply Arith_proofs.represents_zero|]. split; [vm_compute; discriminate|]. split; split; reflexivity.
Qed.
Lemma town_flat : match town_prints with Some [fp; ft] => flat_print fp && flat_print ft | _ => false end = true.
Proof. vm_compute. reflexivity. Qed.
Lemma flat_block x : m_points x = flat_points -> m_faces x = flat_faces -> block x.
Proof.
  intros P F pg H. right. exists 0%Qc. intros p Hp. assert (In (Some p) (map Some flat_points)) as I'. { unfold polygons in H. rewrite P, F in H. cbn [map flat_faces nth_error flat_points N.to_nat Pos.to_nat Pos.iter_op Nat.add] in *. destruct H as [<-|[<-|[]]]; cbn in Hp |- *; tauto. }
  apply in_map_iff in I' as (q & Eq & Iq). injection Eq as ->. cbn in Iq. repeat (destruct Iq as [<-|Iq]; [apply Qceqb_eq; vm_compute; reflexivity|]). destruct Iq.
Qed.
Lemma one_pixel {A} (b : list A) d : nsize b = (1 * 1)%N -> nth_error b (N.to_nat (0 * 1 + 0)) = Some d -> b = [d].
Proof. intros L E. destruct b as [|d' [|x b]]; [discriminate E|injection E as ->; reflexivity|exfalso; revert L; unfold nsize; cbn [List.length]; lia]. Qed.
Lemma town_image w' ms t : holds town_disk listed [lit "town"] (lit "OFF") ms t -> (forall y, In y (ms ++ [t]) -> taken_as_is square_tools y /\ block y) -> List.length ms = 1 -> town_run = (w', Exit 0 None) ->
  exists x fp ft i j zs v d, ms = [x] /\ w_rasters w' = [i; j] /\ print_of_mesh rects x fp /\ print_of_mesh rects t ft /\ fst i = path_join [lit "rasters"] (m_name x ++ lit ".tiff") /\
    plain_print rects fp (dofZ 1) (qz 1) (Props_raster.ibox 0 0 1 1) 1 1 (-1) 2 (qz 0) /\ d_band doubles (snd i) = Some [d] /\ (forall z, In z zs -> height_in x z) /\ averages zs v /\ (zs = [] -> represents d 0) /\ (zs <> [] -> exists q, represents d q /\ (Qabs (q - this v) <= inject_Z (Z.of_nat (List.length zs) + 3) * 2 ^ (-52) * 2)%Q).
Proof.
  intros Ho Al Ln Run. assert (ortho_given stod_one print_map print_a) as Ga by (apply C74_arguments; vm_compute; reflexivity).
  destruct (C106_images square_tools no_ext (fun s => Ok s) (fun _ _ => Ok []) listed rects gdal_fine stod_one print_map print_a (mkWorld town_disk [] []) w' ms t Ga eq_refl eq_refl) as (s & l & R & Rs & Sc & O & P & ER & Sm & FR); auto.
  - reflexivity.
  - exact rects_vertices.
  - exact rects_inside.
  - intros x Hx. now apply Al.
  - change (oa_terrain print_a) with true in *. cbv iota in *. rewrite (Sm eq_refl) in ER. clear Sm Run. cbn [w_rasters app] in ER.
    assert (town_prints = Some l) as Hp.
    { destruct Sc as (h & d & s0 & A1 & D1 & A2 & A3). apply resolves_location in D1. subst d. cbv iota in A3. subst s0. assert (h = mkSceneH [lit "town"] [(lit "read", true)] off) as ->. { clear -A1. rewrite (proj1 (named_ok _ _)) in A1. apply Ok_inj in A1. now subst h. }
      unfold town_prints. cbn [sh_fmt w_fs] in A2. change (location (oa_path print_a)) with [lit "town"] in A2. change (listed town_disk [lit "town"]) with town_ls in A2. rewrite A2, O. reflexivity. }
    pose proof town_flat as Hc. rewrite Hp in Hc. destruct l as [|fp [|ft [|]]]; try discriminate Hc. apply andb_true_iff in Hc as [Pl _]. apply flat_plain in Pl.
    destruct ms as [|x [|]]; try discriminate Ln. cbn [app] in P. revert ER. inversion P as [|? ? ? ? Px P']; subst. inversion P' as [|? ? ? ? Pt _]; subst.
    inversion FR as [|? i ? R' [Pi Hi] FR']; subst. inversion FR' as [|? j ? R'' _ FR'']; subst. inversion FR''; subst. intros ER.
    destruct (Hi x _ _ _ _ _ _ Px (proj2 (Al x (or_introl eq_refl))) Pl) as (Sh & band & Eb & Cl). destruct (Cl 0%N 0%N eq_refl eq_refl) as (zs & v & d & Hz & Av & Ed & Cv). destruct Sh as (_ & _ & _ & band' & Eb' & Lb & _). rewrite Eb in Eb'. injection Eb' as <-.
    exists x, fp, ft, i, j, zs, v, d. destruct Px as (Nx & Px). rewrite Nx in Pi. split; [reflexivity|]. split; [exact ER|]. split; [split; [exact Nx|exact Px]|]. split; [exact Pt|]. split; [exact Pi|]. split; [exact Pl|].
    split; [|split; [exact Hz|split; [exact Av|exact Cv]]]. rewrite Eb. f_equal. clear -Ed Lb. exact (one_pixel band d Lb Ed).
Qed.
Example C106_example : exists x t w' fp ft i j zs v d, holds town_disk listed [lit "town"] (lit "OFF") [x] t /\ (forall y, In y [x; t] -> taken_as_is square_tools y /\ block y) /\ town_run = (w', Exit 0 None) /\
  w_rasters w' = [i; j] /\ print_of_mesh rects x fp /\ print_of_mesh rects t ft /\ fst i = [lit "rasters"; lit "Hut.tiff"] /\
  plain_print rects fp (dofZ 1) (qz 1) (Props_raster.ibox 0 0 1 1) 1 1 (-1) 2 (qz 0) /\ d_band doubles (snd i) = Some [d] /\ (forall z, In z zs -> height_in x z) /\ averages zs v /\ (zs = [] -> represents d 0) /\ (zs <> [] -> exists q, represents d q /\ (Qabs (q - this v) <= inject_Z (Z.of_nat (List.length zs) + 3) * 2 ^ (-52) * 2)%Q).
Proof.
  destruct C91_example as (ms & t & I' & B & O & St & Nm & Tk & _).
  assert (forall p a x, town_disk p = Some (File flat_text) -> stored_as town_disk p a x -> m_points x = flat_points /\ m_faces x = flat_faces) as Fl.
  { intros p a x Ep (c & r & Ec & Er & _ & Px & Fx & _). destruct flat_read as (r' & R & P & F). rewrite Ep in Ec. injection Ec as <-. rewrite R in Er. apply Ok_inj in Er. subst r'. split; congruence. }
  destruct ms as [|x [|y ms]]; [inversion B| |inversion B as [|? ? ? ? _ B']; inversion B']. assert (m_name x = lit "Hut") as Nx by (cbn [map] in Nm; congruence).
  assert (stored_as town_disk [lit "town"; lit "Hut.OFF"] (lit "Hut") x) as Sx.
  { inversion B as [|? ? ? ? (a & _ & _ & S) _]; subst. destruct S as (c & r & Q1 & Q2 & Q3 & Q4). assert (a = lit "Hut") as -> by (rewrite <- Q3; exact Nx). exists c, r. repeat split; auto; apply Q4. }
  destruct (Fl [lit "town"; lit "Hut.OFF"] _ x eq_refl Sx) as [Px Fx]. destruct (Fl ([lit "town"] ++ [lit "terrain.off"]) _ t eq_refl St) as [Pt Ft].
  assert (holds town_disk listed [lit "town"] (lit "OFF") [x] t) as Ho.
  { left. split; [reflexivity|]. exists [lit "town"], [lit "Hut.OFF"], [lit "notes.txt"; lit "terrain.off"]. split; [apply resolves_location; reflexivity|]. split; [intros k [<-|[]]; now apply no_nul_check|]. split; [reflexivity|]. split; [|tauto].
    intros n H. change (In n town_ls) in H. destruct H as [<-|[<-|[<-|[]]]]; now apply no_nul_check. }
  assert (forall y, In y [x; t] -> taken_as_is square_tools y /\ block y) as Al by (intros y [<-|[<-|[]]]; (split; [now apply flat_taken|now apply flat_block])).
  assert (snd town_run = Exit 0 None) as E by (vm_compute; reflexivity). pose proof town_image as Hi. destruct town_run as [w' r]. cbn [snd] in E. subst r.
  destruct (Hi w' [x] t Ho Al eq_refl eq_refl) as (x' & fp & ft & i & j & zs & v & d & Ex & ER & P1 & P2 & Pi & Pl & Hb & Hz & Av). injection Ex as <-. rewrite Nx in Pi.
  exists x, t, w', fp, ft, i, j, zs, v, d. split; [exact Ho|]. split; [exact Al|]. split; [reflexivity|]. split; [exact ER|]. split; [exact P1|]. split; [exact P2|]. split; [exact Pi|]. split; [exact Pl|]. split; [exact Hb|]. split; [exact Hz|exact Av].
Qed.
(** a mesh of a wall and of a roof two units up is a block, and 2 is one of its heights *)
Definition box_mesh : mesh := mesh_make (lit "box") [mkPoint (dofZ 0) (dofZ 0) (dofZ 0); mkPoint (dofZ 1) (dofZ 0) (dofZ 0); mkPoint (dofZ 1) (dofZ 0) (dofZ 2); mkPoint (dofZ 0) (dofZ 0) (dofZ 2); mkPoint (dofZ 0) (dofZ 1) (dofZ 2)] [[0; 1; 2; 3]; [3; 2; 4]]%N.
Definition box_roof : list (option point) := [Some (mkPoint (dofZ 0) (dofZ 0) (dofZ 2)); Some (mkPoint (dofZ 1) (dofZ 0) (dofZ 2)); Some (mkPoint (dofZ 0) (dofZ 1) (dofZ 2))].
Lemma box_roof_level : level box_roof (qz 2).
Proof. intros p H. cbn in H. repeat (destruct H as [H|H]; [injection H as <-; apply Qceqb_eq; vm_compute; reflexivity|]). destruct H. Qed.
Example block_example : block box_mesh /\ height_in box_mesh (qz 2) /\ ~ height_in box_mesh (qz 1).
Proof.
  assert (forall pg, In pg (polygons box_mesh) <-> pg = [Some (mkPoint (dofZ 0) (dofZ 0) (dofZ 0)); Some (mkPoint (dofZ 1) (dofZ 0) (dofZ 0)); Some (mkPoint (dofZ 1) (dofZ 0) (dofZ 2)); Some (mkPoint (dofZ 0) (dofZ 0) (dofZ 2))] \/ pg = box_roof) as Po.
  { intros pg. change (polygons box_mesh) with [[Some (mkPoint (dofZ 0) (dofZ 0) (dofZ 0)); Some (mkPoint (dofZ 1) (dofZ 0) (dofZ 0)); Some (mkPoint (dofZ 1) (dofZ 0) (dofZ 2)); Some (mkPoint (dofZ 0) (dofZ 0) (dofZ 2))]; box_roof]. cbn [In]. split; [intros [E|[E|[]]]; auto|intros [E|E]; auto]. }
  split; [|split].
  - intros pg H. apply Po in H as [->| ->]; [|right; exists (qz 2); exact box_roof_level]. left. exists 0%Qc, 1%Qc, 0%Qc. split; [intros [_ H]; discriminate H|]. intros p H. cbn in H. repeat (destruct H as [H|H]; [injection H as <-; apply Qceqb_eq; vm_compute; reflexivity|]). destruct H.
  - exists box_roof. split; [apply Po; now right|exact box_roof_level].
  - intros (pg & H & L). apply Po in H as [->| ->].
    + specialize (L _ (or_introl eq_refl)). apply Qceqb_eq in L. vm_compute in L. discriminate.
    + specialize (L _ (or_introl eq_refl)). apply Qceqb_eq in L. vm_compute in L. discriminate.
Qed.
