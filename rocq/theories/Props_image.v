(** * Property C105: the images orthoproject stores. *)
From Coq Require Import String.
From Verif Require Import Base Dbl Geom Decimal Shadow Streams Handlers Spec_io Surface Projection Raster Spec_projection Spec_raster Raster_proofs Rect Spec_text Spec_num Spec_arith Arith_proofs Rn_proofs Rootsq_proofs Lattice_proofs Mean_proofs Props_grid Props_grid2 Ogr Cli Spec_cli Props_cli Spec_image.
From Coq Require Import QArith Qabs Qcanon Qround Lqa Lia.
From Verif Require Round_proofs Props_height Props_raster Props_projection.
Import List.
Close Scope string_scope.
Open Scope nat_scope.

Lemma stored_fields geog acc (r : raster doubles) d : sized r -> (0 < r_height doubles r < 2 ^ 31)%N -> (0 < r_width doubles r < 2 ^ 31)%N -> raster_store doubles geog acc r = Ok d ->
  d_xsize doubles d = Z.of_N (r_width doubles r) /\ d_ysize doubles d = Z.of_N (r_height doubles r) /\
  d_geo doubles d = Some (fst (fst (r_ref doubles r)), r_px doubles r, dzero, snd (fst (r_ref doubles r)), dzero, dopp (r_px doubles r)) /\ d_band doubles d = Some (r_image doubles r).
Proof.
  intros (Z1 & Z2 & Z3) Hh Hw E. change (2 ^ 31)%N with 2147483648%N in *.
  assert (Th : to_int (r_height doubles r) = Z.of_N (r_height doubles r)) by (unfold to_int; rewrite Z.mod_small; lia).
  assert (Tw : to_int (r_width doubles r) = Z.of_N (r_width doubles r)) by (unfold to_int; rewrite Z.mod_small; lia).
  assert (En : Z.to_nat (Z.of_N (r_width doubles r) * Z.of_N (r_height doubles r)) = length (r_image doubles r)) by (unfold nsize in Z1; lia).
  unfold raster_store, gdal_create in E. rewrite Th, Tw in E. replace ((0 <? Z.of_N (r_width doubles r)) && (0 <? Z.of_N (r_height doubles r)))%Z with true in E by lia.
  unfold to_gdal in E. rewrite Th, Tw, En, Nat.ltb_irrefl, firstn_all in E. cbn [d_xsize d_ysize] in E. destruct acc; [|discriminate]. apply Ok_inj in E. subst d. repeat split.
Qed.
Lemma lattice_sum e r q : (-1074 <= e <= 971)%Z -> on_lattice e q -> closest_sum r q (dadd r (dq q)).
Proof.
  intros He (n & L & E) R I'. rewrite lattice_lat in E. apply (dadd_closest r (dq q)); auto; [now apply represents_dval|]. apply (represents_ext _ _ _ (Qeq_sym _ _ E)). apply (lat_dq e He q n E). lia.
Qed.
Lemma image_shows K geog acc fp s S B H W e M zr r ds : cuts_have_vertices K -> cuts_inside K -> plain_print K fp s S B H W e M zr ->
  raster_of doubles K fp s = Ok r -> raster_store doubles geog acc r = Ok ds -> shows K fp s S B H W M zr ds.
Proof.
  intros V CI (EB & LS & He & G & D & L & HM & FL & Rr & Br & Hh & Hw) Er Es.
  destruct (C101_counters K fp s S B H W e EB LS G V D L) as (r1 & E1 & Sz & N1 & N2 & N3 & _ & _ & Rf & _). rewrite Er in E1. apply Ok_inj in E1. subst r1.
  destruct (C101_means K fp s S B H W e M zr EB LS He G V CI D L HM FL Rr Br) as (r2 & E2 & _ & _ & Sp). rewrite Er in E2. apply Ok_inj in E2. subst r2.
  rewrite <- N1 in Hh. rewrite <- N2 in Hw. destruct (stored_fields geog acc r ds Sz Hh Hw Es) as (F1 & F2 & F3 & F4). rewrite N1 in *. rewrite N2 in *. split; [exact F1|]. split; [exact F2|]. split.
  - rewrite Rf, N3 in F3. cbn [fst snd] in F3. destruct LS as (He' & (Lx & _ & _ & Ly) & _). eexists _, _. split; [exact F3|]. split; eapply lattice_sum; eauto.
  - exists (r_image doubles r). split; [exact F4|]. destruct Sz as (S1 & _). rewrite N1, N2 in S1. split; [exact S1|]. intros i j Hi Hj. destruct (Sp i j Hi Hj) as (zs & v & d & Gv & Av & _ & Im & A1 & A2). exists zs, v, d. auto.
Qed.

Section IMAGES.
Context {S : Type} (X : externals) (build : mesh -> outcome S) (surf : S -> surface)
  (prune : S -> outcome S) (line : surface -> nat -> outcome str) (listing : fs -> path -> list str) (K : kernel) (G : gdal) (stod : str -> outcome dbl).
(** A finished run with 'save' and a pixel size has added one image for each print, in order, under rasters/ and the print's
    name, and before these, with --scene, one for the sum of the prints; every image shows its print. *)
Theorem C105_images : forall m a w w', ortho_given stod m a -> oa_save a = true -> wants_images a -> cuts_have_vertices K -> cuts_inside K ->
  ortho_main X build surf prune line listing K G stod (PArgs m) w = (w', Exit 0 None) ->
  let dir := parent_path (oa_path a) in
  exists s l R Rs, scene_of X build prune listing (w_fs w) (oa_path a) (oa_format a) (oa_prune a) (oa_terrain a) s /\ orthoproject K surf s (oa_terrain a) = Ok l /\
    w_rasters w' = w_rasters w ++ Rs ++ R /\
    Forall2 (fun fp i => fst i = path_join (path_join dir (lit "rasters")) (fp_name fp ++ lit ".tiff") /\
      forall T B H W e M zr, plain_print K fp (oa_pixel a) T B H W e M zr -> shows K fp (oa_pixel a) T B H W M zr (snd i)) l R /\
    (if oa_sum a then exists sum i, foot_sum K l = Ok sum /\ Rs = [i] /\ fst i = path_join dir (stem (oa_path a) ++ lit ".tiff") /\
        forall T B H W e M zr, plain_print K sum (oa_pixel a) T B H W e M zr -> shows K sum (oa_pixel a) T B H W M zr (snd i)
     else Rs = []).
Proof.
  intros m a w w' Ga Sv Wi V CI E dir. destruct (C74_complete X build surf prune line listing K G stod m a w w' Ga Sv E) as (s & l & Ve & Vs & R & Rs & Sc & O & _ & ER & _ & Sm & FR).
  exists s, l, R, Rs. split; [exact Sc|]. split; [exact O|]. split; [exact ER|]. split.
  - destruct FR as [[_ FR]|[N _]]; [|contradiction]. clear -FR V CI. induction FR as [|fp i l R (P & r & Er & Es) FR IH]; constructor; auto. split; [exact P|]. intros T B H W e M zr Pl. exact (image_shows K _ _ fp _ T B H W e M zr r _ V CI Pl Er Es).
  - destruct (oa_sum a).
    + destruct Sm as (sum & ee & Fs & _ & _ & [(_ & i & Ri & (P & r & Er & Es))|[N _]]); [|contradiction]. exists sum, i. split; auto. split; auto. split; auto. intros T B H W e M zr Pl. exact (image_shows K _ _ sum _ T B H W e M zr r _ V CI Pl Er Es).
    + apply Sm.
Qed.
End IMAGES.

(** *** The run of C74_example: the image of the hut is that of a square of side 4 at height 1 *)
Definition same_box (b : box2) : bool := Qceqb (xmin b) (qz 0) && Qceqb (ymin b) (qz 0) && Qceqb (xmax b) (qz 4) && Qceqb (ymax b) (qz 4).
Lemma same_box_eq b : same_box b = true -> b = Props_raster.ibox 0 0 4 4.
Proof. unfold same_box. rewrite !andb_true_iff. intros [[[A B] C] D]. apply Qceqb_eq in A, B, C, D. destruct b. cbn in *. subst. reflexivity. Qed.
Definition plate_facet (f : face2) : bool :=
  match face_box f with Some b => same_box b | None => false end && Qceqb (pl_a (f_plane f)) (qz 0) && Qceqb (pl_b (f_plane f)) (qz 0) && Qceqb (pl_c (f_plane f)) (qz 16) && Qceqb (pl_d (f_plane f)) (qz (-16)).
Definition plate_print (fp : footprint) : bool :=
  match br_box (fp_proj fp) with Some b => same_box b | None => false end && forallb plate_facet (br_facets (fp_proj fp)) && (List.length (br_facets (fp_proj fp)) <=? 1) && match pz (fp_ref fp) with S754_zero false => true | _ => false end.
Lemma plate_plain fp : plate_print fp = true -> plain_print rects fp (dofZ 1) (qz 1) (Props_raster.ibox 0 0 4 4) 4 4 (-1) 2 (qz 0).
Proof.
  unfold plate_print. rewrite !andb_true_iff. intros [[[Hb Hf] Hl] Hz]. destruct (br_box (fp_proj fp)) as [b|] eqn:Eb; [|discriminate]. apply same_box_eq in Hb. subst b. rewrite forallb_forall in Hf. apply Nat.leb_le in Hl.
  assert (forall f, In f (br_facets (fp_proj fp)) -> face_box f = Some (Props_raster.ibox 0 0 4 4) /\ pl_a (f_plane f) = qz 0 /\ pl_b (f_plane f) = qz 0 /\ pl_c (f_plane f) = qz 16 /\ pl_d (f_plane f) = qz (-16)) as F.
  { intros f If. specialize (Hf f If). unfold plate_facet in Hf. rewrite !andb_true_iff in Hf. destruct Hf as [[[[A B] C] D] E]. apply Qceqb_eq in B, C, D, E. destruct (face_box f) as [b|]; [|discriminate]. apply same_box_eq in A. subst b. auto. }
  unfold plain_print. split; [exact Eb|]. split.
  { split; [lia|]. split; [split; [|split; [|split]]; lattice_tac|]. split; [|split; [lattice_tac|split; [reflexivity|exact (dofZ_int 1 ltac:(lia))]]].
    apply Forall_forall. intros f If. right. exists (Props_raster.ibox 0 0 4 4). split; [apply F, If|]. split; [|split; [|split]]; lattice_tac. }
  split; [lia|]. split; [Props_raster.grid_tac|]. split.
  { apply Forall_forall. intros f If. destruct (F f If) as (Fb & _ & _ & Ec & _). right. exists (Props_raster.ibox 0 0 4 4). split; [exact Fb|]. split; [apply Props_raster.box_le_intro; vm_compute; reflexivity|]. left. rewrite Ec. vm_compute. discriminate. }
  split; [lia|]. split; [split; vm_compute; discriminate|]. split.
  { apply Forall_forall. intros f If. destruct (F f If) as (_ & Ea & Eb' & Ec & Ed). right. split; [apply rects_one_piece|]. exists (qz 1). split; [|split; [exists (dofZ 1); exact (dofZ_int 1 ltac:(lia))|vm_compute; discriminate]].
    split; [exact Ea|]. split; [exact Eb'|]. rewrite Ec, Ed. split; [apply Qceqb_eq; vm_compute; reflexivity|]. split; [exists (dofZ 16); exact (dofZ_int 16 ltac:(lia))|]. exists (dofZ (-16)). split; [reflexivity|]. eexists. split; reflexivity. }
  split; [destruct (pz (fp_ref fp)) as [[]| | |]; try discriminate; apply represents_zero|]. split; [vm_compute; discriminate|]. split; split; reflexivity.
Qed.
Definition hut_prints : option (list footprint) :=
  match scene_read no_ext (fun _ => Ok plate) (w_fs start) [] (mkSceneH [lit "d"; lit "city.obj"] [(lit "read", true)] obj) with
  | Ok s0 => match scene_prune (unode_prune (fun s => Ok s)) s0 false with
             | Ok s => match orthoproject rects (fun s => s) s false with Ok l => Some l | _ => None end
             | _ => None
             end
  | _ => None
  end.
Lemma hut_plate : match hut_prints with Some [fp] => plate_print fp && str_eqb (fp_name fp) (lit "hut") | _ => false end = true.
Proof. vm_compute. reflexivity. Qed.
Notation hut_run := (ortho_main no_ext (fun _ => Ok plate) (fun s => s) (fun s => Ok s) (fun _ _ => Ok (lit "facet" ++ nl)) (fun _ _ => []) rects gdal_fine stod_one (PArgs ortho_map) start).
Lemma hut_image w' : hut_run = (w', Exit 0 None) -> exists s fp i j, w_rasters w' = [j; i] /\ orthoproject rects (fun s => s) s false = Ok [fp] /\ fst i = [lit "d"; lit "rasters"; lit "hut.tiff"] /\
  plain_print rects fp (dofZ 1) (qz 1) (Props_raster.ibox 0 0 4 4) 4 4 (-1) 2 (qz 0) /\ shows rects fp (dofZ 1) (qz 1) (Props_raster.ibox 0 0 4 4) 4 4 2 (qz 0) (snd i).
Proof.
  intros Eo. assert (ortho_given stod_one ortho_map ortho_a) as Ga by (apply C74_arguments; vm_compute; reflexivity).
  destruct (C105_images no_ext (fun _ => Ok plate) (fun s => s) (fun s => Ok s) (fun _ _ => Ok (lit "facet" ++ nl)) (fun _ _ => []) rects gdal_fine stod_one ortho_map ortho_a start w' Ga eq_refl eq_refl rects_vertices rects_inside Eo) as (s & l & R & Rs & Sc & O & ER & FR & Sm). clear Eo.
  change (oa_sum ortho_a) with true in Sm. cbv iota in Sm. destruct Sm as (sum & j & _ & -> & _).
  assert (hut_prints = Some l) as Hp.
  { destruct Sc as (h & d & s0 & A1 & D1 & A2 & A3). apply resolves_location in D1. subst d. change (oa_prune ortho_a) with true in A3. cbv iota in A3.
    assert (sh_fmt h = obj) as Fm. { clear -A1. vm_compute in A1. apply Ok_inj in A1. subst h. reflexivity. } rewrite Fm in A2. unfold hut_prints.
    change (location (oa_path ortho_a)) with [lit "d"; lit "city.obj"] in A2. change (oa_terrain ortho_a) with false in A3, O. rewrite A2, A3, O. reflexivity. }
  pose proof hut_plate as Hc. rewrite Hp in Hc. destruct l as [|fp [|]]; try discriminate Hc. apply andb_true_iff in Hc as [Pl Nm]. assert (fp_name fp = lit "hut") as Nm' by (apply str_eqb_eq; exact Nm). apply plate_plain in Pl.
  inversion FR as [|? i ? R' [P Sh] FR']; subst. inversion FR'; subst. exists s, fp, i, j. split; [rewrite ER; reflexivity|]. split; [exact O|]. split; [rewrite P, Nm'; reflexivity|]. split; [exact Pl|]. exact (Sh _ _ _ _ _ _ _ Pl).
Qed.
Example C105_example : exists w' s fp i j, hut_run = (w', Exit 0 None) /\ w_rasters w' = [j; i] /\ orthoproject rects (fun s => s) s false = Ok [fp] /\ fst i = [lit "d"; lit "rasters"; lit "hut.tiff"] /\
  plain_print rects fp (dofZ 1) (qz 1) (Props_raster.ibox 0 0 4 4) 4 4 (-1) 2 (qz 0) /\ shows rects fp (dofZ 1) (qz 1) (Props_raster.ibox 0 0 4 4) 4 4 2 (qz 0) (snd i).
Proof.
  assert (snd hut_run = Exit 0 None) as E by (vm_compute; reflexivity). pose proof hut_image as Hi. destruct hut_run as [w' r]. cbn [snd] in E. subst r.
  destruct (Hi w' eq_refl) as (s & fp & i & j & H). exists w', s, fp, i, j. split; [reflexivity|exact H].
Qed.
