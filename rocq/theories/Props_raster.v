(** * Theorems on rasters: C59 - C66. *)
From Coq Require Strings.String.
Import Coq.Strings.String.StringSyntax.
Delimit Scope string_scope with string.
From Verif Require Import Base Dbl Geom Decimal Shadow Streams Handlers Surface Projection Spec_projection Strip Raster Spec_raster Raster_proofs Rect.
Open Scope nat_scope.

(** ** C59 *)
(** Every drawable footprint is rasterised, into as many rows and columns as its box needs,
    and no facet contributes to a pixel outside of them. *)
Theorem C59_raster_in_bounds K fp s B H W : br_box (fp_proj fp) = Some B -> (0 < s)%Qc -> grid B s H W -> cuts_have_vertices K ->
  Forall (drawable K B) (br_facets (fp_proj fp)) -> (Z.of_nat (length (br_facets (fp_proj fp))) < 32768)%Z ->
  (exists r, raster_of exact K fp s = Ok r /\ r_height exact r = H /\ r_width exact r = W /\ sized r) /\
  (forall f i j z, In f (br_facets (fp_proj fp)) -> gives K B s f i j z -> (i < H /\ j < W)%N).
Proof.
  intros EB Hs G V D L. split.
  - destruct (raster_of_exact K fp s B H W EB Hs G V D L) as (r & E & Z & _ & _ & _ & N1 & N2 & _). eauto.
  - intros f i j z Hf. rewrite Forall_forall in D. apply gives_in; auto.
Qed.
(** A footprint without facets (its box is empty) cannot be rasterised. *)
Theorem C59_empty_undefined A K fp s : br_box (fp_proj fp) = None -> raster_of A K fp s = UB.
Proof. intros E. unfold raster_of. rewrite E. reflexivity. Qed.
(** *** The hypotheses can be met *)
Definition flat_face (b : box2) (z : Qc) : face2 := mkFace2 0 (rect b) (mkPlane 0 0 1 (- z))%Qc.
Definition foot (l : list face2) (ref : point) : footprint := mkFoot ["n"%char] ref 2154 (mkBrick (boxes l) l).
Definition ibox (a b c d : Z) : box2 := mkBox2 (qz a) (qz b) (qz c) (qz d).
Definition at_origin : point := mkPoint dzero dzero dzero.
Lemma cells_intro d s n : (0 < s)%Qc -> Qcleb d (qn n * s) = true -> (n = 0 \/ Qcltb (qn (n - 1) * s) d = true)%N -> cells d s n.
Proof.
  intros Hs H1 H2. apply Qcleb_le in H1. split; auto. intros m Hm. destruct H2 as [->|H2]; [lia|]. apply Qcltb_lt in H2.
  enough (n - 1 < m)%N by lia. apply qn_lt. apply (Qclt_scale s); auto. eapply Qclt_le_trans; eauto.
Qed.
Lemma box_le_intro a b : Qcleb (xmin b) (xmin a) && Qcleb (ymin b) (ymin a) && Qcleb (xmax a) (xmax b) && Qcleb (ymax a) (ymax b) = true -> box_le (Some a) (Some b).
Proof.
  rewrite !andb_true_iff, !Qcleb_le. intros [[[A1 A2] A3] A4] p. cbn [in_box]. intros (B1 & B2 & B3 & B4). repeat split; eapply Qcle_trans; eauto.
Qed.
(** two facets of which the second is not aligned with the grid *)
Definition two_faces : list face2 := [flat_face (ibox 0 0 4 4) (qz 5); flat_face (mkBox2 (Q2Qc (3 # 2)) (qz 1) (qz 4) (qz 3)) (qz 9)].
Ltac grid_tac := unfold grid; split; [apply cells_intro; [vm_compute; reflexivity|vm_compute; reflexivity|right; vm_compute; reflexivity]|split; [apply cells_intro; [vm_compute; reflexivity|vm_compute; reflexivity|right; vm_compute; reflexivity]|split; [split; [reflexivity|split; [reflexivity|vm_compute; discriminate]]|split; vm_compute; discriminate]]].
Ltac drawable_tac := right; eexists; split; [vm_compute; reflexivity|split; [apply box_le_intro; vm_compute; reflexivity|left; vm_compute; discriminate]].
Example C59_example : exists B, br_box (fp_proj (foot two_faces at_origin)) = Some B /\ (0 < qz 1)%Qc /\ grid B (qz 1) 4 4 /\ cuts_have_vertices rects /\
  Forall (drawable rects B) two_faces /\ exists r, raster_of exact rects (foot two_faces at_origin) (qz 1) = Ok r.
Proof.
  exists (ibox 0 0 4 4). assert (E : br_box (fp_proj (foot two_faces at_origin)) = Some (ibox 0 0 4 4)) by reflexivity.
  assert (G : grid (ibox 0 0 4 4) (qz 1) 4 4) by grid_tac.
  assert (D : Forall (drawable rects (ibox 0 0 4 4)) two_faces). { constructor; [drawable_tac|constructor; [drawable_tac|constructor]]. }
  split; auto. split; [reflexivity|]. split; auto. split; [exact rects_vertices|]. split; auto.
  destruct (C59_raster_in_bounds rects (foot two_faces at_origin) (qz 1) _ 4 4 E eq_refl G rects_vertices D eq_refl) as [(r & R & _) _]. eauto.
Qed.
(** *** With doubles the conclusion fails: in a print 0.9 wide and 0.3 high, with pixels of
    0.3, the facet from 0.6 to 0.9 is given a column too many, and drawing it throws *)
Lemma throws_out {X} (o : outcome X) : match o with Throw OutOfRange => true | _ => false end = true -> o = Throw OutOfRange.
Proof. destruct o as [|[]|]; congruence. Qed.
Definition dec (a b : Z) : dbl := rn64 false a b.
Definition tenths (n : Z) : Qc := qd (dec n 10).
Definition narrow : list face2 := [flat_face (mkBox2 0 0 (tenths 3) (tenths 3))%Qc (qz 5); flat_face (mkBox2 (tenths 6) 0 (tenths 9) (tenths 3))%Qc (qz 5)].
Theorem C59_double_refuted : exists B, br_box (fp_proj (foot narrow at_origin)) = Some B /\ grid B (n_toq doubles (dec 3 10)) 1 4 /\ cuts_have_vertices rects /\
  Forall (drawable rects B) narrow /\ Forall (fun f => good_rect (f_border f)) narrow /\
  (exists r, raster_of exact rects (foot narrow at_origin) (tenths 3) = Ok r) /\
  raster_of doubles rects (foot narrow at_origin) (dec 3 10) = Throw OutOfRange.
Proof.
  exists (mkBox2 0 0 (tenths 9) (tenths 3))%Qc.
  assert (E : br_box (fp_proj (foot narrow at_origin)) = Some (mkBox2 0 0 (tenths 9) (tenths 3))%Qc) by (vm_compute; reflexivity).
  assert (G : grid (mkBox2 0 0 (tenths 9) (tenths 3))%Qc (tenths 3) 1 4) by grid_tac.
  assert (D : Forall (drawable rects (mkBox2 0 0 (tenths 9) (tenths 3))%Qc) narrow). { constructor; [drawable_tac|constructor; [drawable_tac|constructor]]. }
  split; auto. split; [exact G|]. split; [exact rects_vertices|]. split; auto. split.
  { repeat constructor; eexists; (split; [apply rect_box|]); split; vm_compute; reflexivity. }
  split; [|apply throws_out; vm_compute; reflexivity].
  assert (P : (0 < tenths 3)%Qc) by (vm_compute; reflexivity).
  destruct (C59_raster_in_bounds rects (foot narrow at_origin) (tenths 3) _ 1 4 E P G rects_vertices D eq_refl) as [(r & R & _) _]. eauto.
Qed.

(** ** C60 *)
(** Drawing facets one after the other into a zero image. *)
Theorem C60_mean_of_heights K B s H W l n : (0 < s)%Qc -> grid B s H W -> cuts_have_vertices K -> Forall (drawable K B) l -> (Z.of_nat (length l) < 32768)%Z -> N.of_nat n = (H * W)%N ->
  exists img hits, ofold (fun img f => rasterize exact K img (xmin B) (ymax B) H W s f) l (repeat 0%Qc n, repeat 0%Z n) = Ok (img, hits) /\ length img = n /\ length hits = n /\
    forall i j, (i < H)%N -> (j < W)%N -> exists zs v, given K B s i j l zs /\ averages zs v /\
      nth_error img (N.to_nat (i * W + j)) = Some v /\ nth_error hits (N.to_nat (i * W + j)) = Some (Z.of_nat (length zs)).
Proof.
  intros Hs G V D L En. destruct (facets_exact K B s H W l Hs G V D L n En) as (img & hits & E & L1 & L2 & S). exists img, hits.
  unfold nsize in *. split; auto. split; [lia|]. split; [lia|]. auto.
Qed.
(** The raster of a footprint: the same, raised by the reference height. *)
Theorem C60_raster K fp s B H W : br_box (fp_proj fp) = Some B -> (0 < s)%Qc -> grid B s H W -> cuts_have_vertices K ->
  Forall (drawable K B) (br_facets (fp_proj fp)) -> (Z.of_nat (length (br_facets (fp_proj fp))) < 32768)%Z ->
  exists r : raster exact, raster_of exact K fp s = Ok r /\ r_height exact r = H /\ r_width exact r = W /\ r_px exact r = s /\ r_name exact r = fp_name fp /\ r_epsg exact r = fp_epsg fp /\
    r_ref exact r = (qd (px (fp_ref fp)) + xmin B, qd (py (fp_ref fp)) + ymax B, qd (pz (fp_ref fp)))%Qc /\
    forall i j, (i < H)%N -> (j < W)%N -> exists zs v, given K B s i j (br_facets (fp_proj fp)) zs /\ averages zs v /\
      pixel_is r i j (match zs with [] => 0%Qc | _ => (v + qd (pz (fp_ref fp)))%Qc end) (Z.of_nat (length zs)).
Proof.
  intros EB Hs G V D L. destruct (raster_of_exact K fp s B H W EB Hs G V D L) as (r & E & Z & O & N1 & N2 & N3 & N4 & N5 & N6 & S).
  exists r. repeat (split; [auto; fail|]). exact S.
Qed.
(** what each facet gives is determined *)
Theorem C60_contributions_unique K B s i j l zs zs' : (0 < s)%Qc -> given K B s i j l zs -> given K B s i j l zs' -> zs = zs'.
Proof. apply given_fun. Qed.
(** the counters are 16 bits wide: the 32768th facet over a pixel turns the mean negative *)
Theorem C60_many_facets_refuted : rasterize exact rects ([qz 1], [32767%Z]) 0%Qc (qz 1) 1 1 (qz 1) (flat_face (ibox 0 0 1 1) (qz 1)) = Ok ([qz (-1)], [(-32768)%Z]).
Proof.
  set (o := rasterize _ _ _ _ _ _ _ _ _).
  assert (E : match o with Ok (l, h) => list_eqb Qceqb l [qz (-1)] && list_eqb Z.eqb h [(-32768)%Z] | _ => false end = true) by (vm_compute; reflexivity).
  destruct o as [[l h]| |]; try discriminate E. apply andb_true_iff in E as [E1 E2]. apply (list_eqb_spec Qceqb Qceqb_eq) in E1. apply (list_eqb_spec Z.eqb Z.eqb_eq) in E2. subst l h. reflexivity.
Qed.
(** a facet at 5 over the square [0,4]x[0,4], one at 9 over [3/2,4]x[1,3], reference height 2 *)
Example C60_example : exists r, raster_of exact rects (foot two_faces (mkPoint (dofZ 100) (dofZ 200) (dofZ 2))) (qz 1) = Ok r /\
  r_ref exact r = (qz 100, qz 204, qz 2) /\ r_image exact r = map qz [7; 7; 7; 7;  7; 9; 9; 9;  7; 9; 9; 9;  7; 7; 7; 7]%Z /\ r_hits exact r = [1; 1; 1; 1;  1; 2; 2; 2;  1; 2; 2; 2;  1; 1; 1; 1]%Z.
Proof.
  set (o := raster_of exact rects (foot two_faces (mkPoint (dofZ 100) (dofZ 200) (dofZ 2))) (qz 1)).
  assert (E : match o with Ok r => let '(x, y, z) := r_ref exact r in Qceqb x (qz 100) && (Qceqb y (qz 204) && Qceqb z (qz 2)) &&
      (list_eqb Qceqb (r_image exact r) (map qz [7; 7; 7; 7;  7; 9; 9; 9;  7; 9; 9; 9;  7; 7; 7; 7]%Z) && list_eqb Z.eqb (r_hits exact r) [1; 1; 1; 1;  1; 2; 2; 2;  1; 2; 2; 2;  1; 1; 1; 1]%Z) | _ => false end = true)
    by (vm_compute; reflexivity).
  destruct o as [r| |]; try discriminate E. exists r. split; auto. destruct (r_ref exact r) as [[x y] z]. rewrite !andb_true_iff in E. destruct E as [(E1 & E2 & E3) [E4 E5]].
  apply Qceqb_eq in E1, E2, E3. apply (list_eqb_spec Qceqb Qceqb_eq) in E4. apply (list_eqb_spec Z.eqb Z.eqb_eq) in E5. subst. auto.
Qed.

(** ** C61 *)
(** Exact arithmetic: pixels that were hit are raised by the reference height, the others and
    everything else stay; a second call, or a call on a raster already offset, does nothing. *)
Theorem C61_offset (r : raster exact) : sized r -> r_offset exact r = false ->
  exists r', vertical_offset exact r = Ok r' /\ vertical_offset exact r' = Ok r' /\ sized r' /\ r_hits exact r' = r_hits exact r /\
    r_name exact r' = r_name exact r /\ r_ref exact r' = r_ref exact r /\ r_epsg exact r' = r_epsg exact r /\ r_height exact r' = r_height exact r /\ r_width exact r' = r_width exact r /\ r_px exact r' = r_px exact r /\
    forall i j v c, pixel_is r i j v c -> pixel_is r' i j (if (c =? 0)%Z then v else (v + snd (r_ref exact r))%Qc) c.
Proof.
  intros Z O. destruct (vertical_offset_spec exact r Z O) as (r' & E & Z' & O' & Hh & N1 & N2 & N3 & N4 & N5 & N6 & X).
  exists r'. split; auto. split; [unfold vertical_offset; rewrite O'; reflexivity|]. repeat (split; [auto; fail|]).
  intros i j v c [P1 P2]. unfold pixel_is. rewrite N5, Hh. split; auto. rewrite (X _ _ _ P1 P2). f_equal.
  cbn [exact n_add n_mul n_of]. destruct (c =? 0)%Z.
  - replace (qz 0) with 0%Qc by (apply Qceqb_eq; reflexivity). qceq. ring.
  - replace (qz 1) with 1%Qc by (apply Qceqb_eq; reflexivity). qceq. ring.
Qed.
Fixpoint offset_times {A} (n : nat) (r : raster A) : outcome (raster A) :=
  match n with 0 => Ok r | S n => let* r := vertical_offset A r in offset_times n r end.
(** any number of calls, whatever the arithmetic: the first decides *)
Theorem C61_once A (r : raster A) n : offset_times (S n) r = vertical_offset A r.
Proof.
  cbn [offset_times]. destruct (vertical_offset A r) as [r'| |] eqn:E; cbn [bind]; auto.
  assert (O : r_offset A r' = true).
  { unfold vertical_offset in E. destruct (r_offset A r) eqn:O; [apply Ok_inj in E; congruence|]. apply bind_Ok in E as (img & _ & E). apply Ok_inj in E. subst r'. reflexivity. }
  clear E. revert r' O. induction n as [|n IH]; intros r' O; cbn [offset_times]; auto. unfold vertical_offset at 1. rewrite O. cbn [bind]. apply IH; auto.
Qed.
(** doubles: pixels without a hit keep a value that compares equal, provided that the
    reference height is finite *)
Theorem C61_doubles (r : raster doubles) : sized r -> r_offset doubles r = false -> (match snd (r_ref doubles r) with S754_zero _ | S754_finite _ _ _ => True | _ => False end) ->
  exists r', vertical_offset doubles r = Ok r' /\
    forall k v, nth_error (r_image doubles r) k = Some v -> v <> S754_nan -> nth_error (r_hits doubles r) k = Some 0%Z ->
      exists v', nth_error (r_image doubles r') k = Some v' /\ deqb v' v = true.
Proof.
  intros Z O F. destruct (vertical_offset_spec doubles r Z O) as (r' & E & _ & _ & _ & _ & _ & _ & _ & _ & _ & X).
  exists r'. split; auto. intros k v Ev Nv Ec. eexists. split; [apply (X _ _ _ Ev Ec)|]. cbn [doubles n_add n_mul n_of Z.eqb].
  destruct (snd (r_ref doubles r)) as [s| | |s m e]; try contradiction; change (dofZ 0) with (S754_zero false);
    destruct v as [sv|sv| |sv mv ev]; try congruence; try (destruct s, sv; reflexivity).
  - cbn. destruct sv; rewrite Z.compare_refl, Pos.compare_cont_refl; reflexivity.
  - cbn. destruct sv; rewrite Z.compare_refl, Pos.compare_cont_refl; reflexivity.
Qed.
(** with an infinite reference height they do not *)
Theorem C61_infinite_refuted : exists r r' : raster doubles, sized r /\ r_hits doubles r = [0%Z] /\ r_image doubles r = [dzero] /\ vertical_offset doubles r = Ok r' /\ r_image doubles r' = [S754_nan].
Proof.
  set (r := mkRaster doubles [] (dzero, dzero, S754_infinity false) 2154 1 1 (dofZ 1) [dzero] [0%Z] false). exists r.
  eexists. split; [split; [reflexivity|split; reflexivity]|]. split; [reflexivity|]. split; [reflexivity|]. split; reflexivity.
Qed.
Example C61_example : exists r : raster exact, sized r /\ r_offset exact r = false /\ r_hits exact r = [0; 2]%Z /\ snd (r_ref exact r) = qz 10 /\
  exists r', vertical_offset exact r = Ok r' /\ pixel_is r' 0 0 (qz 3) 0 /\ pixel_is r' 0 1 (qz 4 + qz 10)%Qc 2.
Proof.
  set (r := mkRaster exact [] (0, 0, qz 10)%Qc 2154 1 2 (qz 1) [qz 3; qz 4] [0; 2]%Z false). exists r.
  assert (Z : sized r) by (split; [reflexivity|split; reflexivity]). repeat (split; [auto; fail|]).
  destruct (C61_offset r Z eq_refl) as (r' & E & _ & _ & _ & _ & _ & _ & _ & _ & _ & X). exists r'. split; auto.
  split; [apply (X 0%N 0%N (qz 3) 0%Z)|apply (X 0%N 1%N (qz 4) 2%Z)]; split; reflexivity.
Qed.

(** ** C62 *)
(** For pixels and hits alike ([get] is one of them), any arithmetic: an index inside the
    raster gives its pixel; access throws exactly when i * width + j, modulo 2^64, is not
    a pixel number or both indexes are too large; otherwise it gives the pixel of that number. *)
Theorem C62_inside {X} A (get : raster A -> list X) (r : raster A) i j : nsize (get r) = (r_height A r * r_width A r)%N -> (r_height A r * r_width A r < two64)%N ->
  (i < r_height A r)%N -> (j < r_width A r)%N -> exists x, raster_at A get r i j = Ok x /\ nth_error (get r) (N.to_nat (i * r_width A r + j)) = Some x.
Proof.
  intros L B Hi Hj. assert (K : (i * r_width A r + j < r_height A r * r_width A r)%N) by nia.
  rewrite raster_at_spec by auto. replace ((r_height A r <? i) && (r_width A r <? j))%N with false by lia. rewrite wrap64_small by lia.
  replace (_ <=? _)%N with false by lia. destruct (nth_lt (get r) (N.to_nat (i * r_width A r + j))) as (x & E); [unfold nsize in L; lia|].
  exists x. split; auto. unfold vat. rewrite E. reflexivity.
Qed.
Theorem C62_outside {X} A (get : raster A -> list X) (r : raster A) i j : nsize (get r) = (r_height A r * r_width A r)%N ->
  (raster_at A get r i j = Throw OutOfRange <-> (r_height A r < i /\ r_width A r < j)%N \/ (r_height A r * r_width A r <= (i * r_width A r + j) mod two64)%N) /\
  (raster_at A get r i j <> Throw OutOfRange -> exists x, raster_at A get r i j = Ok x /\ nth_error (get r) (N.to_nat ((i * r_width A r + j) mod two64)) = Some x).
Proof.
  intros L. rewrite raster_at_spec by auto. unfold wrap64. set (k := ((i * r_width A r + j) mod two64)%N). set (n := (r_height A r * r_width A r)%N) in *.
  destruct ((r_height A r <? i) && (r_width A r <? j))%N eqn:E1.
  - split; [split; auto; intros _; left; lia|congruence].
  - destruct (n <=? k)%N eqn:E2.
    + split; [split; auto; intros _; right; lia|congruence].
    + destruct (nth_lt (get r) (N.to_nat k)) as (x & E); [unfold nsize in L; lia|]. unfold vat. rewrite E. split; [|eauto].
      split; [discriminate|]. intros [H|H]; lia.
Qed.
(** a column beyond the last is a pixel of the next row *)
Theorem C62_aliasing {X} A (get : raster A -> list X) (r : raster A) i j : nsize (get r) = (r_height A r * r_width A r)%N -> (r_height A r * r_width A r < two64)%N ->
  (i + 1 < r_height A r)%N -> (j < r_width A r)%N -> raster_at A get r i (r_width A r + j) = raster_at A get r (i + 1) j.
Proof.
  intros L B Hi Hj. rewrite !raster_at_spec by auto. replace ((r_height A r <? i) && (r_width A r <? r_width A r + j))%N with false by lia.
  replace ((r_height A r <? i + 1) && (r_width A r <? j))%N with false by lia. replace (i * r_width A r + (r_width A r + j))%N with ((i + 1) * r_width A r + j)%N by lia. reflexivity.
Qed.
Example C62_example : exists r : raster exact, sized r /\ raster_at exact (r_image exact) r 0 1 = Ok (qz 4) /\ raster_at exact (r_image exact) r 0 2 = Ok (qz 5) /\
  raster_at exact (r_image exact) r 1 2 = Throw OutOfRange /\ raster_at exact (r_image exact) r 3 0 = Throw OutOfRange /\ raster_at exact (r_hits exact) r 1 0 = Ok 1%Z.
Proof.
  exists (mkRaster exact [] (0, 0, qz 10)%Qc 2154 2 2 (qz 1) [qz 3; qz 4; qz 5; qz 6] [0; 2; 1; 7]%Z true).
  split; [split; [reflexivity|split; reflexivity]|]. repeat split; reflexivity.
Qed.

(** ** C63 *)
Definition same_meta (a b : raster exact) : Prop :=
  (- epsilon < r_px exact a - r_px exact b /\ r_px exact a - r_px exact b < epsilon)%Qc /\ r_ref exact a = r_ref exact b /\ r_epsg exact a = r_epsg exact b /\
  r_height exact a = r_height exact b /\ r_width exact a = r_width exact b.
Lemma Qcabs_lt x e : Qcltb (Qcabs x) e = true <-> (- e < x /\ x < e)%Qc.
Proof.
  rewrite Qcltb_lt. unfold Qcabs. destruct (Qcltb x 0) eqn:E; [apply Qcltb_lt in E|apply Qcltb_ge in E].
  - split; [intros H; split; ql|intros [H1 H2]; ql].
  - split; [intros H; split; ql|intros [H1 H2]; ql].
Qed.
Lemma metadata_iff (a b : raster exact) : equal_metadata exact a b = true <-> same_meta a b.
Proof.
  unfold equal_metadata, same_meta, ref_eqb. cbn [exact n_ltb n_abs n_sub n_ofq n_eqb num]. rewrite !andb_true_iff, !N.eqb_eq, !Qceqb_eq, Qcabs_lt.
  destruct (r_ref exact a) as [[x y] z], (r_ref exact b) as [[x' y'] z']. cbn [fst snd]. split.
  - intros [[[[H1 (H2 & H3 & H4)] H5] H6] H7]. subst. auto.
  - intros (H1 & H2 & H3 & H4 & H5). injection H2 as -> -> ->. repeat split; auto; apply H1.
Qed.
Theorem C63_metadata_only (a b : raster exact) : sized a -> sized b -> (raster_eqb exact a b = Ok true <-> same_meta a b) /\ (raster_eqb exact a b = Ok false <-> ~ same_meta a b).
Proof.
  intros (Za & _) (Zb & _). unfold raster_eqb. destruct (equal_metadata exact a b) eqn:E.
  - pose proof (proj1 (metadata_iff a b) E) as M. pose proof M as (_ & _ & _ & H & W).
    replace (length (r_image exact a) <=? length (r_image exact b)) with true.
    + split; split; auto; try discriminate. contradiction.
    + symmetry. apply Nat.leb_le. unfold nsize in *. rewrite H, W in Za. lia.
  - assert (N : ~ same_meta a b) by (intros M; apply metadata_iff in M; congruence). split; split; auto; try discriminate. contradiction.
Qed.
(** the same for doubles, pixels and hits being replaced at will *)
Theorem C63_pixels_ignored A (a b : raster A) img hits img' hits' : length img = length (r_image A a) -> length img' = length (r_image A b) ->
  raster_eqb A (mkRaster A (r_name A a) (r_ref A a) (r_epsg A a) (r_height A a) (r_width A a) (r_px A a) img hits (r_offset A a))
               (mkRaster A (r_name A b) (r_ref A b) (r_epsg A b) (r_height A b) (r_width A b) (r_px A b) img' hits' (r_offset A b)) = raster_eqb A a b.
Proof. intros L L'. unfold raster_eqb, equal_metadata. cbn [r_px r_ref r_epsg r_height r_width r_image]. rewrite L, L'. reflexivity. Qed.
Example C63_example : exists a b : raster exact, sized a /\ sized b /\ r_image exact a <> r_image exact b /\ r_name exact a <> r_name exact b /\ raster_eqb exact a b = Ok true.
Proof.
  exists (mkRaster exact [] (0, 0, 0)%Qc 2154 1 1 (qz 1) [qz 3] [1]%Z true), (mkRaster exact ["b"%char] (0, 0, 0)%Qc 2154 1 1 (qz 1) [qz 4] [1]%Z true).
  split; [split; [reflexivity|split; reflexivity]|]. split; [split; [reflexivity|split; reflexivity]|]. split; [discriminate|]. split; [discriminate|]. reflexivity.
Qed.

(** ** C64 *)
(** If every facet's box has its top left corner on the grid, a pixel has been hit exactly
    when a facet's interior meets its ground square. *)
Theorem C64_aligned K good fp s B H W : br_box (fp_proj fp) = Some B -> (0 < s)%Qc -> grid B s H W -> cut_ok K good -> cuts_have_vertices K ->
  (forall f, In f (br_facets (fp_proj fp)) -> good (f_border f) /\ is_degenerate K f = false /\ drawable K B f /\ on_grid B s f) -> (Z.of_nat (length (br_facets (fp_proj fp))) < 32768)%Z ->
  exists r, raster_of exact K fp s = Ok r /\ forall i j, (i < H)%N -> (j < W)%N ->
    exists v c, pixel_is r i j v c /\ (c <> 0%Z <-> exists f, In f (br_facets (fp_proj fp)) /\ meets_pixel K B s f i j).
Proof.
  intros EB Hs G OK V F L. assert (D : Forall (drawable K B) (br_facets (fp_proj fp))) by (apply Forall_forall; intros f Hf; apply F; auto).
  destruct (C60_raster K fp s B H W EB Hs G V D L) as (r & E & _ & _ & _ & _ & _ & _ & S). exists r. split; auto. intros i j Hi Hj.
  destruct (S i j Hi Hj) as (zs & v & Gv & _ & P). eexists _, _. split; [exact P|].
  pose proof (given_some K B s i j _ _ Gv) as X. transitivity (zs <> []).
  - destruct zs; cbn [length]; split; intros; try congruence; try lia; discriminate.
  - rewrite X. split.
    + intros (f & z & Hf & Gz). exists f. split; auto. destruct (F f Hf) as (F1 & F2 & F3 & F4). apply (aligned_pixel K good B s H W f i j OK V Hs G F1 F2 F3 F4). eauto.
    + intros (f & Hf & M). destruct (F f Hf) as (F1 & F2 & F3 & F4). apply (aligned_pixel K good B s H W f i j OK V Hs G F1 F2 F3 F4) in M as (z & Gz). eauto.
Qed.
Example C64_example : exists B, br_box (fp_proj (foot [flat_face (ibox 0 0 4 4) (qz 5); flat_face (mkBox2 (qz 1) (qz 1) (Q2Qc (5 # 2)) (qz 3)) (qz 9)] at_origin)) = Some B /\ grid B (qz 1) 4 4 /\
  Forall (fun f => good_rect (f_border f) /\ is_degenerate rects f = false /\ drawable rects B f /\ on_grid B (qz 1) f) [flat_face (ibox 0 0 4 4) (qz 5); flat_face (mkBox2 (qz 1) (qz 1) (Q2Qc (5 # 2)) (qz 3)) (qz 9)].
Proof.
  exists (ibox 0 0 4 4). split; [reflexivity|]. split; [grid_tac|].
  assert (Gr : forall b, solid b -> good_rect (rect b)) by (intros b Sb; split; auto; exists b; split; auto; apply rect_box; auto).
  constructor; [|constructor; [|constructor]].
  - split; [apply Gr; split; reflexivity|]. split; [reflexivity|]. split; [drawable_tac|]. eexists _, 0%N, 0%N. split; [vm_compute; reflexivity|]. split; apply Qceqb_eq; vm_compute; reflexivity.
  - split; [apply Gr; split; reflexivity|]. split; [reflexivity|]. split; [drawable_tac|]. eexists _, 1%N, 1%N. split; [vm_compute; reflexivity|]. split; apply Qceqb_eq; vm_compute; reflexivity.
Qed.
(** Otherwise not: the facet over [1/2, 3/2] meets the second pixel of the print [0, 3/2] but
    is only drawn in the first. *)
Definition shifted : list face2 := [flat_face (mkBox2 0 0 (Q2Qc (1 # 2)) 1)%Qc (qz 5); flat_face (mkBox2 (Q2Qc (1 # 2)) 0 (Q2Qc (3 # 2)) 1)%Qc (qz 9)].
Theorem C64_unaligned_refuted : exists B r f, br_box (fp_proj (foot shifted at_origin)) = Some B /\ grid B (qz 1) 1 2 /\ Forall (fun f => good_rect (f_border f) /\ is_degenerate rects f = false /\ drawable rects B f) shifted /\
  raster_of exact rects (foot shifted at_origin) (qz 1) = Ok r /\ In f shifted /\ meets_pixel rects B (qz 1) f 0 1 /\ pixel_is r 0 1 0%Qc 0.
Proof.
  exists (mkBox2 0 0 (Q2Qc (3 # 2)) 1)%Qc. set (o := raster_of exact rects (foot shifted at_origin) (qz 1)).
  assert (E : match o with Ok r => list_eqb Qceqb (r_image exact r) [qz 7; 0%Qc] && list_eqb Z.eqb (r_hits exact r) [2; 0]%Z && (r_width exact r =? 2)%N | _ => false end = true) by (vm_compute; reflexivity).
  destruct o as [r| |]; try discriminate E. rewrite !andb_true_iff in E. destruct E as [[E1 E2] E3]. apply (list_eqb_spec Qceqb Qceqb_eq) in E1. apply (list_eqb_spec Z.eqb Z.eqb_eq) in E2. apply N.eqb_eq in E3.
  exists r, (flat_face (mkBox2 (Q2Qc (1 # 2)) 0 (Q2Qc (3 # 2)) 1)%Qc (qz 9)). split; [reflexivity|]. split; [grid_tac|]. split.
  { assert (Gr : forall b, solid b -> good_rect (rect b)) by (intros b Sb; split; auto; exists b; split; auto; apply rect_box; auto).
    constructor; [|constructor; [|constructor]]; (split; [apply Gr; split; reflexivity|]); (split; [reflexivity|]); drawable_tac. }
  split; auto. split; [right; left; auto|]. split.
  - exists (P2 (Q2Qc (5 # 4)) (Q2Qc (1 # 2))). split; [|repeat split; reflexivity].
    apply (rect_inside (rect (mkBox2 (Q2Qc (1 # 2)) 0 (Q2Qc (3 # 2)) 1)%Qc) _ _ eq_refl (rect_box (mkBox2 (Q2Qc (1 # 2)) 0 (Q2Qc (3 # 2)) 1)%Qc (conj eq_refl eq_refl))).
    repeat split; reflexivity.
  - unfold pixel_is. rewrite E3, E2. split; [|reflexivity]. change (num exact) with Qc in *. rewrite E1. reflexivity.
Qed.

(** ** C65 *)
(** [geog e]: the EPSG code of the geographic system of system [e] *)
Theorem C65_round_trip geog name (r : raster doubles) : sized r -> (0 < r_height doubles r < 2147483648)%N -> (0 < r_width doubles r < 2147483648)%N ->
  (match r_px doubles r with S754_zero _ | S754_finite _ _ _ => True | _ => False end) ->
  exists d r', raster_store doubles geog true r = Ok d /\ raster_read doubles name d = Ok r' /\
    r_name doubles r' = name /\ r_height doubles r' = r_height doubles r /\ r_width doubles r' = r_width doubles r /\ r_px doubles r' = r_px doubles r /\ r_image doubles r' = r_image doubles r /\
    r_ref doubles r' = (fst (fst (r_ref doubles r)), snd (fst (r_ref doubles r)), dzero) /\
    r_hits doubles r' = repeat 1%Z (N.to_nat (r_height doubles r * r_width doubles r)) /\ vertical_offset doubles r' = Ok r' /\
    ((0 < geog (r_epsg doubles r) < 65536)%Z -> r_epsg doubles r' = Z.to_N (geog (r_epsg doubles r))) /\ ((geog (r_epsg doubles r) <= 0)%Z -> r_epsg doubles r' = 2154%N).
Proof.
  intros (Z1 & Z2 & Z3) Hh Hw Hp.
  assert (Th : to_int (r_height doubles r) = Z.of_N (r_height doubles r)) by (unfold to_int; rewrite Z.mod_small; lia).
  assert (Tw : to_int (r_width doubles r) = Z.of_N (r_width doubles r)) by (unfold to_int; rewrite Z.mod_small; lia).
  assert (En : Z.to_nat (Z.of_N (r_width doubles r) * Z.of_N (r_height doubles r)) = length (r_image doubles r)) by (unfold nsize in Z1; lia).
  unfold raster_store, gdal_create. rewrite Th, Tw. replace ((0 <? Z.of_N (r_width doubles r)) && (0 <? Z.of_N (r_height doubles r)))%Z with true by lia.
  unfold to_gdal. rewrite Th, Tw, En, Nat.ltb_irrefl, firstn_all. cbn [d_xsize d_ysize].
  eexists. eexists. split; [reflexivity|]. unfold raster_read. cbn [d_xsize d_ysize d_geog d_geo d_band]. rewrite !N2Z.id.
  replace (n_ltb doubles (n_ofq doubles epsilon) (n_abs doubles (n_add doubles (r_px doubles r) (n_opp doubles (r_px doubles r))))) with false.
  - split; [reflexivity|]. cbn [r_name r_height r_width r_px r_image r_ref r_hits r_epsg]. repeat (split; [reflexivity|]). split.
    + intros Hg. replace (0 <? geog (r_epsg doubles r))%Z with true by lia. rewrite Z.mod_small by lia. reflexivity.
    + intros Hg. replace (0 <? geog (r_epsg doubles r))%Z with false by lia. reflexivity.
  - symmetry. cbn [doubles n_ltb n_ofq n_abs n_add n_opp]. destruct (r_px doubles r) as [s| | |s m e]; try contradiction.
    + destruct s; vm_compute; reflexivity.
    + assert (E0 : dadd (S754_finite s m e) (dopp (S754_finite s m e)) = S754_zero false); [|rewrite E0; vm_compute; reflexivity].
      unfold dadd, dopp. cbn [SFopp SFadd]. rewrite Z.min_id. unfold shl_align. rewrite Z.sub_diag. cbn [fst].
      destruct s; cbn [negb cond_Zopp]; rewrite ?Z.add_opp_diag_r, ?Z.add_opp_diag_l; reflexivity.
Qed.
(** the code read back is in general not the one written: Lambert 93 (2154) comes back as RGF93 *)
Theorem C65_epsg_refuted : exists (geog : N -> Z) (r : raster doubles) d r', geog 2154%N = 4171%Z /\ r_epsg doubles r = 2154%N /\
  raster_store doubles geog true r = Ok d /\ raster_read doubles [] d = Ok r' /\ r_epsg doubles r' = 4171%N.
Proof.
  exists (fun e => if (e =? 2154)%N then 4171%Z else (-1)%Z), (mkRaster doubles [] (dzero, dzero, dzero) 2154 1 1 (dofZ 1) [dzero] [1]%Z true).
  eexists _, _. split; [reflexivity|]. split; [reflexivity|]. split; [reflexivity|]. split; reflexivity.
Qed.
(** an empty raster cannot be stored: the null pointer returned by GDAL is used *)
Theorem C65_empty_undefined A geog accept (r : raster A) : (r_height A r = 0 \/ r_width A r = 0)%N -> raster_store A geog accept r = UB.
Proof.
  intros H. unfold raster_store, gdal_create. replace ((0 <? to_int (r_width A r)) && (0 <? to_int (r_height A r)))%Z with false; auto.
  symmetry. destruct H as [-> | ->]; change (0 <? to_int 0)%Z with false; [apply andb_false_r|reflexivity].
Qed.
(** a raster made with no argument: no pixel, so that every access throws and storing it is
    undefined; EPSG 2154, pixels of six hundredths, at the origin, unnamed *)
Theorem C62_default A : let r := raster_default A in
  r_name A r = [] /\ r_ref A r = (n_of A 0, n_of A 0, n_of A 0) /\ r_epsg A r = 2154%N /\ r_px A r = n_ofq A (Q2Qc (6 # 100)) /\ r_image A r = [] /\ r_hits A r = [] /\
  (forall i j, raster_at A (r_image A) r i j = Throw OutOfRange /\ raster_at A (r_hits A) r i j = Throw OutOfRange) /\ forall geog accept, raster_store A geog accept r = UB.
Proof.
  intros r. repeat (split; [reflexivity|]). split.
  - intros i j. split; (apply C62_outside; [reflexivity|right; cbn; apply N.le_0_l]).
  - intros geog accept. apply C65_empty_undefined. now left.
Qed.
(** a band that cannot be written or read, or a missing transformation, throws *)
Theorem C65_failures A : (forall geog (r : raster A) d, (Z.of_nat (length (r_image A r)) >= to_int (r_width A r) * to_int (r_height A r))%Z -> to_gdal A geog false r d = Throw RuntimeError) /\
  (forall name d, d_geo A d = None -> raster_read A name d = Throw RuntimeError).
Proof.
  split.
  - intros geog r d H. unfold to_gdal. replace (length (r_image A r) <? _) with false; auto. symmetry. apply Nat.ltb_ge. lia.
  - intros name d E. unfold raster_read. rewrite E. reflexivity.
Qed.
Example C65_example : exists r : raster doubles, sized r /\ (0 < r_height doubles r < 2147483648)%N /\ (0 < r_width doubles r < 2147483648)%N /\ r_px doubles r = dec 3 10 /\ r_image doubles r = [dofZ 3; dec 1 3].
Proof.
  exists (mkRaster doubles [] (dofZ 7, dofZ 8, dofZ 9) 2154 1 2 (dec 3 10) [dofZ 3; dec 1 3] [0; 2]%Z true).
  split; [split; [reflexivity|split; reflexivity]|]. cbn [r_height r_width r_px r_image]. repeat split; auto; lia.
Qed.

(** ** C66 *)
Theorem C66_rows A (r : raster A) rows : sized r -> (0 < r_width A r)%N -> nsize rows = r_height A r -> rows <> [] -> Forall (fun row => nsize row = r_width A r) rows -> r_image A r = concat rows ->
  raster_text A r = Ok (raster_header A r ++ matrix_lines (map (map (show_num A)) rows)).
Proof.
  intros (Z1 & Z2 & Z3) Hw Hn N F E. unfold raster_text, matrix_text. rewrite (wrap64_small _ Z3). rewrite (N.mul_comm (r_width A r)), (wrap64_small _ Z3). unfold iota.
  pose proof (cells_text A (fun it v => show_num A v ++ (if negb ((it + 1) mod r_width A r =? 0)%N then [","; " "]%char
    else "]"%char :: (if negb (it + 1 =? r_height A r * r_width A r)%N then [","%char; ch_nl; " "%char; "["%char] else [])))%list (r_image A r) []) as X. cbn [app length] in X.
  replace (N.to_nat (r_height A r * r_width A r)) with (length (r_image A r)) by (unfold nsize in Z1; lia). 
  etransitivity; [exact (f_equal (fun o => let* m := (let* body := o in Ok (["["; "["]%char ++ concat body ++ ["]"%char; ch_nl])) in Ok (raster_header A r ++ m)) X)|]. cbn [bind]. f_equal. f_equal.
  pose proof (run_rows A (r_width A r) (r_height A r * r_width A r)%N Hw rows 0%N N F) as R. rewrite Hn in R. specialize (R eq_refl). cbn [N.mul N.to_nat] in R. unfold run in R. rewrite <- E in R.
  unfold cell_text in R. unfold matrix_lines. rewrite map_map. rewrite <- R. cbn [app]. reflexivity.
Qed.
(** an empty raster prints unbalanced brackets *)
Theorem C66_empty_refuted A (r : raster A) : (r_height A r * r_width A r = 0)%N -> raster_text A r = Ok (raster_header A r ++ ["["; "["; "]"]%char ++ [ch_nl]).
Proof. intros H. unfold raster_text, matrix_text. rewrite H. reflexivity. Qed.
Example C66_example : matrix_text doubles (mkRaster doubles [] (dzero, dzero, dzero) 2154 2 2 (dofZ 1) [dofZ 3; dec 1 10; dofZ (-2); dzero] [1; 1; 1; 1]%Z true) =
  Ok (hdr "[[3.000000, 0.100000],"%string ++ ch_nl :: hdr " [-2.000000, 0.000000]]"%string ++ [ch_nl]).
Proof. vm_compute. reflexivity. Qed.
