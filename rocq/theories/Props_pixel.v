(** * C100 continued: what the pixel size does to orthoproject. *)
From Coq Require Import Strings.String.
From Verif Require Import Base Dbl Decimal Round_proofs Rn_proofs Spec_text Spec_num Stod Spec_stod Props_stod Geom Shadow Streams Handlers Spec_io Surface Projection Raster Rect Ogr Dq_proofs Cli Spec_cli Props_util2 Props_cli Props_cli2.
From Coq Require Import QArith Qround Qpower Qabs Lqa.
Import List. Import ListNotations.
Open Scope Z_scope.

(** ** The program *)
Lemma gives_fun m k v v' : gives m k v -> gives m k v' -> v = v'.
Proof.
  intros (a & b & -> & H) (a' & b' & E & H'). revert a' E H'. induction a as [|x a IH]; intros [|y a'] E H'; cbn [app] in E; injection E as E1 E2.
  - congruence.
  - subst y. exfalso. apply (H' v). now left.
  - subst x. exfalso. apply (H v'). now left.
  - subst y. apply IH with a'; auto; intros w I'; [apply (H w)|apply (H' w)]; now right.
Qed.
Lemma given_pixel f m a s : ortho_given f m a -> flag m "rasterize" true -> word m "--pixel-size" s -> f s = Ok (oa_pixel a).
Proof.
  intros H R W. destruct (og_pixel _ _ _ H) as [(_ & s' & W' & E)|(R' & _)].
  - pose proof (gives_fun _ _ _ _ W W') as X. injection X as <-. exact E.
  - pose proof (gives_fun _ _ _ _ R R') as X. discriminate.
Qed.
Section PROGRAM.
Context {S : Type} (X : externals) (build : mesh -> outcome S) (surf : S -> surface)
  (prune : S -> outcome S) (line : surface -> nat -> outcome str) (listing : fs -> path -> list str) (K : kernel) (G : gdal).
Notation ortho := (ortho_main X build surf prune line listing K G stod).
(** *** no number, or one out of range: the program says so, does nothing, and still exits with 0 *)
Theorem C100_program_refuses m s w : flag m "rasterize" true -> word m "--pixel-size" s -> (forall x, stod s <> Ok x) -> exists e, ortho (PArgs m) w = (w, Exit 0 (Some e)).
Proof. intros R W N. apply C74_incomplete; [exact C100_total|]. intros a H. exact (N _ (given_pixel _ _ _ _ H R W)). Qed.
(** *** a number whose value is zero, such as what is left of "0,5": no image is written *)
Theorem C100_program_zero m a w b s t neg q : ortho_given stod m a -> flag m "rasterize" true -> word m "--pixel-size" (b ++ s) -> no_nul (parent_path (oa_path a)) ->
  all_blank b -> longest_number s t -> number_text t (Number neg q) -> (q == 0)%Q -> w_rasters (fst (ortho (PArgs m) w)) = w_rasters w.
Proof.
  intros H R W N B L T Z. destruct (C74_confined X build surf prune line listing K G stod m a w H N) as (_ & _ & C). apply C. right. unfold wants_images.
  pose proof (given_pixel _ _ _ _ H R W) as E. pose proof (C100_reads b s t _ B L T) as O. rewrite E in O. destruct O as [(_ & _ & x & Ex & [Rx Nx] & _)|[_ O]]; [|discriminate]. apply Ok_inj in Ex. subst x.
  assert (dval (oa_pixel a) == 0)%Q as V.
  { destruct (Nx (S754_zero false)) as [Le _]; [split; reflexivity|]. cbn [dval] in Le. assert (signed neg q == 0)%Q as Sq by (destruct neg; cbn [signed]; lra). rewrite Sq in Le. change (Qabs (0 - 0)) with 0%Q in Le.
    pose proof (Qle_Qabs (dval (oa_pixel a) - 0)). pose proof (Qle_Qabs (- (dval (oa_pixel a) - 0))) as L2. rewrite Qabs_opp in L2. lra. }
  destruct (oa_pixel a) as [sg|sg| |sg mm ee]; [destruct sg; discriminate|destruct Rx; discriminate|destruct Rx; discriminate|]. exfalso. cbn [dval] in V. pose proof (pw_pos 2 ee ltac:(lia)) as P. change ((2#1) ^ ee)%Q with (pw 2 ee) in V.
  assert (0 < inject_Z (Zpos mm))%Q as M by (change 0%Q with (inject_Z 0); rewrite <- Zlt_Qlt; lia). pose proof (Qmult_lt_0_compat _ _ M P) as MP. destruct sg; lra.
Qed.
(** *** not a number, or a negative number no larger than the height of the first building's
    print: the conversion of the number of rows to std::size_t is undefined *)
(** the number of rows before rounding up: height of the print by pixel size *)
Definition rows (fp : footprint) (px x : dbl) : Prop := exists B, br_box (fp_proj fp) = Some B /\ x = ddiv (dsub (dq (ymax B)) (dq (ymin B))) px.
Theorem C100_program_undefined m a w fp l : about_to_save X build surf prune listing K stod m a w (fp :: l) -> oa_sum a = false -> g_shp G = true ->
  let dir := parent_path (oa_path a) in
  (forall p, In p (fp :: l) -> let out := path_join (dir ++ [lit "vectors"]) (fp_name p ++ lit ".shp") in g_create G out = true /\ exists ly, foot_out K (g_geog G) (g_layer G out) (g_feature G) (oa_labels a) p = Ok ly) ->
  (oa_pixel a = S754_nan \/ exists x, rows fp (oa_pixel a) x /\ wants_images a /\ real_double x /\ (dval x <= -1)%Q) -> snd (ortho (PArgs m) w) = Undefined.
Proof.
  intros A Sm D dir Sh P. destruct (saving_run X build surf prune line listing K G stod m a w _ A) as (f & F & Fd & ->). fold dir. destruct A as (_ & _ & _ & _ & N & _). fold dir in N.
  assert (no_nul (path_join dir (lit "vectors"))) as NV by (apply join_no_nul; auto).
  destruct (shapes_run K G (path_join dir (lit "vectors")) (oa_labels a) (fp :: l)) with (w := mkWorld f (w_vectors w) (w_rasters w)) as (w1 & E & _ & _); auto.
  unfold bnd at 1. rewrite E, Sm. unfold bnd at 1. cbn [when]. unfold ret at 1. cbv iota.
  assert (wants_images a) as W by (destruct P as [P|(x & _ & W & _)]; [unfold wants_images; rewrite P; reflexivity|exact W]).
  unfold rasterizing. unfold wants_images in W. rewrite W. cbn [negb when]. unfold bnd, lift.
  assert (rasterize_scene doubles K (fp :: l) (oa_pixel a) = UB) as ->; [|reflexivity].
  unfold rasterize_scene. cbn [omapM]. assert (raster_of doubles K fp (oa_pixel a) = UB) as ->; [|reflexivity].
  unfold raster_of. destruct (br_box (fp_proj fp)) as [B|] eqn:EB; [|reflexivity]. cbv zeta. cbn [n_sub n_div n_ceil n_ofq doubles].
  destruct P as [P|(x & (B' & EB' & ->) & _ & Rx & V)].
  - rewrite P. assert (forall y, ddiv y S754_nan = S754_nan) as -> by (intros []; reflexivity). reflexivity.
  - rewrite EB in EB'. injection EB' as <-. set (x := ddiv _ _) in *. clearbody x. clear - Rx V.
    assert (forall z, (z < 0)%Z -> to_size z = UB) as T by (intros z Hz; unfold to_size; replace (0 <=? z)%Z with false by (symmetry; apply Z.leb_gt; lia); reflexivity).
    assert (to_size (Qceiling (this (qd x))) = UB) as C.
    { apply T. assert (this (qd x) == dval x)%Q as Q by apply Props_util2.qd_dval. assert (this (qd x) <= inject_Z (-1))%Q as Le by (rewrite Q; exact V). apply Qceiling_resp_le in Le. rewrite Qceiling_Z in Le. lia. }
    destruct x; try (destruct Rx; discriminate); rewrite C; reflexivity.
Qed.
End PROGRAM.

(** ** Examples *)
Definition pixel_map (s : str) : list (str * value) := removelast quiet_map ++ [(lit "--pixel-size", VStr s)].
Definition with_pixel (t : string) : world * run := (ortho_main no_ext (fun _ => Ok plate) (fun s => s) (fun s => Ok s) (fun _ _ => Ok (lit "facet" ++ nl)) (fun _ _ => []) rects gdal_fine stod (PArgs (pixel_map (lit t))) start).
Example C100_reading : stod (lit " 1,5") = Ok (dofZ 1) /\ stod (lit "0x10p-1 m") = Ok (dofZ 8) /\ stod (lit "-.5e1") = Ok (dofZ (-5)) /\ stod (lit "1e") = Ok (dofZ 1) /\ stod (lit "0x") = Ok (dofZ 0) /\
  stod (lit "abc") = Throw LogicError /\ stod (lit "1e999") = Throw OutOfRange /\ stod (lit "1e-999") = Throw OutOfRange /\ stod (lit "+INFinity") = Ok (S754_infinity false) /\ stod (lit "nan(x)") = Ok S754_nan.
Proof. repeat split; vm_compute; reflexivity. Qed.
Example C100_hypotheses : longest_number (lit "0,5") (lit "0") /\ number_text (lit "0") (Number false 0) /\ no_number (lit "abc").
Proof.
  assert (number_text (lit "0") (Number false 0)) as N.
  { apply decimal_number. exists [], (lit "0"), [0], [], [], [], 0. split; [reflexivity|]. split; [constructor|]. split; [constructor; [split; [lia|reflexivity]|constructor]|]. split; [constructor|]. split; [constructor|]. split; [discriminate|reflexivity]. }
  split; [|split; [exact N|]].
  - apply (C100_stops (lit "0") ","%char (lit "5")); [now exists (Number false 0)|]. intros H. unfold number_char, word_char in H. destruct H as [H|H]; [cbn in H; lia|]. repeat (destruct H as [H|H]; [discriminate|]). discriminate.
  - intros t r E [v Nt]. destruct (Stod_proofs.strtod_cases (lit "abc")) as [(t' & v' & L & N')|H]; [|exact (H t r E (ex_intro _ v Nt))].
    pose proof (C100_reads [] _ _ _ (fun c (H : In c []) => match H with end) L N') as O. assert (stod ([] ++ lit "abc") = Throw LogicError) as X by (vm_compute; reflexivity). rewrite X in O. destruct v'; cbn [owed] in O; [|discriminate..].
    destruct O as [(_ & _ & x & O & _)|[_ O]]; discriminate.
Qed.
Example C100_programs : snd (with_pixel "0,5"%string) = Exit 0 None /\ w_rasters (fst (with_pixel "0,5"%string)) = [] /\ List.length (w_rasters (fst (with_pixel "0.5"%string))) = 1%nat /\
  with_pixel "abc"%string = (start, Exit 0 (Some LogicError)) /\ snd (with_pixel "nan"%string) = Undefined /\ snd (with_pixel "-1"%string) = Undefined.
Proof. repeat split; vm_compute; reflexivity. Qed.
