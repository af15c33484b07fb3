(** * Properties C65 and C66, continued: which images are accepted; the numbers and the header of
    the text of a raster. *)
From Coq Require Import String.
From Verif Require Import Base Dbl Geom Decimal Shadow Streams Spec_text Handlers Spec_io Surface Projection Raster Spec_raster Props_textout Spec_num Num_proofs Printnum_proofs Nearest_proofs Rn_proofs Scan_proofs Lines_proofs Round_proofs.
From Coq Require Import QArith Qabs Lqa.
Import List.
Close Scope string_scope.
Open Scope nat_scope.

(** ** C65: the images that are accepted *)
(** an image is read exactly when it has geographic coefficients g0 ... g5 with |g1 + g5| not above
    the threshold (square pixels, rows downwards) and a first band; the raster then has the
    corner (g0, g3), the pixel size g1, the pixels of the band, one hit everywhere, and the
    code of the geographic system cut to 16 bits (2154 if there is none) *)
Theorem C65_reads : forall A name (d : dataset A) r, raster_read A name d = Ok r <->
  exists g0 g1 g2 g3 g4 g5 l, d_geo A d = Some (g0, g1, g2, g3, g4, g5) /\ n_ltb A (n_ofq A epsilon) (n_abs A (n_add A g1 g5)) = false /\ d_band A d = Some l /\
    r_name A r = name /\ r_ref A r = (g0, g3, n_of A 0) /\ r_px A r = g1 /\ r_image A r = l /\
    r_height A r = Z.to_N (d_ysize A d) /\ r_width A r = Z.to_N (d_xsize A d) /\ r_hits A r = repeat 1%Z (N.to_nat (r_height A r * r_width A r)) /\ r_offset A r = true /\
    r_epsg A r = match d_geog A d with Some e => if (0 <? e)%Z then Z.to_N (e mod 65536) else 2154%N | None => 2154%N end.
Proof.
  intros A name d r. unfold raster_read. split.
  - destruct (d_geo A d) as [[[[[[g0 g1] g2] g3] g4] g5]|]; [|discriminate]. destruct (n_ltb A _ _) eqn:E; [discriminate|]. destruct (d_band A d) as [l|]; [|discriminate]. intros H. apply Ok_inj in H. subst r.
    exists g0, g1, g2, g3, g4, g5, l. cbn. repeat (split; [auto|]). destruct (d_geog A d); reflexivity.
  - intros (g0 & g1 & g2 & g3 & g4 & g5 & l & -> & -> & -> & H1 & H2 & H3 & H4 & H5 & H6 & H7 & H8 & H9). f_equal. destruct r as [n rf ep h w px im hi of]. cbn in *. subst. f_equal. destruct (d_geog A d); reflexivity.
Qed.
Theorem C65_refusals : forall A name (d : dataset A), (forall r, raster_read A name d <> Ok r) ->
  raster_read A name d = Throw LogicError /\ (exists g0 g1 g2 g3 g4 g5, d_geo A d = Some (g0, g1, g2, g3, g4, g5) /\ n_ltb A (n_ofq A epsilon) (n_abs A (n_add A g1 g5)) = true) \/
  raster_read A name d = Throw RuntimeError /\ (d_geo A d = None \/ d_band A d = None).
Proof.
  intros A name d H. unfold raster_read in *. destruct (d_geo A d) as [[[[[[g0 g1] g2] g3] g4] g5]|]; [|right; auto]. destruct (n_ltb A _ _) eqn:E; [left; split; auto; exists g0, g1, g2, g3, g4, g5; auto|].
  right. destruct (d_band A d) as [l|]; [|auto]. exfalso. now apply (H _ eq_refl).
Qed.
(** oblong pixels are refused *)
Definition refused_as_oblong {X} (o : outcome X) : bool := match o with Throw LogicError => true | _ => false end.
Definition was_read {X} (o : outcome X) : bool := match o with Ok _ => true | _ => false end.
Example C65_oblong : refused_as_oblong (raster_read doubles [] (mkDataset doubles 1 1 None (Some (dzero, dofZ 1, dzero, dzero, dzero, dofZ (-2))) (Some [dzero]))) = true /\
  was_read (raster_read doubles [] (mkDataset doubles 1 1 None (Some (dzero, dofZ 2, dzero, dzero, dzero, dofZ (-2))) (Some [dzero]))) = true.
Proof. split; vm_compute; reflexivity. Qed.

(** ** C66: numbers with six decimals *)
(** [n] is the integer closest to [q]; of two equally close the even one *)
Definition nearest_integer (q : Q) (n : Z) : Prop :=
  forall n', (Qabs (inject_Z n - q) <= Qabs (inject_Z n' - q))%Q /\ ((Qabs (inject_Z n - q) == Qabs (inject_Z n' - q))%Q -> n <> n' -> Z.even n = true).
(** text of (-1)^neg n 10^-6: an integer part without superfluous zeros, a dot, six digits *)
Definition fixed_text (neg : bool) (n : Z) (t : str) : Prop :=
  exists it ids ft fds, t = sign_of neg ++ it ++ dot :: ft /\ digits_text it ids /\ digits_text ft fds /\ List.length ft = 6 /\
    (it = [Spec_num.zero] \/ (it <> [] /\ hd Spec_num.zero it <> Spec_num.zero)) /\ positional (ids ++ fds) = n.
Lemma rhe_nearest a b : (0 < b)%Z -> nearest_integer (rat a b) (rhe a b).
Proof.
  intros Hb n'. pose proof (rhe_near a b Hb) as [N1 N2]. set (q := rat a b) in *. set (n := rhe a b) in *.
  change (inject_Z n) with (qz n). change (inject_Z n') with (qz n').
  assert (n = n' \/ qz n + 1 <= qz n' \/ qz n' <= qz n - 1)%Q as [<-|C].
  { destruct (Z.lt_trichotomy n n') as [L|[->|L]]; [|now left|]; right; [left|right]; unfold qz; change 1%Q with (inject_Z 1); [rewrite <- inject_Z_plus|unfold Qminus; rewrite <- inject_Z_opp, <- inject_Z_plus]; rewrite <- Zle_Qle; lia. }
  - split; [apply Qle_refl|congruence].
  - split.
    + apply Qabs_case; intros ?; apply Qabs_case; intros ?; destruct C; lra.
    + intros E _. apply (rhe_tie a b Hb). fold q n. revert E. apply Qabs_case; intros ?; apply Qabs_case; intros ?; apply Qabs_case; intros ? E; destruct C; lra.
Qed.
Theorem C66_value : forall x, real_double x -> exists n, nearest_integer (Qabs (dval x) * inject_Z 1000000) n /\ fixed_text (negative x) n (print_fixed x).
Proof.
  intros x [V F]. destruct x as [s| | |s m e]; try discriminate.
  - exists 0%Z. split.
    + intros n'. change (dval (S754_zero s)) with 0%Q. split.
      * change (Qabs (inject_Z 0 - Qabs 0 * inject_Z 1000000)) with 0%Q. apply Qabs_nonneg.
      * reflexivity.
    + exists [Spec_num.zero], [0%Z], (repeat Spec_num.zero 6), (repeat 0%Z 6). split; [destruct s; reflexivity|]. split; [repeat constructor; lia|]. split; [repeat constructor; lia|]. split; [reflexivity|]. split; [now left|reflexivity].
  - pose proof (frac_rat m e) as R. unfold print_fixed. destruct (frac m e) as [a b]. destruct R as (Ha & Hb & R). set (n := rhe (a * 1000000) b). exists n. split.
    + assert (Qabs (dval (S754_finite s m e)) * inject_Z 1000000 == rat (a * 1000000) b)%Q as E.
      { assert (Qabs (dval (S754_finite s m e)) == rat a b)%Q as ->. { rewrite dval_finite, R, Qabs_Qmult. assert (Qabs (if s then -1 else 1) == 1)%Q as -> by (destruct s; reflexivity). rewrite Qabs_pos; [ring|]. pose proof (pw_pos 2 e ltac:(lia)). pose proof (qz_pos (Zpos m) ltac:(lia)). nra. } unfold rat. rewrite qz_mul. unfold Qdiv, qz. ring. }
      intros n'. destruct (rhe_nearest (a * 1000000) b Hb n') as [N1 N2]. rewrite E. split; auto.
    + assert (0 <= n)%Z as Hn. { pose proof (rhe_Z (a * 1000000) b Hb). fold n in H. nia. }
      pose proof (Z.mod_pos_bound n 1000000 eq_refl) as M. pose proof (Z.div_pos n 1000000 Hn eq_refl) as D.
      destruct (print_nat_spec (n / 1000000) D) as (P1 & P2 & P3). destruct (print_nat_text (n / 1000000) D) as [_ P4]. destruct (fixed_digits_spec 6 (n mod 1000000) ltac:(change (10 ^ Z.of_nat 6)%Z with 1000000%Z; lia)) as (D1 & D2 & D3).
      exists (print_nat (n / 1000000)), (map dig (print_nat (n / 1000000))), (fixed_digits 6 (n mod 1000000) []), (map dig (fixed_digits 6 (n mod 1000000) [])).
      split; [destruct s; reflexivity|]. split; [now apply digits_text_spec|]. split; [now apply digits_text_spec|]. split; [exact D2|]. split; [destruct P4; auto|].
      rewrite <- map_app, positional_numval, numval_app, numval_lin, D2, P2, D3. change (10 ^ Z.of_nat 6)%Z with 1000000%Z. pose proof (Z.div_mod n 1000000 ltac:(lia)). lia.
Qed.
(** the text says the number: read as a decimal it is the double rounded to 10^-6 *)
Theorem C66_reads : forall neg n t, fixed_text neg n t -> decimal_text t neg (inject_Z n * (10 # 1) ^ (-6)).
Proof.
  intros neg n t (it & ids & ft & fds & -> & I & F & L & Z & <-). exists (sign_of neg), it, ids, (dot :: ft), fds, [], 0%Z. rewrite app_nil_r. split; [reflexivity|]. split; [destruct neg; constructor|]. split; auto. split; [now constructor|]. split; [constructor|].
  assert (List.length fds = 6) as ->. { apply Forall2_len in F. lia. } split; [|reflexivity]. intros E. apply app_eq_nil in E as [-> ->]. inversion F; subst. discriminate.
Qed.
Theorem C66_unique : forall q n n', nearest_integer q n -> nearest_integer q n' -> n = n'.
Proof.
  intros q n n' H H'. destruct (Z.eq_dec n n') as [|N]; auto. exfalso. destruct (H n') as [A B], (H' n) as [A' B']. assert (Qabs (inject_Z n - q) == Qabs (inject_Z n' - q))%Q as E by (apply Qle_antisym; auto).
  specialize (B E N). symmetry in E. specialize (B' E (not_eq_sym N)).
  assert (forall a b, (a < b)%Z -> Z.even a = true -> Z.even b = true -> Qabs (inject_Z a - q) == Qabs (inject_Z b - q) -> (forall c, Qabs (inject_Z a - q) <= Qabs (inject_Z c - q)) -> False)%Q as X.
  { intros a b L Ea Eb E1 C. assert (a + 2 <= b)%Z as L2. { assert (b <> a + 1)%Z; [|lia]. intros ->. rewrite Z.even_add, Ea in Eb. discriminate. }
    specialize (C (a + 1)%Z). rewrite inject_Z_plus in C. rewrite Zle_Qle, inject_Z_plus in L2. change (inject_Z 2) with 2%Q in L2. change (inject_Z 1) with 1%Q in C. revert E1 C. apply Qabs_case; intros ?; apply Qabs_case; intros ?; apply Qabs_case; intros ? E1 C; lra. }
  destruct (Z.lt_trichotomy n n') as [L|[->|L]]; [|congruence|].
  - apply (X n n' L B B'); [now symmetry|]. intros c. apply (H c).
  - apply (X n' n L B' B); [auto|]. intros c. apply (H' c).
Qed.
(** the header: six lines, before the matrix *)
Theorem C66_header : forall A (r : raster A), exists ref h w e,
  raster_header A r = concat (map print_line [lit "Name : " ++ r_name A r; lit "Reference (Top left) Point : " ++ ref; lit "EPSG code : " ++ e; lit "Height : " ++ h; lit "Width : " ++ w; lit "Image Matrix : "]) /\
  ref = print_point (mkPoint (n_tod A (fst (fst (r_ref A r)))) (n_tod A (snd (fst (r_ref A r)))) (n_tod A (snd (r_ref A r)))) /\
  nat_text e (Z.of_N (r_epsg A r)) /\ nat_text h (Z.of_N (r_height A r)) /\ nat_text w (Z.of_N (r_width A r)).
Proof.
  intros A r. eexists _, (print_N (r_height A r)), (print_N (r_width A r)), (print_N (r_epsg A r)). split; [|split; [reflexivity|]].
  - unfold raster_header. cbn [map concat print_line]. unfold print_line. rewrite app_nil_r. rewrite <- !app_assoc. reflexivity.
  - repeat split; apply print_nat_text; lia.
Qed.
Example C66_numbers : print_fixed (dofZ 3) = lit "3.000000" /\ nearest_integer (Qabs (dval (dofZ (-3))) * inject_Z 1000000) 3000000 /\ fixed_text true 3000000 (print_fixed (dofZ (-3))).
Proof.
  split; [vm_compute; reflexivity|]. destruct (C66_value (dofZ (-3))) as (n & N & F); [split; reflexivity|].
  assert (n = 3000000%Z) as ->. { symmetry. apply (C66_unique (Qabs (dval (dofZ (-3))) * inject_Z 1000000)); auto. pose proof (rhe_nearest 3000000 1 eq_refl) as H. change (rhe 3000000 1) with 3000000%Z in H. assert (Qabs (dval (dofZ (-3))) * inject_Z 1000000 == rat 3000000 1)%Q as E by (vm_compute; reflexivity). intros n'. destruct (H n') as [H1 H2]. rewrite E. now split. }
  split; auto.
Qed.

(** ** C60: the rasters of a scene: one per print, in order, or what the first failure gives *)
Theorem C60_scene : forall A K l s, (forall rs, rasterize_scene A K l s = Ok rs <-> Forall2 (fun fp r => raster_of A K fp s = Ok r) l rs) /\
  (forall pre fp post rs, l = pre ++ fp :: post -> Forall2 (fun fp r => raster_of A K fp s = Ok r) pre rs ->
     (forall e, raster_of A K fp s = Throw e -> rasterize_scene A K l s = Throw e) /\ (raster_of A K fp s = UB -> rasterize_scene A K l s = UB)).
Proof.
  intros A K l s. unfold rasterize_scene. split; [intros rs; apply omapM_Ok|]. intros pre fp post rs -> F. induction F as [|p r pre rs H F IH]; cbn [app omapM].
  - split; [intros e ->|intros ->]; reflexivity.
  - rewrite H. cbn [bind]. destruct IH as [I1 I2]. split; [intros e E; now rewrite (I1 e E)|intros E; now rewrite (I2 E)].
Qed.
