(** * C57 and C98: prints added to prints, and to themselves.

    Adding prints never divides by zero: the facets that are compared have been filtered, so
    none of them is vertical.  The only exception of [FootPrint +=] is the logic_error for
    prints of different places.  [b += b] runs over the vector it changes. *)
From Verif Require Import Base Dbl Shadow Geom Surface Projection Selfadd Spec_projection Strip Projection_proofs Props_projection.
Import List.

Definition upright (l : list face2) : Prop := forall f, In f l -> pl_c (f_plane f) <> 0%Qc.
Lemma upright_app l m : upright l -> upright m -> upright (l ++ m).
Proof. intros A B f H. apply in_app_or in H as [H|H]; auto. Qed.
Lemma filter_upright K l : upright (filter_facets K l).
Proof.
  intros f H. apply filter_In in H as [_ H]. apply negb_true_iff, orb_false_iff in H as [_ H].
  apply orb_false_iff in H as [H _]. unfold is_perpendicular, Qceqb in H. intros E. rewrite E in H. now vm_compute in H.
Qed.
Lemma plane_height_upright K f p : pl_c (f_plane f) <> 0%Qc -> exists z, plane_height K f p = Ok z.
Proof. intros H. unfold plane_height. destruct (Qceqb (pl_c (f_plane f)) 0) eqn:E; [apply Qceqb_eq in E; contradiction|eauto]. Qed.
Lemma ofold_no_throw {A B} (P : A -> Prop) (Q : B -> Prop) (f : A -> B -> outcome A) :
  (forall a b, P a -> Q b -> (forall e, f a b <> Throw e) /\ (forall a', f a b = Ok a' -> P a')) ->
  forall l a, P a -> (forall b, In b l -> Q b) ->
    (forall e, ofold f l a <> Throw e) /\ (forall a', ofold f l a = Ok a' -> P a').
Proof.
  intros H. induction l as [|b l IH]; intros a Pa Ql; cbn [ofold].
  - split; [discriminate|]. intros a' E. apply Ok_inj in E. now subst.
  - destruct (H a b Pa (Ql b (or_introl eq_refl))) as [N S]. destruct (f a b) as [a1|e|] eqn:E; cbn [bind].
    + apply IH; [apply S; auto|intros; apply Ql; right; auto].
    + exfalso. apply (N e). reflexivity.
    + split; discriminate.
Qed.
Lemma pair_upright K l r : forall acc, pl_c (f_plane l) <> 0%Qc -> pl_c (f_plane r) <> 0%Qc ->
  upright (fst acc) /\ upright (snd acc) ->
  (forall e, occlude_pair K l r acc <> Throw e) /\ (forall a, occlude_pair K l r acc = Ok a -> upright (fst a) /\ upright (snd a)).
Proof.
  intros acc Hl Hr [U V]. unfold occlude_pair. destruct (k_inter2 K (f_border l) (f_border r)) as [|i is].
  - split; [discriminate|]. intros a E. apply Ok_inj in E. subst a. cbn [fst snd].
    split; apply upright_app; auto; intros f [<-|[]]; auto.
  - destruct (ofold_no_throw (fun _ : k_set K * k_set K => True) (fun _ : poly => True) (cut_one K l r)) with (l := i :: is) (a := (k_of K (f_border l), k_of K (f_border r))) as [N _]; auto.
    { intros st j _ _. split; [|auto]. intros e. unfold cut_one. destruct (sample (outer j)) as [p|e'|] eqn:S; cbn [bind]; try discriminate.
      - destruct (plane_height_upright K l p Hl) as [z ->]. destruct (plane_height_upright K r p Hr) as [z' ->]. discriminate.
      - apply sample_throws in S. contradiction. }
    destruct (ofold (cut_one K l r) (i :: is) _) as [[sl sr]|e|]; cbn [bind]; [|exfalso; apply (N e); reflexivity|split; discriminate].
    split; [discriminate|]. intros a E. apply Ok_inj in E. subst a. cbn [fst snd]. unfold unpack.
    split; apply upright_app; auto; intros f Hf; apply in_map_iff in Hf as (q & <- & _); auto.
Qed.
Lemma occlude_all_upright K : forall rs cs, upright rs -> upright cs ->
  (forall e, occlude_all K cs rs <> Throw e) /\ (forall a, occlude_all K cs rs = Ok a -> upright (fst a) /\ upright (snd a)).
Proof.
  induction rs as [|r rs IH]; intros cs Ur Uc; cbn [occlude_all].
  - split; [discriminate|]. intros a E. apply Ok_inj in E. subst a. split; [intros f []|exact Uc].
  - assert (Hr : pl_c (f_plane r) <> 0%Qc) by (apply Ur; left; auto).
    destruct (ofold_no_throw (fun acc : list face2 * list face2 => upright (fst acc) /\ upright (snd acc)) (fun c => pl_c (f_plane c) <> 0%Qc)
      (fun acc c => occlude_pair K r c acc)) with (l := filter_facets K cs) (a := (@nil face2, @nil face2)) as [N S].
    { intros acc c P Q. apply pair_upright; auto. }
    { split; intros f []. }
    { apply filter_upright. }
    unfold occlusion. destruct (ofold _ (filter_facets K cs) ([], [])) as [[lf c1]|e|]; cbn [bind]; [|exfalso; apply (N e); reflexivity|split; discriminate].
    destruct (S _ eq_refl) as [S1 S2]. cbn [fst snd] in S1, S2.
    destruct (IH c1) as [N1 S3]; [intros f Hf; apply Ur; right; auto|auto|].
    destruct (occlude_all K c1 rs) as [[res c2]|e|]; cbn [bind]; [|exfalso; apply (N1 e); reflexivity|split; discriminate].
    split; [discriminate|]. intros a E. apply Ok_inj in E. subst a. destruct (S3 _ eq_refl) as [S4 S5]. cbn [fst snd] in *.
    split; [now apply upright_app|auto].
Qed.
Lemma face_height_upright K f p : pl_c (f_plane f) <> 0%Qc -> exists z, face_height K f p = Ok z.
Proof. intros H. unfold face_height. destruct (plane_height_upright K f p H) as [z ->]. cbn [bind]. eauto. Qed.
Lemma brick_height_upright K b p : upright (br_facets b) -> exists z, brick_height K b p = Ok z.
Proof.
  intros U. unfold brick_height. destruct (brick_contains K b p); [|eauto].
  generalize 0%Qc. induction (br_facets b) as [|f l IH]; intros t; cbn [ofold]; [eauto|].
  destruct (face_height_upright K f p) as [z ->]; [apply U; left; auto|]. cbn [bind].
  apply IH. intros g Hg. apply U; right; auto.
Qed.
Lemma is_under_upright K b f : upright (br_facets b) -> pl_c (f_plane f) <> 0%Qc -> forall e, is_under K b f <> Throw e.
Proof.
  intros U H e. unfold is_under. destruct (is_perpendicular f || is_degenerate K f); [discriminate|].
  destruct (sample (outer (f_border f))) as [p|e'|] eqn:S; cbn [bind]; [|apply sample_throws in S; contradiction|discriminate].
  destruct (contains_face K b f); [|discriminate]. destruct (face_height_upright K f p H) as [z ->]. cbn [bind].
  destruct (brick_height_upright K b p U) as [t ->]. discriminate.
Qed.
Lemma add_face_upright K b f : upright (br_facets b) -> pl_c (f_plane f) <> 0%Qc ->
  (forall e, add_face K b f <> Throw e) /\ (forall r, add_face K b f = Ok r -> upright (br_facets r)).
Proof.
  intros U H. assert (U1 : upright [f]) by (intros g [<-|[]]; auto). unfold add_face.
  assert (X : forall o : outcome (list face2), (forall e, o <> Throw e) -> (forall l, o = Ok l -> upright l) ->
    (forall e, (let* fs := o in Ok (mkBrick (box_add (br_box b) (face_box f)) fs)) <> Throw e) /\
    (forall r, (let* fs := o in Ok (mkBrick (box_add (br_box b) (face_box f)) fs)) = Ok r -> upright (br_facets r))).
  { intros o N S. destruct o as [l|e|]; cbn [bind]; [|exfalso; apply (N e); reflexivity|split; discriminate].
    split; [discriminate|]. intros r E. apply Ok_inj in E. subst r. cbn [br_facets]. auto. }
  apply X; clear X; intros z Hz.
  - destruct (br_facets b) as [|g l] eqn:Eb; [discriminate|]. destruct (negb (overlaps K b (f_border f))); [discriminate|].
    destruct (is_under K b f) as [u|e|] eqn:E; cbn [bind] in Hz; [|apply (is_under_upright K b f) in E; auto; now rewrite Eb|discriminate].
    destruct u; [discriminate|]. destruct (occlude_all_upright K (g :: l) [f] U U1) as [N _].
    destruct (occlude_all K [f] (g :: l)) as [[res cs]|e|]; cbn [bind] in Hz; [discriminate|apply (N e); reflexivity|discriminate].
  - destruct (br_facets b) as [|g l] eqn:Eb; [apply Ok_inj in Hz; now subst z|].
    destruct (negb (overlaps K b (f_border f))); [apply Ok_inj in Hz; subst z; now apply upright_app|].
    destruct (is_under K b f) as [u|e|] eqn:E; cbn [bind] in Hz; try discriminate.
    destruct u; [apply Ok_inj in Hz; now subst z|]. destruct (occlude_all_upright K (g :: l) [f] U U1) as [_ S].
    destruct (occlude_all K [f] (g :: l)) as [[res cs]|e|]; cbn [bind] in Hz; try discriminate.
    apply Ok_inj in Hz. subst z. destruct (S _ eq_refl). now apply upright_app.
Qed.
Lemma kept_upright K f : face_empty f || is_degenerate K f = false -> pl_c (f_plane f) <> 0%Qc.
Proof. intros H. apply (filter_upright K [f]). unfold filter_facets. cbn [filter]. rewrite H. left. reflexivity. Qed.

(** C57: whatever the two prints, adding them throws nothing; facets of the sum are neither
    empty nor vertical nor degenerate *)
Theorem C57_no_exception : forall K a b,
  (forall e, add_brick K a b <> Throw e) /\
  (forall r f, add_brick K a b = Ok r -> In f (br_facets r) -> outer (f_border f) <> [] /\ pl_c (f_plane f) <> 0%Qc).
Proof.
  intros K a b. unfold add_brick.
  destruct (ofold_no_throw (fun b => upright (br_facets b)) (fun _ : face2 => True) (fun b f => if face_empty f || is_degenerate K f then Ok b else add_face K b f))
    with (l := br_facets b) (a := brick_filter K a) as [N S].
  { intros c f U _. destruct (face_empty f || is_degenerate K f) eqn:D.
    - split; [discriminate|]. intros c' E. apply Ok_inj in E. now subst.
    - apply add_face_upright; auto. now apply (kept_upright K). }
  { apply filter_upright. }
  { auto. }
  destruct (ofold _ (br_facets b) (brick_filter K a)) as [r|e|]; cbn [bind]; [|exfalso; apply (N e); reflexivity|split; discriminate].
  split; [discriminate|]. intros r' f E Hf. apply Ok_inj in E. subst r'. cbn [brick_filter br_facets] in Hf.
  split; [|now apply (filter_upright K (br_facets r))]. apply filter_In in Hf as [_ Hf]. apply negb_true_iff, orb_false_iff in Hf as [Hf _].
  unfold face_empty in Hf. now destruct (outer (f_border f)).
Qed.
(** hence the logic_error for two places is the only exception of [FootPrint +=] *)
Theorem C57_only_exception : forall K a b e, snd (foot_add K a b) = Throw e -> e = LogicError /\ br_facets (fp_proj a) <> [] /\ ~ same_place a b.
Proof.
  intros K a b e H. assert (e = LogicError) as ->; [|split; [reflexivity|exact (proj1 (proj1 (C57_mismatch K a b)) H)]].
  unfold foot_add in H. destruct (br_facets (fp_proj a)); [discriminate|].
  destruct (pt_neqb (fp_ref a) (fp_ref b) || negb (fp_epsg a =? fp_epsg b)%N); cbn [snd] in H; [congruence|].
  destruct (add_brick K (fp_proj a) (fp_proj b)) as [p|e'|] eqn:E; cbn [snd] in H; try discriminate.
  exfalso. now apply (proj1 (C57_no_exception K (fp_proj a) (fp_proj b)) e').
Qed.
(** operator + works on a copy: the same sum; != is the negation of == *)
Theorem C57_plus_and_neq : forall K,
  (forall a b, brick_plus K a b = add_brick K a b) /\
  (forall a b, brick_neqb a b = true <-> brick_eqb a b = false) /\
  (forall a b, foot_neqb a b = true <-> foot_eqb a b = false) /\
  (forall a b, foot_eqb a b = true <-> pt_eqb (fp_ref a) (fp_ref b) = true /\ fp_epsg a = fp_epsg b /\ brick_eqb (fp_proj a) (fp_proj b) = true).
Proof.
  intros K. split; [intros [x l] b; reflexivity|]. split; [intros; apply negb_true_iff|]. split; [intros; apply negb_true_iff|].
  intros a b. unfold foot_eqb. rewrite !andb_true_iff, N.eqb_eq. tauto.
Qed.

(** ** C98 *)
(** every facet that is kept overlaps the kept print, and lies under it *)
Definition sits_under (K : kernel) (b : brick) : Prop :=
  forall f, In f (br_facets b) -> overlaps K b (f_border f) = true /\ is_under K b f = Ok true.
Definition boxes (b : brick) : option box2 := fold_left box_add (map face_box (br_facets b)) (br_box b).
Lemma under_box K x y l f : is_under K (mkBrick x l) f = is_under K (mkBrick y l) f.
Proof. reflexivity. Qed.
Lemma self_loop K L : upright L -> forall l x, (forall f, In f l -> In f L /\ face_empty f || is_degenerate K f = false) ->
  let o := ofold (fun b f => if face_empty f || is_degenerate K f then Ok b else add_own_face K b f) l (mkBrick x L) in
  ((forall f, In f l -> overlaps K (mkBrick x L) (f_border f) = true /\ is_under K (mkBrick x L) f = Ok true) ->
     o = Ok (mkBrick (fold_left box_add (map face_box l) x) L)) /\
  (~ (forall f, In f l -> overlaps K (mkBrick x L) (f_border f) = true /\ is_under K (mkBrick x L) f = Ok true) -> o = UB).
Proof.
  intros U. induction l as [|f l IH]; intros x Hl.
  - split; [reflexivity|]. intros N. destruct N. intros f [].
  - destruct (Hl f (or_introl eq_refl)) as [Hf Hk]. cbn [ofold map fold_left]. rewrite Hk.
    assert (IH' := IH (box_add x (face_box f)) (fun g Hg => Hl g (or_intror Hg))). clear IH. cbv zeta in IH'. destruct IH' as [I1 I2].
    unfold add_own_face at 1 3. cbn [br_box br_facets].
    destruct (overlaps K (mkBrick x L) (f_border f)) eqn:O; cbn [negb].
    + destruct (is_under K (mkBrick x L) f) as [[|]|e|] eqn:E; cbn [bind].
      * split.
        -- intros A. apply I1. intros g Hg. apply (A g). right; auto.
        -- intros A. apply I2. intros B. apply A. intros g [<-|Hg]; [auto|apply (B g Hg)].
      * assert (X : (let* _ := occlude_all K [f] L in @UB brick) = UB).
        { destruct (occlude_all_upright K L [f]) as [N _]; [auto|intros g [<-|[]]; auto|].
          destruct (occlude_all K [f] L) as [a|e|]; cbn [bind]; auto. exfalso. now apply (N e). }
        rewrite X. cbn [bind]. split; [|reflexivity]. intros A. destruct (A f (or_introl eq_refl)) as [_ Y]. discriminate Y || congruence.
      * exfalso. apply (is_under_upright K (mkBrick x L) f) in E; auto.
      * split; [|reflexivity]. intros A. destruct (A f (or_introl eq_refl)) as [_ Y]. congruence.
    + cbn [bind]. split; [|reflexivity]. intros A. destruct (A f (or_introl eq_refl)) as [Y _]. congruence.
Qed.
(** [b += b] is defined exactly when every kept facet lies under the print made of the kept
    facets; it then only drops the empty and degenerate facets and widens the box.  Otherwise
    it reads freed memory: it never throws. *)
Theorem C98_self_addition : forall K b,
  (sits_under K (brick_filter K b) -> add_brick_self K b = Ok (mkBrick (boxes (brick_filter K b)) (br_facets (brick_filter K b)))) /\
  (~ sits_under K (brick_filter K b) -> add_brick_self K b = UB).
Proof.
  intros K [x l]. unfold add_brick_self, sits_under, boxes. cbv zeta. cbn [brick_filter br_box br_facets]. unfold brick_filter. cbn [br_box br_facets].
  destruct (self_loop K (filter_facets K l) (filter_upright K l) (filter_facets K l) x) as [A B].
  { intros f Hf. split; [auto|]. apply filter_In in Hf as [_ Hf]. now apply negb_true_iff in Hf. }
  split; intros H.
  - rewrite (A H). cbn [bind brick_filter br_box br_facets]. do 2 f_equal.
    unfold filter_facets. clear. induction l as [|f l IH]; [reflexivity|]. cbn [filter].
    destruct (negb (face_empty f || is_degenerate K f)) eqn:E; cbn [filter]; rewrite ?E, ?IH; auto.
  - rewrite (B H). reflexivity.
Qed.
(** where it is defined it does what adding a copy does: [b + b] *)
Theorem C98_agrees_with_copy : forall K b r, add_brick_self K b = Ok r -> brick_plus K b b = Ok r.
Proof.
  intros K [x l] r H. unfold brick_plus, add_brick. cbn [br_box br_facets].
  assert (S : sits_under K (brick_filter K (mkBrick x l))).
  { destruct (C98_self_addition K (mkBrick x l)) as [_ B].
    intros f Hf. destruct (overlaps K (brick_filter K (mkBrick x l)) (f_border f)) eqn:O.
    2: { exfalso. rewrite B in H; [discriminate|]. intros A. destruct (A f Hf). congruence. }
    split; [reflexivity|].
    destruct (is_under K (brick_filter K (mkBrick x l)) f) as [[|]|e|] eqn:E; auto; exfalso; (rewrite B in H; [discriminate|]); intros A; destruct (A f Hf); congruence. }
  destruct (C98_self_addition K (mkBrick x l)) as [A _]. rewrite (A S) in H. apply Ok_inj in H. subst r. clear A.
  unfold sits_under, boxes, brick_filter in *. cbn [br_box br_facets] in *.
  set (L := filter_facets K l) in *.
  assert (G : forall m y, (forall f, In f m -> In f l) ->
    ofold (fun b f => if face_empty f || is_degenerate K f then Ok b else add_face K b f) m (mkBrick y L) =
    Ok (mkBrick (fold_left box_add (map face_box (filter_facets K m)) y) L)).
  { induction m as [|f m IH]; intros y Hm; [reflexivity|]. cbn [ofold]. unfold filter_facets at 1. cbn [filter].
    destruct (face_empty f || is_degenerate K f) eqn:D; cbn [negb bind].
    - apply IH. intros; apply Hm; right; auto.
    - assert (Hf : In f L) by (apply filter_In; split; [apply Hm; left; auto|now rewrite D]).
      destruct (S f Hf) as [O E]. unfold add_face at 1. cbn [br_box br_facets].
      destruct L as [|g L'] eqn:EL; [destruct Hf|].
      change (overlaps K (mkBrick y (g :: L')) (f_border f)) with (overlaps K (mkBrick x (g :: L')) (f_border f)). rewrite O. cbn [negb].
      change (is_under K (mkBrick y (g :: L')) f) with (is_under K (mkBrick x (g :: L')) f). rewrite E. cbn [bind map fold_left].
      apply IH. intros; apply Hm; right; auto. }
  rewrite G by auto. cbn [bind br_box br_facets]. do 2 f_equal.
  unfold L, filter_facets. clear. induction l as [|f l IH]; [reflexivity|]. cbn [filter].
  destruct (negb (face_empty f || is_degenerate K f)) eqn:E; cbn [filter]; rewrite ?E, ?IH; auto.
Qed.
(** [f += f] of footprints: nothing on an empty print; a reference point with a NaN is not the
    same place as itself *)
Theorem C98_footprints : forall K a,
  (br_facets (fp_proj a) = [] -> foot_add_self K a = (a, Ok tt)) /\
  (br_facets (fp_proj a) <> [] ->
    (snd (foot_add_self K a) = Throw LogicError <-> disnan (px (fp_ref a)) = true \/ disnan (py (fp_ref a)) = true \/ disnan (pz (fp_ref a)) = true) /\
    (forall e, snd (foot_add_self K a) = Throw e -> e = LogicError /\ fst (foot_add_self K a) = a) /\
    (pt_eqb (fp_ref a) (fp_ref a) = true -> snd (foot_add_self K a) = UB <-> ~ sits_under K (brick_filter K (fp_proj a)))).
Proof.
  intros K a. unfold foot_add_self. destruct (br_facets (fp_proj a)) as [|x l] eqn:E; [split; [reflexivity|congruence]|].
  split; [discriminate|]. intros _. rewrite N.eqb_refl. cbn [negb]. rewrite orb_false_r. unfold pt_neqb.
  assert (D : forall d, deqb d d = negb (disnan d)).
  { intros d. destruct d as [[|]|[|]| |[|] m e]; try reflexivity; unfold deqb, SFeqb, SFcompare; rewrite Z.compare_refl, ?Pos.compare_cont_refl, ?Pos.compare_refl; reflexivity. }
  assert (T : negb (pt_eqb (fp_ref a) (fp_ref a)) = true <-> disnan (px (fp_ref a)) = true \/ disnan (py (fp_ref a)) = true \/ disnan (pz (fp_ref a)) = true).
  { unfold pt_eqb. rewrite !D. destruct (disnan (px (fp_ref a))), (disnan (py (fp_ref a))), (disnan (pz (fp_ref a))); cbn; intuition discriminate. }
  destruct (C98_self_addition K (fp_proj a)) as [A B].
  assert (N : forall e, add_brick_self K (fp_proj a) <> Throw e).
  { intros e H. destruct (add_brick_self K (fp_proj a)) eqn:EE; try discriminate.
    assert (~ ~ sits_under K (brick_filter K (fp_proj a))) as NN by (intros X; apply B in X; congruence).
    apply NN. intros X. apply A in X. congruence. }
  destruct (negb (pt_eqb (fp_ref a) (fp_ref a))) eqn:P.
  - cbn [snd fst]. split; [tauto|]. split; [intros e H; split; congruence|]. apply negb_true_iff in P. congruence.
  - destruct (add_brick_self K (fp_proj a)) as [p|e|] eqn:EE; cbn [snd fst]; [|exfalso; now apply (N e)|].
    + split; [split; [discriminate|intros X; apply T in X; congruence]|]. split; [discriminate|].
      intros _. split; [discriminate|]. intros X. apply B in X. congruence.
    + split; [split; [discriminate|intros X; apply T in X; congruence]|]. split; [discriminate|].
      intros _. split; [|reflexivity]. intros _ X. apply A in X. congruence.
Qed.
(** two strips side by side: nothing happens.  A flat roof below level 0 over another one is
    above the sum of the heights: the vector is replaced while it is being read. *)
Example C98_example :
  (exists r, add_brick_self strips (mkBrick None [bar 1 0 1 (level_at 1); bar 2 1 2 (level_at 3)]) = Ok r /\ bars r = [(1, (q 0, q 1)); (2, (q 1, q 2))]) /\
  add_brick_self strips (mkBrick None [bar 1 0 2 (level_at (-1)); bar 2 0 2 (level_at (-3))]) = UB /\
  (exists r, brick_plus strips (mkBrick None [bar 1 0 2 (level_at (-1)); bar 2 0 2 (level_at (-3))]) (mkBrick None [bar 1 0 2 (level_at (-1)); bar 2 0 2 (level_at (-3))]) = Ok r).
Proof.
  split; [|split].
  - eexists. split; vm_compute; reflexivity.
  - vm_compute. reflexivity.
  - eexists. vm_compute. reflexivity.
Qed.
