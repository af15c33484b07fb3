(** * C101: rasters in double arithmetic, when the box coordinates and the pixel size are multiples of a
    common power of two. *)
From Verif Require Import Base Dbl Geom Decimal Shadow Streams Handlers Surface Projection Raster Spec_projection Spec_raster Raster_proofs Rect Spec_text Spec_arith Arith_proofs Rn_proofs Lattice_proofs.
From Coq Require Import QArith Qabs Qcanon Qround Lqa Lia.
From Verif Require Round_proofs Props_height Props_raster.
Notation pw := Round_proofs.pw.
Notation zq := Round_proofs.qz.
Open Scope nat_scope.

(** ** Vocabulary *)
(** [q] is a multiple of 2^e, by less than 2^51 *)
Definition on_lattice (e : Z) (q : Qc) : Prop := exists n, (Z.abs n < 2 ^ 51)%Z /\ (this q == inject_Z n * 2 ^ e)%Q.
(** the four sides of a box are *)
Definition lattice_box (e : Z) (b : box2) : Prop := on_lattice e (xmin b) /\ on_lattice e (xmax b) /\ on_lattice e (ymin b) /\ on_lattice e (ymax b).
(** the box of a facet that is drawn is *)
Definition lattice_facet (K : kernel) (e : Z) (f : face2) : Prop := is_degenerate K f = true \/ exists b, face_box f = Some b /\ lattice_box e b.

Lemma lattice_lat e q n : (this q == inject_Z n * 2 ^ e)%Q <-> (this q == zq n * pw 2 e)%Q.
Proof. reflexivity. Qed.

(** ** The height of a facet in a pixel: the double computation gives a height when the exact one does *)
Lemma mean_point_doubles l : l <> [] -> exists p, mean_point doubles l = Ok p.
Proof. destruct l; [congruence|]. intros _. eexists. reflexivity. Qed.
Lemma unique_nonempty {X} eqb (l : list X) : l <> [] -> unique eqb l <> [].
Proof. destruct l as [|a [|b l]]; try congruence; intros _; cbn [unique]; [discriminate|]. destruct (eqb a b); discriminate. Qed.
Lemma centroid_doubles l : l <> [] -> exists p, centroid doubles l = Ok p.
Proof. intros H. apply mean_point_doubles. apply unique_nonempty. destruct l; [congruence|discriminate]. Qed.
Lemma steep_doubles f p : steep f -> exists z, iplane_height doubles f p = Ok z.
Proof.
  intros S. destruct (iplane_height doubles f p) as [z|x|] eqn:E; [eauto| |]; exfalso.
  - assert (x = OverflowError) as -> by (unfold iplane_height in E; destruct (n_ltb _ _ _); [congruence|discriminate]). apply Props_height.C97_vertical in E.
    assert (this epsilon <= Qabs (this (pl_c (f_plane f))))%Q as G.
    { destruct S as [S|S].
      - eapply Qle_trans; [exact S|]. apply Qle_Qabs.
      - rewrite <- Qabs_opp. eapply Qle_trans; [|apply Qle_Qabs]. unfold Qcle in S. rewrite this_opp in S. lra. }
    apply (Qlt_not_le _ _ E). eapply Qle_trans; [|exact G]. apply Qle_bool_iff. vm_compute. reflexivity.
  - unfold iplane_height in E. destruct (n_ltb _ _ _); discriminate.
Qed.
Lemma heights_doubles f k (ps : list poly) : steep f -> (forall q, In q ps -> outer q <> []) -> forall t,
  exists z, ofold (fun t p => let* c := centroid doubles (outer p) in let* h := iplane_height doubles f c in Ok (dadd t (ddiv h k))) ps t = Ok z.
Proof.
  intros S. induction ps as [|p ps IH]; intros V t; cbn [ofold]; [eauto|].
  destruct (centroid_doubles (outer p)) as (c & Ec); [apply V; now left|]. rewrite Ec. cbn [bind]. destruct (steep_doubles f c S) as (h & Eh). rewrite Eh. cbn [bind].
  apply IH. intros q I. apply V. now right.
Qed.
Lemma pixel_doubles K f x y s X Y S : cuts_have_vertices K -> steep f -> represents x (this X) -> represents y (this Y) ->
  represents (dadd x s) (this (X + S)%Qc) -> represents (dsub y s) (this (Y - S)%Qc) ->
  (pixel_height exact K f X Y S = Ok None -> pixel_height doubles K f x y s = Ok None) /\
  (forall z, pixel_height exact K f X Y S = Ok (Some z) -> exists z', pixel_height doubles K f x y s = Ok (Some z')).
Proof.
  intros V St Hx Hy Hxs Hys. apply Props_height.represents_qd in Hx as (Hx & _). apply Props_height.represents_qd in Hy as (Hy & _). apply Props_height.represents_qd in Hxs as (Hxs & _). apply Props_height.represents_qd in Hys as (Hys & _).
  assert (pixel_pieces doubles K f x y s = pixel_pieces exact K f X Y S) as E.
  { unfold pixel_pieces, pixel_square. cbn [n_toq n_add n_sub doubles exact]. now rewrite Hx, Hy, Hxs, Hys. }
  unfold pixel_height. rewrite E. destruct (pixel_pieces exact K f X Y S) as [|p ps] eqn:Ep.
  - split; [auto|]. intros z H. discriminate.
  - split; [intros H; destruct (ofold _ _ _) in H; discriminate|]. intros z _.
    destruct (heights_doubles f (dofZ (Z.of_nat (length (p :: ps)))) (p :: ps) St) with (t := dofZ 0) as (z' & Ez).
    { intros q I. rewrite <- Ep in I. eapply V. exact I. }
    exists z'. match goal with |- bind ?e _ = _ => assert (e = Ok z') as -> by exact Ez end. reflexivity.
Qed.

(** ** Drawing a facet *)
Definition mean_d (v : dbl) (c : Z) (z : dbl) : dbl := ddiv (dadd (dmul v (dofZ c)) z) (dofZ (wrap16 (c + 1))).
Lemma put_pixel_dspec (img : list dbl) hits k v c z : nth_error img (N.to_nat k) = Some v -> nth_error hits (N.to_nat k) = Some c ->
  put_pixel doubles (img, hits) k z = Ok (set_nth img (N.to_nat k) (mean_d v c z), set_nth hits (N.to_nat k) (wrap16 (c + 1))).
Proof.
  intros H1 H2. unfold put_pixel. cbn [fst snd]. change (Raster.num doubles) with dbl. rewrite (vatN_Ok _ _ _ H1). cbn [bind]. rewrite (vatN_Ok _ _ _ H2). cbn [bind]. reflexivity.
Qed.
Lemma puts_dspec (key : N -> N) (o : N -> option dbl) (step : list dbl * list Z -> N -> outcome (list dbl * list Z)) l :
  (forall img idx, In idx l -> step img idx = match o idx with None => Ok img | Some z => put_pixel doubles img (key idx) z end) ->
  NoDup (map key l) -> forall img hits, length img = length hits -> (forall idx, In idx l -> N.to_nat (key idx) < length img) ->
  exists img' hits', ofold step l (img, hits) = Ok (img', hits') /\ length img' = length img /\ length hits' = length img /\
    forall k v c, nth_error img k = Some v -> nth_error hits k = Some c ->
      (forall idx z, In idx l -> N.to_nat (key idx) = k -> o idx = Some z -> nth_error img' k = Some (mean_d v c z) /\ nth_error hits' k = Some (wrap16 (c + 1))) /\
      ((forall idx, In idx l -> N.to_nat (key idx) = k -> o idx = None) -> nth_error img' k = Some v /\ nth_error hits' k = Some c).
Proof.
  induction l as [|idx l IH]; intros Hs ND img hits L B.
  - exists img, hits. cbn [ofold]. repeat split; auto; try contradiction.
  - inversion ND as [|? ? NI ND']; subst. pose proof (B idx (or_introl eq_refl)) as Bi.
    destruct (nth_lt img _ Bi) as (v0 & E0). assert (Bi' : N.to_nat (key idx) < length hits) by lia. destruct (nth_lt hits _ Bi') as (c0 & F0).
    cbn [ofold]. rewrite Hs by (left; auto). destruct (o idx) as [z|] eqn:Eo.
    + rewrite (put_pixel_dspec _ _ _ _ _ _ E0 F0). cbn [bind].
      destruct (IH (fun img i Hi => Hs img i (or_intror Hi)) ND' (set_nth img (N.to_nat (key idx)) (mean_d v0 c0 z)) (set_nth hits (N.to_nat (key idx)) (wrap16 (c0 + 1)))) as (img' & hits' & E & L1 & L2 & S).
      * rewrite !set_nth_length; auto.
      * intros i Hi. rewrite set_nth_length by auto. apply B. right; auto.
      * exists img', hits'. rewrite set_nth_length in L1, L2 by auto. split; [exact E|]. split; [exact L1|]. split; [exact L2|].
        intros k v c Ev Ec. destruct (Nat.eq_dec k (N.to_nat (key idx))) as [->|Nk].
        -- rewrite E0 in Ev. injection Ev as <-. rewrite F0 in Ec. injection Ec as <-.
           destruct (S (N.to_nat (key idx)) _ _ (set_nth_same img (N.to_nat (key idx)) (mean_d v0 c0 z) Bi) (set_nth_same hits (N.to_nat (key idx)) (wrap16 (c0 + 1)) Bi')) as [_ S2].
           assert (U : forall i, In i l -> N.to_nat (key i) = N.to_nat (key idx) -> o i = None).
           { intros i Hi Ek. exfalso. apply NI. apply in_map_iff. exists i. split; auto. lia. }
           specialize (S2 U). split.
           ++ intros i z' [<-|Hi] Ek Ez; [rewrite Eo in Ez; injection Ez as <-; exact S2|]. rewrite (U i Hi Ek) in Ez. discriminate.
           ++ intros HH. specialize (HH idx (or_introl eq_refl) eq_refl). congruence.
        -- assert (Ev' : nth_error (set_nth img (N.to_nat (key idx)) (mean_d v0 c0 z)) k = Some v) by (rewrite set_nth_other; auto).
           assert (Ec' : nth_error (set_nth hits (N.to_nat (key idx)) (wrap16 (c0 + 1))) k = Some c) by (rewrite set_nth_other; auto).
           destruct (S k v c Ev' Ec') as [S1 S2]. split.
           ++ intros i z' [<-|Hi] Ek Ez; [congruence|]. eapply S1; eauto.
           ++ intros HH. apply S2. intros i Hi. apply HH. right; auto.
    + cbn [bind]. destruct (IH (fun img i Hi => Hs img i (or_intror Hi)) ND' img hits L (fun i Hi => B i (or_intror Hi))) as (img' & hits' & E & L1 & L2 & S).
      exists img', hits'. split; [exact E|]. split; [exact L1|]. split; [exact L2|]. intros k v c Ev Ec. destruct (S k v c Ev Ec) as [S1 S2]. split.
      * intros i z' [<-|Hi] Ek Ez; [congruence|]. eapply S1; eauto.
      * intros HH. apply S2. intros i Hi. apply HH. right; auto.
Qed.
(** heights collected one after the other: the mean of c heights, times c, plus the next, divided by c + 1 *)
Definition running (ds : list dbl) : dbl :=
  snd (fold_left (fun cv d => (fst cv + 1, ddiv (dadd (dmul (snd cv) (dofZ (fst cv))) d) (dofZ (fst cv + 1)))%Z) ds (0%Z, dzero)).
Lemma running_snoc ds d : running (ds ++ [d]) = ddiv (dadd (dmul (running ds) (dofZ (Z.of_nat (length ds)))) d) (dofZ (Z.of_nat (length ds) + 1)).
Proof.
  unfold running. rewrite fold_left_app. cbn [fold_left snd]. assert (X : forall ds c v, fst (fold_left (fun cv d => (fst cv + 1, ddiv (dadd (dmul (snd cv) (dofZ (fst cv))) d) (dofZ (fst cv + 1)))%Z) ds (c, v)) = (c + Z.of_nat (length ds))%Z).
  { clear. induction ds as [|d ds IH]; intros c v; cbn [fold_left length]; [cbn [fst]; lia|]. rewrite IH. cbn [fst]. lia. }
  rewrite X. reflexivity.
Qed.

(** pixels of a facet: the corner after [k] steps *)
Lemma steps_inside len s k w : (0 < s)%Qc -> n_ceil exact (len / s)%Qc = Ok w -> (k < w)%N -> (qn k * s < len)%Qc.
Proof.
  intros Hs E L. cbn [n_ceil exact] in E. unfold to_size in E. destruct (_ && _)%bool eqn:Q in E; [|discriminate]. apply Ok_inj in E. subst w.
  apply andb_true_iff in Q as [Q1 Q2]. apply Z.leb_le in Q1. assert (Z.of_N k + 1 <= Qceiling (this (len / s)%Qc))%Z as L' by lia.
  assert (qn k < len / s)%Qc as G. { unfold Qclt, qn. rewrite this_qz. apply Qle_lt_trans with (inject_Z (Qceiling (this (len / s)%Qc) - 1)); [rewrite <- Zle_Qle; lia|apply Qceiling_lt]. }
  apply (Qclt_scale s) in G; auto. rewrite Qcmult_div in G; auto.
Qed.
(** [q] is below 2^53 * 2^e *)
Definition near (e : Z) (q : Qc) : Prop := (Qabs (this q) <= zq (2 ^ 53) * pw 2 e)%Q.
Lemma near_lat e q n : (this q == zq n * pw 2 e)%Q -> (Z.abs n < 2 ^ 53)%Z -> near e q.
Proof.
  intros E L. unfold near. rewrite E, Qabs_Qmult. pose proof (Round_proofs.pw_pos 2 e ltac:(lia)) as Pe. rewrite (Qabs_pos (pw 2 e)) by lra. apply (Qmult_le_r _ _ _ Pe).
  change (Qabs (zq n)) with (zq (Z.abs n)). apply (proj1 (Round_proofs.qz_le _ _)). lia.
Qed.
Section DRAW.
Context (K : kernel) (e : Z) (He : (-1074 <= e <= 971)%Z).
Context (B : box2) (s : dbl) (S : Qc) (k : Z) (H W : N).
Context (Hk : (0 < k < 2 ^ 51)%Z) (Es : (this S == zq k * pw 2 e)%Q) (Ls : lat e s k).
Context (LB : lattice_box e B) (V : cuts_have_vertices K) (G : grid B S H W).
Lemma S_pos : (0 < S)%Qc.
Proof. unfold Qclt. rewrite Es. change (this 0%Qc) with 0%Q. apply Qmult_lt_0_compat; [apply Round_proofs.qz_pos; lia|apply Round_proofs.pw_pos; lia]. Qed.
(** differences and quotients *)
Lemma diff_quot p q n m : (this p == zq n * pw 2 e)%Q -> (this q == zq m * pw 2 e)%Q -> (Z.abs n < 2 ^ 51)%Z -> (Z.abs m < 2 ^ 51)%Z -> (q <= p)%Qc ->
  (m <= n)%Z /\ n_floor doubles (ddiv (dsub (dq p) (dq q)) s) = n_floor exact ((p - q) / S)%Qc /\ n_ceil doubles (ddiv (dsub (dq p) (dq q)) s) = n_ceil exact ((p - q) / S)%Qc.
Proof.
  intros Ep Eq Ln Lm Le. pose proof (Round_proofs.pw_pos 2 e ltac:(lia)) as Pe. pose proof (Round_proofs.qz_pos k ltac:(lia)) as Pk.
  assert (m <= n)%Z as L. { unfold Qcle in Le. rewrite Ep, Eq in Le. apply (proj1 (Qmult_le_r _ _ _ Pe)) in Le. now apply (proj2 (Round_proofs.qz_le _ _)) in Le. }
  split; auto. apply (lat_floor e _ _ (n - m) k); auto; try lia.
  - apply lat_sub; auto; [apply lat_dq; auto; lia|apply lat_dq; auto; lia|lia].
  - assert (this ((p - q) / S)%Qc == (this p - this q) / this S)%Q as -> by (unfold Qcdiv, Qcmult, Qcinv; rewrite !Dq_proofs.this_Q2Qc, this_minus; reflexivity).
    rewrite Ep, Eq, Es. unfold Round_proofs.rat. rewrite Round_proofs.qz_sub. field. lra.
Qed.
(** in some pixel's square, [z] and [z'] are the heights of [f] computed exactly and with doubles *)
Definition both_heights (f : face2) (z : Qc) (z' : dbl) : Prop := exists x y X Y, near e X /\ near e (X + S) /\ near e Y /\ near e (Y - S) /\ represents x (this X) /\ represents y (this Y) /\ represents (dadd x s) (this (X + S)%Qc) /\ represents (dsub y s) (this (Y - S)%Qc) /\
  pixel_height exact K f X Y S = Ok (Some z) /\ pixel_height doubles K f x y s = Ok (Some z').
Lemma rasterize_doubles f (img : list dbl) hits : lattice_facet K e f -> drawable K B f -> nsize img = (H * W)%N -> nsize hits = (H * W)%N ->
  exists img' hits', rasterize doubles K (img, hits) (dq (xmin B)) (dq (ymax B)) H W s f = Ok (img', hits') /\ nsize img' = (H * W)%N /\ nsize hits' = (H * W)%N /\
    forall i j v c, (i < H)%N -> (j < W)%N -> nth_error img (N.to_nat (i * W + j)) = Some v -> nth_error hits (N.to_nat (i * W + j)) = Some c ->
      (forall z, gives K B S f i j z -> exists z', both_heights f z z' /\ nth_error img' (N.to_nat (i * W + j)) = Some (mean_d v c z') /\ nth_error hits' (N.to_nat (i * W + j)) = Some (wrap16 (c + 1))) /\
      ((forall z, ~ gives K B S f i j z) -> nth_error img' (N.to_nat (i * W + j)) = Some v /\ nth_error hits' (N.to_nat (i * W + j)) = Some c).
Proof.
  intros LF D L1 L2. pose proof G as (C1 & C2 & (B1 & B2 & B3) & _). unfold rasterize. pose proof S_pos as Hs.
  destruct (is_degenerate K f) eqn:Ed.
  { exists img, hits. split; [reflexivity|]. split; auto. split; auto. intros i j v c Hi Hj Ev Ec. split; auto. intros z (Gz & _). congruence. }
  destruct LF as [LF|(b & Eb & Lb)]; [congruence|]. destruct D as [D|(bx & Eb' & Le & St)]; [congruence|]. rewrite Eb in Eb'. injection Eb' as <-. rewrite Eb.
  pose proof (ring_box_wf (outer (f_border f))) as Wf. change (ring_box (outer (f_border f))) with (face_box f) in Wf. rewrite Eb in Wf. destruct Wf as [Wx Wy].
  destruct (box_le_inv _ _ Le Wx Wy) as (X0 & X1 & Y0 & Y1).
  cbn [n_ofq doubles n_sub n_div Raster.num].
  destruct LB as ((bx0 & Bx0 & Ex0) & (bx1 & Bx1 & Ex1) & (by0 & By0 & Ey0) & (by1 & By1 & Ey1)).
  destruct Lb as ((x0 & Lx0 & Fx0) & (x1 & Lx1 & Fx1) & (y0 & Ly0 & Fy0) & (y1 & Ly1 & Fy1)).
  rewrite lattice_lat in *.
  destruct (diff_quot (ymax B) (ymax b) by1 y1) as (M1 & Q1 & _); auto.
  destruct (diff_quot (xmin b) (xmin B) x0 bx0) as (M2 & Q2 & _); auto.
  destruct (diff_quot (xmax b) (xmin b) x1 x0) as (M3 & _ & Q3); auto.
  destruct (diff_quot (ymax b) (ymin b) y1 y0) as (M4 & _ & Q4); auto.
  rewrite Q1, Q2, Q3, Q4. clear Q1 Q2 Q3 Q4.
  assert (P1 : (0 <= ymax B - ymax b)%Qc) by (clear - Y1; ql).
  assert (P2 : (0 <= xmin b - xmin B)%Qc) by (clear - X0; ql).
  assert (P3 : (0 <= ymax b - ymin b)%Qc) by (clear - Wy; ql).
  assert (P4 : (0 <= xmax b - xmin b)%Qc) by (clear - Wx; ql).
  assert (Q1 : (ymax B - ymax b + (ymax b - ymin b) <= ymax B - ymin B)%Qc) by (clear - Y0; ql).
  assert (Q2 : (xmin b - xmin B + (xmax b - xmin b) <= xmax B - xmin B)%Qc) by (clear - X1; ql).
  destruct (floor_steps (ymax B - ymax b) S Hs P1) as (i0 & Ei0 & Si0).
  { apply floor_bound with H; auto. destruct C1 as [C1 _]. eapply Qcle_trans; [|exact C1]. clear - Q1 P3. ql. }
  destruct (floor_steps (xmin b - xmin B) S Hs P2) as (j0 & Ej0 & Sj0).
  { apply floor_bound with W; auto. destruct C2 as [C2 _]. eapply Qcle_trans; [|exact C2]. clear - Q2 P4. ql. }
  destruct (cells_ex _ _ Hs P3) as (h & Ch). destruct (cells_ex _ _ Hs P4) as (w & Cw).
  pose proof (bound_cells _ _ _ _ _ _ _ Hs Si0 Ch C1 Q1 P3) as Bh. pose proof (bound_cells _ _ _ _ _ _ _ Hs Sj0 Cw C2 Q2 P4) as Bw.
  assert (Eh : n_ceil exact ((ymax b - ymin b) / S)%Qc = Ok h) by (apply ceil_cells; auto; lia).
  assert (Ew : n_ceil exact ((xmax b - xmin b) / S)%Qc = Ok w) by (apply ceil_cells; auto; lia).
  rewrite Ei0. cbn [bind]. rewrite Ej0. cbn [bind]. rewrite Ew. cbn [bind]. rewrite Eh. cbn [bind].
  assert (Mwh : (w * h <= H * W)%N) by nia. unfold max_indexes in *.
  rewrite (wrap64_small (i0 + h)), (wrap64_small (j0 + w)), (wrap64_small (w * h)) by (unfold two64 in *; lia).
  replace ((H <? i0 + h) && (W <? j0 + w))%N with false by lia.
  replace (1152921504606846975 <? w * h)%N with false by lia.
  assert (Kw : forall idx, In idx (iota (w * h)) -> (w <> 0 /\ idx mod w < w /\ idx / w < h)%N).
  { intros idx Hi. apply In_iota in Hi. assert (w <> 0)%N by nia. repeat split; auto; [apply N.mod_lt; auto|]. apply N.div_lt_upper_bound; auto. }
  set (val := fun idx => pixel_height doubles K f (n_add doubles (dq (xmin b)) (n_mul doubles (n_of doubles (Z.of_N (idx mod w))) s)) (n_sub doubles (dq (ymax b)) (n_mul doubles (n_of doubles (Z.of_N (idx / w))) s)) s).
  set (o := fun idx => match val idx with Ok o => o | _ => None end).
  set (key := fun idx => ((i0 + idx / w) * W + j0 + idx mod w)%N).
  assert (Vo : forall idx, In idx (iota (w * h)) -> val idx = Ok (o idx) /\ match o idx with
      | Some z' => exists z, both_heights f z z' /\ seen_in K f (xmin b + qn (idx mod w) * S) (ymax b - qn (idx / w) * S) S z
      | None => forall z, ~ seen_in K f (xmin b + qn (idx mod w) * S) (ymax b - qn (idx / w) * S) S z end).
  { intros idx Hi. destruct (Kw idx Hi) as (Nw & Lc & Lr).
    pose proof (steps_inside _ _ _ _ Hs Ew Lc) as Sc. pose proof (steps_inside _ _ _ _ Hs Eh Lr) as Sr. unfold o, val. set (c := (idx mod w)%N) in *. set (r := (idx / w)%N) in *. clearbody c r.
    pose proof (Round_proofs.pw_pos 2 e ltac:(lia)) as Pe.
    assert (Z.of_N c * k < x1 - x0)%Z as Zc.
    { unfold Qclt in Sc. rewrite this_minus in Sc. unfold Qcmult, qn in Sc. rewrite Dq_proofs.this_Q2Qc, this_qz, Es, Fx1, Fx0 in Sc. apply (proj2 (Round_proofs.qz_lt _ _)). apply (proj1 (Qmult_lt_r _ _ _ Pe)).
      rewrite Round_proofs.qz_mul, Round_proofs.qz_sub. eapply Qle_lt_trans; [|eapply Qlt_le_trans; [exact Sc|]]; apply Qle_lteq; right; unfold Round_proofs.qz; ring. }
    assert (Z.of_N r * k < y1 - y0)%Z as Zr.
    { unfold Qclt in Sr. rewrite this_minus in Sr. unfold Qcmult, qn in Sr. rewrite Dq_proofs.this_Q2Qc, this_qz, Es, Fy1, Fy0 in Sr. apply (proj2 (Round_proofs.qz_lt _ _)). apply (proj1 (Qmult_lt_r _ _ _ Pe)).
      rewrite Round_proofs.qz_mul, Round_proofs.qz_sub. eapply Qle_lt_trans; [|eapply Qlt_le_trans; [exact Sr|]]; apply Qle_lteq; right; unfold Round_proofs.qz; ring. }
    cbn [n_add n_sub n_mul n_of doubles].
    assert (this (xmin b + qn c * S)%Qc == zq (x0 + Z.of_N c * k) * pw 2 e)%Q as EX.
    { rewrite this_plus. unfold Qcmult, qn. rewrite Dq_proofs.this_Q2Qc, this_qz, Fx0, Es, Round_proofs.qz_add, Round_proofs.qz_mul. unfold Round_proofs.qz. ring. }
    assert (this (ymax b - qn r * S)%Qc == zq (y1 - Z.of_N r * k) * pw 2 e)%Q as EY.
    { rewrite this_minus. unfold Qcmult, qn. rewrite Dq_proofs.this_Q2Qc, this_qz, Fy1, Es, Round_proofs.qz_sub, Round_proofs.qz_mul. unfold Round_proofs.qz. ring. }
    assert (0 <= Z.of_N c <= Z.of_N c * k)%Z as Pc by (clear - Hk; nia). assert (0 <= Z.of_N r <= Z.of_N r * k)%Z as Pr by (clear - Hk; nia).
    assert (lat e (dmul (dofZ (Z.of_N c)) s) (Z.of_N c * k)) as MC by (apply lat_mul; auto; [apply dofZ_int; lia|lia]).
    assert (lat e (dmul (dofZ (Z.of_N r)) s) (Z.of_N r * k)) as MR by (apply lat_mul; auto; [apply dofZ_int; lia|lia]).
    set (ck := (Z.of_N c * k)%Z) in *. set (rk := (Z.of_N r * k)%Z) in *. clearbody ck rk.
    assert (lat e (dadd (dq (xmin b)) (dmul (dofZ (Z.of_N c)) s)) (x0 + ck)) as LX.
    { apply lat_add; [exact He|apply lat_dq; auto; lia|exact MC|lia]. }
    assert (lat e (dsub (dq (ymax b)) (dmul (dofZ (Z.of_N r)) s)) (y1 - rk)) as LY.
    { apply lat_sub; [exact He|apply lat_dq; auto; lia|exact MR|lia]. }
    assert (lat e (dadd (dadd (dq (xmin b)) (dmul (dofZ (Z.of_N c)) s)) s) (x0 + ck + k)) as LXs by (apply lat_add; auto; lia).
    assert (lat e (dsub (dsub (dq (ymax b)) (dmul (dofZ (Z.of_N r)) s)) s) (y1 - rk - k)) as LYs by (apply lat_sub; auto; lia).
    assert (this (xmin b + qn c * S + S)%Qc == zq (x0 + ck + k) * pw 2 e)%Q as EXs by (rewrite this_plus, EX, Es, !Round_proofs.qz_add; ring).
    assert (this (ymax b - qn r * S - S)%Qc == zq (y1 - rk - k) * pw 2 e)%Q as EYs by (rewrite this_minus, EY, Es, !Round_proofs.qz_sub; ring).
    pose proof (represents_ext _ _ _ (Qeq_sym _ _ EX) LX) as RX. pose proof (represents_ext _ _ _ (Qeq_sym _ _ EY) LY) as RY.
    assert (represents (dadd (dadd (dq (xmin b)) (dmul (dofZ (Z.of_N c)) s)) s) (this (xmin b + qn c * S + S)%Qc)) as RXs.
    { eapply represents_ext; [symmetry; exact EXs|exact LXs]. }
    assert (represents (dsub (dsub (dq (ymax b)) (dmul (dofZ (Z.of_N r)) s)) s) (this (ymax b - qn r * S - S)%Qc)) as RYs.
    { eapply represents_ext; [symmetry; exact EYs|exact LYs]. }
    destruct (pixel_doubles K f _ _ s _ _ S V St RX RY RXs RYs) as [P5 P6].
    destruct (pixel_height_exact K f (xmin b + qn c * S)%Qc (ymax b - qn r * S)%Qc S St V) as (z & E & Sz).
    destruct z as [z|].
    - destruct (P6 z E) as (z' & E'). rewrite E'. split; auto. exists z. split; auto. eexists _, _, _, _.
      split; [apply (near_lat e _ _ EX); lia|]. split; [apply (near_lat e _ _ EXs); lia|]. split; [apply (near_lat e _ _ EY); lia|]. split; [apply (near_lat e _ _ EYs); lia|]. split; [exact RX|]. split; [exact RY|]. auto.
    - rewrite (P5 E). auto. }
  assert (Kk : forall idx, In idx (iota (w * h)) -> (key idx < H * W)%N).
  { intros idx Hi. destruct (Kw idx Hi) as (H0 & H1 & H2). unfold key. set (r := (idx / w)%N) in *. set (c := (idx mod w)%N) in *. assert ((i0 + r) * W + W <= H * W)%N by (clearbody r; clear - Bh Bw H2; nia). lia. }
  assert (Ik : forall i i', In i (iota (w * h)) -> In i' (iota (w * h)) -> key i = key i' -> i = i').
  { intros i i' Hi Hi' E. destruct (Kw i Hi) as (? & ? & ?). destruct (Kw i' Hi') as (? & ? & ?). unfold key in E. rewrite <- !N.add_assoc in E.
    apply div_key in E as [E1 E2]; try lia. rewrite (N.div_mod i w), (N.div_mod i' w) by auto. f_equal; [f_equal|]; lia. }
  destruct (puts_dspec key o (fun img index => let* z := val index in match z with None => Ok img | Some z => put_pixel doubles img (wrap64 (wrap64 (i0 + index / w) * W + j0 + index mod w)) z end) (iota (w * h))) with (img := img) (hits := hits)
    as (img' & hits' & E & N1 & N2 & Sp).
  + intros im idx Hi. destruct (Vo idx Hi) as [Ev _]. rewrite Ev. cbn [bind]. destruct (o idx); auto. f_equal.
    destruct (Kw idx Hi) as (? & ? & ?). specialize (Kk idx Hi). unfold key in *. rewrite (wrap64_small (i0 + idx / w)) by (unfold two64 in *; lia).
    apply wrap64_small. unfold two64 in *. lia.
  + pose proof (NoDup_iota (w * h)) as ND. revert Ik ND. generalize (iota (w * h)). clear. intros l Ik ND. induction ND as [|a l NI ND IH]; [constructor|].
    cbn [map]. constructor.
    * intros HI. apply in_map_iff in HI as (a' & Ea & Ha'). apply NI. rewrite <- (Ik a' a); auto; [right|left]; auto.
    * apply IH. intros ? ? ? ?. apply Ik; right; auto.
  + unfold nsize in *. lia.
  + intros idx Hi. specialize (Kk idx Hi). unfold nsize in L1. lia.
  + exists img', hits'. split; [exact E|]. unfold nsize in *. split; [lia|]. split; [lia|].
    intros i j v c Hi Hj Ev Ec. destruct (Sp _ _ _ Ev Ec) as [S1 S2]. split.
    * intros z Gz. pose proof Gz as (_ & b' & x & y & Eb' & (i0' & j0' & h' & w' & a & kk & W1 & W2 & W3 & W4 & (W5 & W6 & W7 & W8) & Ex & Ey) & SI).
      rewrite Eb in Eb'. injection Eb' as <-.
      rewrite <- (steps_fun _ _ _ _ Hs Si0 W1) in *. rewrite <- (steps_fun _ _ _ _ Hs Sj0 W2) in *. rewrite <- (cells_fun _ _ _ _ Ch W3) in *. rewrite <- (cells_fun _ _ _ _ Cw W4) in *.
      assert (Ea : ((a * w + kk) / w = a)%N). { rewrite N.div_add_l by lia. rewrite N.div_small by auto. lia. }
      assert (Ek : ((a * w + kk) mod w = kk)%N). { rewrite N.add_comm, N.mod_add by lia. apply N.mod_small; auto. }
      assert (I' : In (a * w + kk)%N (iota (w * h))) by (apply In_iota; clear - W5 W6; nia).
      destruct (Vo (a * w + kk)%N I') as [_ Vo']. rewrite Ea, Ek in Vo'. rewrite <- Ex, <- Ey in Vo'.
      destruct (o (a * w + kk)%N) as [z'|] eqn:Eo; [|exfalso; eapply Vo'; eauto]. destruct Vo' as (z2 & Bz & Sz).
      assert (z2 = z) as -> by (eapply seen_in_fun; eauto; apply steep_nonzero; auto). exists z'. split; auto.
      apply S1 with (a * w + kk)%N; auto. unfold key. rewrite Ea, Ek. f_equal. subst i j. lia.
    * intros Gz. apply S2. intros idx Hi' Ek. destruct (Kw idx Hi') as (K1 & K2 & K3).
      assert (Ek' : ((i0 + idx / w) * W + (j0 + idx mod w) = i * W + j)%N) by (unfold key in Ek; lia).
      apply div_key in Ek' as [E1 E2]; try lia. destruct (Vo idx Hi') as [_ Vo']. destruct (o idx) as [z'|]; auto. exfalso. destruct Vo' as (z & _ & Vo'). apply (Gz z).
      split; auto. exists b. eexists _, _. split; [auto|]. split; [|exact Vo'].
      exists i0, j0, h, w, (idx / w)%N, (idx mod w)%N. repeat (split; [auto; fail|]). split; auto.
Qed.

(** the running mean with which the heights are collected *)
Lemma facets_doubles l : Forall (lattice_facet K e) l -> Forall (drawable K B) l -> (Z.of_nat (length l) < 32768)%Z ->
  forall n, N.of_nat n = (H * W)%N ->
  exists img hits, ofold (fun img f => rasterize doubles K img (dq (xmin B)) (dq (ymax B)) H W s f) l (repeat dzero n, repeat 0%Z n) = Ok (img, hits) /\ nsize img = (H * W)%N /\ nsize hits = (H * W)%N /\
    forall i j, (i < H)%N -> (j < W)%N -> exists zs ds, given K B S i j l zs /\ Forall2 (fun z d => exists f, In f l /\ is_degenerate K f = false /\ both_heights f z d) zs ds /\
      nth_error img (N.to_nat (i * W + j)) = Some (running ds) /\ nth_error hits (N.to_nat (i * W + j)) = Some (Z.of_nat (length zs)).
Proof.
  intros LF D L n En. pose proof S_pos as Hs. induction l as [|f l IH] using rev_ind.
  - exists (repeat dzero n), (repeat 0%Z n). cbn [ofold]. unfold nsize. rewrite !repeat_length. repeat split; auto.
    intros i j Hi Hj. exists [], []. assert (N.to_nat (i * W + j) < n) by (clear - Hi Hj En; nia).
    split; [constructor|]. split; [constructor|]. rewrite !nth_repeat by auto. auto.
  - apply Forall_app in D as [D1 D2]. inversion D2 as [|? ? Df _]; subst. apply Forall_app in LF as [LF1 LF2]. inversion LF2 as [|? ? LFf _]; subst. rewrite app_length in L. cbn [length] in L.
    destruct IH as (img & hits & E & L1 & L2 & Sp); auto; try lia.
    destruct (rasterize_doubles f img hits LFf Df L1 L2) as (img' & hits' & E' & M1 & M2 & S').
    exists img', hits'. split.
    { clear - E E'. revert E. generalize (repeat dzero n, repeat 0%Z n). induction l as [|g l IH]; cbn [ofold app]; intros a E.
      - apply Ok_inj in E. subst a. exact (f_equal (fun x => bind x (fun a' => Ok a')) E').
      - apply bind_Ok in E as (a' & Ea & E). rewrite Ea. cbn [bind]. apply IH; auto. }
    split; auto. split; auto. intros i j Hi Hj. destruct (Sp i j Hi Hj) as (zs & ds & Gv & Fv & Ev & Ec).
    destruct (S' i j _ _ Hi Hj Ev Ec) as [S1 S2]. destruct (given_snoc _ _ _ _ _ _ _ f Gv) as [G1 G2].
    pose proof (given_length _ _ _ _ _ _ _ Gv) as Ln. pose proof (Forall2_len Fv) as Lz.
    assert (Fv' : Forall2 (fun z d => exists g, In g (l ++ [f]) /\ is_degenerate K g = false /\ both_heights g z d) zs ds).
    { clear - Fv. induction Fv as [|z d zs ds (g & I & X) _ IH]; constructor; auto. exists g. split; auto. apply in_or_app. now left. }
    destruct (gives_dec K B S H W f i j Hs G V Df) as [(z & Gz)|Gz].
    + destruct (S1 z Gz) as (d & Bd & T1 & T2). exists (zs ++ [z]), (ds ++ [d]). split; auto. split.
      { apply Forall2_app; auto. constructor; [|constructor]. exists f. split; [apply in_or_app; right; now left|]. split; auto. apply Gz. }
      split; [rewrite T1, running_snoc; unfold mean_d; rewrite wrap16_small by lia; now rewrite Lz|]. rewrite T2. rewrite wrap16_small by lia. rewrite app_length. cbn [length]. do 2 f_equal. lia.
    + destruct (S2 Gz) as [T1 T2]. exists zs, ds. auto.
Qed.
End DRAW.

(** ** The raster *)
(** what is asked of the coordinates and of the pixel size *)
Definition lattice_scene (K : kernel) (e : Z) (B : box2) (l : list face2) (s : dbl) (S : Qc) : Prop :=
  (-1074 <= e <= 971)%Z /\ lattice_box e B /\ Forall (lattice_facet K e) l /\ on_lattice e S /\ (0 < S)%Qc /\ represents s (this S).
Lemma lattice_pixel e s S : on_lattice e S -> (0 < S)%Qc -> represents s (this S) -> exists k, (0 < k < 2 ^ 51)%Z /\ (this S == zq k * pw 2 e)%Q /\ lat e s k.
Proof.
  intros (k & L & E) P R. rewrite lattice_lat in E. exists k. pose proof (Round_proofs.pw_pos 2 e ltac:(lia)) as Pe.
  assert (0 < k)%Z. { unfold Qclt in P. rewrite E in P. change (this 0%Qc) with 0%Q in P. apply (proj2 (Round_proofs.qz_lt _ _)). change (zq 0) with 0%Q. destruct (Qlt_le_dec 0 (zq k)) as [|X]; auto. exfalso. nra. }
  split; [lia|]. split; auto. exact (represents_ext _ _ _ E R).
Qed.
Lemma raster_doubles K fp s S B H W e : br_box (fp_proj fp) = Some B -> lattice_scene K e B (br_facets (fp_proj fp)) s S -> grid B S H W -> cuts_have_vertices K ->
  Forall (drawable K B) (br_facets (fp_proj fp)) -> (Z.of_nat (length (br_facets (fp_proj fp))) < 32768)%Z ->
  exists r : raster doubles, raster_of doubles K fp s = Ok r /\ sized r /\ r_offset doubles r = true /\
    r_name doubles r = fp_name fp /\ r_epsg doubles r = fp_epsg fp /\ r_height doubles r = H /\ r_width doubles r = W /\ r_px doubles r = s /\
    r_ref doubles r = (dadd (px (fp_ref fp)) (dq (xmin B)), dadd (py (fp_ref fp)) (dq (ymax B)), dadd (pz (fp_ref fp)) dzero) /\
    forall i j, (i < H)%N -> (j < W)%N -> exists zs ds, given K B S i j (br_facets (fp_proj fp)) zs /\ Forall2 (fun z d => exists f, In f (br_facets (fp_proj fp)) /\ is_degenerate K f = false /\ both_heights K e s S f z d) zs ds /\
      nth_error (r_hits doubles r) (N.to_nat (i * W + j)) = Some (Z.of_nat (length zs)) /\
      nth_error (r_image doubles r) (N.to_nat (i * W + j)) = Some (dadd (running ds) (dmul (dofZ (match zs with [] => 0 | _ => 1 end)) (dadd (pz (fp_ref fp)) dzero))).
Proof.
  intros EB (He & LB & LF & LS & Hs & Rs) G V D L. destruct (lattice_pixel e s S LS Hs Rs) as (k & Hk & Es & Ls). pose proof G as (C1 & C2 & (B1 & B2 & B3) & X & Y). unfold raster_of. rewrite EB. cbn [n_ofq doubles n_sub n_div Raster.num].
  pose proof LB as ((bx0 & Bx0 & Ex0) & (bx1 & Bx1 & Ex1) & (by0 & By0 & Ey0) & (by1 & By1 & Ey1)). rewrite lattice_lat in *.
  destruct (diff_quot e He s S k Hk Es Ls (ymax B) (ymin B) by1 by0) as (_ & _ & Q1); auto. destruct (diff_quot e He s S k Hk Es Ls (xmax B) (xmin B) bx1 bx0) as (_ & _ & Q2); auto. rewrite Q1, Q2.
  rewrite (ceil_cells _ _ _ Hs C1 B1) by (clear - Y; ql). cbn [bind]. rewrite (ceil_cells _ _ _ Hs C2 B2) by (clear - X; ql). cbn [bind].
  unfold max_indexes in *. rewrite wrap64_small by (unfold two64; lia). replace (1152921504606846975 <? H * W)%N with false by lia.
  destruct (facets_doubles K e He B s S k H W Hk Es Ls LB V G (br_facets (fp_proj fp)) LF D L (N.to_nat (H * W)) (N2Nat.id _)) as (img & hits & E & L1 & L2 & Sp).
  match goal with |- exists r, bind ?e _ = _ /\ _ => assert (EE : e = Ok (img, hits)) by exact E end.
  rewrite EE. cbn [bind]. clear EE. cbn [fst snd n_add n_ofd n_of doubles]. change (dofZ 0) with dzero.
  set (r0 := mkRaster doubles (fp_name fp) (dadd (px (fp_ref fp)) (dq (xmin B)), dadd (py (fp_ref fp)) (dq (ymax B)), dadd (pz (fp_ref fp)) dzero) (fp_epsg fp) H W s img hits false).
  assert (Z0 : sized r0). { unfold sized, r0. cbn [r_image r_hits r_height r_width]. unfold two64. repeat split; auto. lia. }
  destruct (vertical_offset_spec doubles r0 Z0 eq_refl) as (r & Er & Zr & O & Hh & N1 & N2 & N3 & N4 & N5 & N6 & X').
  exists r. split; [exact Er|]. split; auto. split; auto. unfold r0 in Hh, N1, N2, N3, N4, N5, N6. cbn [r_hits r_name r_ref r_epsg r_height r_width r_px] in Hh, N1, N2, N3, N4, N5, N6. repeat (split; [assumption|]).
  intros i j Hi Hj. destruct (Sp i j Hi Hj) as (zs & ds & Gv & Fv & Ev & Ec). exists zs, ds. split; auto. split; auto.
  rewrite Hh. split; auto. refine (eq_trans (X' _ _ _ Ev Ec) _). unfold r0. cbn [r_ref snd doubles n_add n_mul n_of]. destruct zs; reflexivity.
Qed.

(** ** Horizontal facets *)
Definition is_double (q : Qc) : Prop := exists x, represents x (this q).
(** [f] is horizontal, at the height [h], and the coefficients of its plane are doubles *)
Definition flat_at (f : face2) (h : Qc) : Prop :=
  pl_a (f_plane f) = 0%Qc /\ pl_b (f_plane f) = 0%Qc /\ (pl_c (f_plane f) * h + pl_d (f_plane f) = 0)%Qc /\ is_double (pl_c (f_plane f)) /\ is_double (pl_d (f_plane f)).
(** what is assumed of CGAL: the pieces of a square lie in it and have less than 2^52 vertices *)
Definition cuts_inside (K : kernel) : Prop := forall x y s Q q, (0 < s)%Qc -> In q (k_inter2 K (ground x y s) Q) -> (Z.of_nat (length (outer q)) < 2 ^ 52)%Z /\
  forall p, In p (outer q) -> (x <= x2 p <= x + s /\ y - s <= y2 p <= y)%Qc.
(** any pixel's square cuts [f] in one piece at most *)
Definition one_piece (K : kernel) (s : Qc) (f : face2) : Prop := forall x y, (length (k_inter2 K (ground x y s) (f_border f)) <= 1)%nat.

Lemma unique_incl {X} eqb (l : list X) : incl (unique eqb l) l /\ (length (unique eqb l) <= length l)%nat.
Proof.
  induction l as [|a l [I L]]; [split; [intros x []|auto]|]. destruct l as [|b l]; [split; [apply incl_refl|auto]|].
  change (unique eqb (a :: b :: l)) with (if eqb a b then a :: tl (unique eqb (b :: l)) else a :: unique eqb (b :: l)). destruct (eqb a b).
  - split; [|destruct (unique eqb (b :: l)); cbn [tl length] in *; lia]. intros x [->|H]; [now left|]. right. apply I. destruct (unique eqb (b :: l)); [destruct H|now right].
  - split; [|cbn [length] in *; lia]. intros x [->|H]; [now left|]. right. now apply I.
Qed.
Lemma between_near e a b q : near e a -> near e b -> (a <= q <= b)%Qc -> near e q.
Proof.
  unfold near, Qcle. intros A B [L U]. apply Qabs_Qle_condition in A. apply Qabs_Qle_condition in B. apply Qabs_Qle_condition. set (w := (zq (2 ^ 53) * pw 2 e)%Q) in *. clearbody w. lra.
Qed.
Lemma near_within e q : (e <= 900)%Z -> near e q -> within 1 (dq q).
Proof.
  intros E N. apply within_dq; [lia|]. eapply Qle_trans; [exact N|]. assert (zq (2 ^ 53) == pw 2 53)%Q as -> by reflexivity. rewrite <- Round_proofs.pw_add by lia.
  change (zq 1) with 1%Q. rewrite Qmult_1_l. apply Round_proofs.pw_le; lia.
Qed.
Lemma centroid_real e l c : (e <= 900)%Z -> (Z.of_nat (length l) < 2 ^ 52)%Z -> (forall p, In p l -> near e (x2 p) /\ near e (y2 p)) -> centroid doubles l = Ok c -> real_double (fst c) /\ real_double (snd c).
Proof.
  intros E L N. unfold centroid. cbn [n_ofq n_eqb doubles]. set (u := unique _ _). assert (incl u (map (fun p => (dq (x2 p), dq (y2 p))) l) /\ length u <= length l) as [I Lu].
  { unfold u. destruct (unique_incl (fun a b : ip2 doubles => deqb (fst a) (fst b) && deqb (snd a) (snd b)) (map (fun p => (dq (x2 p), dq (y2 p))) l)) as [A1 A2]. rewrite map_length in A2. auto. }
  clearbody u. unfold mean_point. destruct u as [|p0 u0]; [discriminate|]. set (v := p0 :: u0) in *. intros X. apply Ok_inj in X. subst c. cbn [fst snd n_div n_add n_of doubles].
  assert (0 < Z.of_nat (length v) <= 2 ^ 52)%Z as Lv by (unfold v in *; cbn [length] in *; lia). clearbody v.
  assert (Forall (within 1) (map fst v) /\ Forall (within 1) (map snd v)) as [F1 F2].
  { split; apply Forall_forall; intros x Hx; apply in_map_iff in Hx as (p & <- & Hp); apply I, in_map_iff in Hp as (q & <- & Hq); destruct (N q Hq) as [A1 A2]; cbn [fst snd]; now apply (near_within e). }
  assert (within 0 (dofZ 0)) as W0 by (split; [split; reflexivity|vm_compute; discriminate]).
  assert (forall w, length w = length v -> Forall (within 1) w -> real_double (ddiv (fold_left dadd w (dofZ 0)) (dofZ (Z.of_nat (length v))))) as R.
  { intros w Ew Fw. apply (within_div (0 + 1 * Z.of_nat (length w))); [lia|lia|]. apply within_sum; auto; lia. }
  split; apply R; auto; apply map_length.
Qed.
Lemma flat_height f h p z : flat_at f h -> is_double h -> pl_c (f_plane f) <> 0%Qc -> real_double (fst p) -> real_double (snd p) -> iplane_height doubles f p = Ok z -> represents z (this h).
Proof.
  intros (Ha & Hb & Hd & Dc & Dd) Dh Hc Rx Ry E. unfold iplane_height in E. destruct (n_ltb _ _ _); [discriminate|]. apply Ok_inj in E. subst z. cbn [n_div n_sub n_mul n_of n_ofq doubles]. rewrite Ha, Hb.
  change (dq 0%Qc) with dzero.
  assert (forall x, real_double x -> represents (dmul dzero x) 0) as Z0. { intros x [_ F]. destruct x; try discriminate F; unfold dmul, SFmul, dzero; apply represents_zero. }
  pose proof (Props_area.dq_represents _ Dc) as Rc. pose proof (Props_area.dq_represents _ Dd) as Rd.
  assert (represents (dmul (dofZ (-1)) (dq (pl_d (f_plane f)))) (- this (pl_d (f_plane f)))) as R1.
  { apply (represents_ext _ (-1 * this (pl_d (f_plane f)))); [ring|]. apply dmul_exact; auto; [|exists (dopp (dq (pl_d (f_plane f)))); apply (represents_ext _ (- this (pl_d (f_plane f)))); [ring|now apply dopp_represents]].
    assert (is_int (dofZ (-1)) (-1)) as I1. { split; [reflexivity|]. eexists. split; [reflexivity|]. reflexivity. } exact I1. }
  assert (forall x y q, represents x q -> represents y 0 -> represents (dsub x y) q) as Sz.
  { intros x y q X Y. apply (represents_ext _ (q - 0)); [ring|]. apply dsub_exact; auto. exists x. apply (represents_ext _ q); [ring|auto]. }
  pose proof (Sz _ _ _ (Sz _ _ _ R1 (Z0 _ Rx)) (Z0 _ Ry)) as R2.
  assert (~ this (pl_c (f_plane f)) == 0)%Q as Nc. { intros X. apply Hc. apply Qc_is_canon. exact X. }
  assert (this (pl_c (f_plane f)) * this h + this (pl_d (f_plane f)) == 0)%Q as Ed. { assert (X := f_equal this Hd). unfold Qcplus, Qcmult in X. assert (this 0%Qc == 0)%Q as Y by reflexivity. rewrite <- Y, <- X. rewrite !Dq_proofs.this_Q2Qc. reflexivity. }
  assert (- this (pl_d (f_plane f)) / this (pl_c (f_plane f)) == this h)%Q as Eh. { assert (- this (pl_d (f_plane f)) == this (pl_c (f_plane f)) * this h)%Q as -> by lra. field. auto. }
  apply (represents_ext _ _ _ Eh). apply ddiv_exact; auto. destruct Dh as [x X]. exists x. now apply (represents_ext _ _ _ (Qeq_sym _ _ Eh)).
Qed.

Lemma div_one x q : represents x q -> represents (ddiv x (dofZ 1)) q.
Proof.
  intros X. apply (represents_ext _ (q / inject_Z 1)); [field|]. apply ddiv_exact; auto; [exact (dofZ_int 1 ltac:(lia))|discriminate|]. exists x. apply (represents_ext _ q); [field|auto].
Qed.
Lemma both_flat K e s S f h z d : (0 < S)%Qc -> (e <= 900)%Z -> cuts_inside K -> cuts_have_vertices K -> one_piece K S f -> flat_at f h -> is_double h -> steep f -> both_heights K e s S f z d -> z = h /\ represents d (this h).
Proof.
  intros Hs He CI CV OP Fl Dh St (x & y & X & Y & N1 & N2 & N3 & N4 & Rx & Ry & Rxs & Rys & EE & ED). pose proof (steep_nonzero _ St) as Hc.
  assert (pixel_pieces doubles K f x y s = k_inter2 K (ground X Y S) (f_border f)) as E.
  { apply Props_height.represents_qd in Rx as (Hx & _). apply Props_height.represents_qd in Ry as (Hy & _). apply Props_height.represents_qd in Rxs as (Hxs & _). apply Props_height.represents_qd in Rys as (Hys & _).
    unfold pixel_pieces, pixel_square. cbn [n_toq n_add n_sub doubles]. now rewrite Hx, Hy, Hxs, Hys. }
  split.
  - destruct (pixel_height_exact K f X Y S St CV) as (o & Eo & So). rewrite EE in Eo. apply Ok_inj in Eo. subst o. destruct So as (Np & zs & F & Sm).
    specialize (OP X Y). destruct (k_inter2 K (ground X Y S) (f_border f)) as [|P [|P' l]]; [congruence| |cbn [length] in OP; lia]. inversion F as [|P0 z1 ? zs' (c & _ & On) F']; subst. inversion F'; subst.
    cbn [qsum] in Sm. change (qn (nsize [P])) with (qn 1) in Sm. rewrite qn_1 in Sm. destruct Fl as (Ha & Hb & Hd & _).
    apply (on_plane_fun (f_plane f) (x2 c) (y2 c)); auto.
    + assert (z = z1) as -> by (transitivity (z * 1)%Qc; [ring|rewrite Sm; ring]). exact On.
    + unfold on_plane. cbn [x3 y3 z3]. rewrite Ha, Hb. transitivity (pl_c (f_plane f) * h + pl_d (f_plane f))%Qc; [ring|exact Hd].
  - unfold pixel_height in ED. rewrite E in ED. pose proof (fun q => CI X Y S (f_border f) q Hs) as CIf. specialize (OP X Y). destruct (k_inter2 K (ground X Y S) (f_border f)) as [|P [|P' l]]; [discriminate| |cbn [length] in OP; lia].
    destruct (CIf P (or_introl eq_refl)) as [Ln In'].
    cbn [ofold] in ED. apply bind_Ok in ED as (t & E1 & E2). apply Ok_inj in E2. injection E2 as ->. apply bind_Ok in E1 as (t' & E1 & E2). apply Ok_inj in E2. subst t'.
    apply bind_Ok in E1 as (c & Ec & E1). apply bind_Ok in E1 as (hh & Eh & E1). apply Ok_inj in E1. subst d.
    destruct (centroid_real e (outer P) c He Ln) as [R1 R2]; auto.
    { intros p Ip. destruct (In' p Ip) as [Bx By]. split; [apply (between_near e X (X + S)%Qc); auto|apply (between_near e (Y - S)%Qc Y); auto]. }
    pose proof (flat_height f h c hh Fl Dh Hc R1 R2 Eh) as Rh. cbn [n_add n_div n_of doubles length]. change (Z.of_nat 1) with 1%Z.
    apply (represents_ext _ (0 + this h)); [ring|]. apply dadd_exact; [exact (dofZ_int 0 ltac:(lia))|now apply div_one|]. exists hh. apply (represents_ext _ (this h)); [ring|auto].
Qed.

(** *** Means of one and of two heights *)
Lemma lattice_double g q : (-1074 <= g <= 971)%Z -> on_lattice g q -> is_double q.
Proof. intros Hg (n & L & E). destruct (lat_double g n Hg ltac:(lia)) as [x X]. exists x. exact (represents_ext _ _ _ (Qeq_sym _ _ E) X). Qed.
Lemma running_one d n g : lat g d n -> lat g (running [d]) n.
Proof.
  intros D. change (running [d]) with (ddiv (dadd (dmul dzero (dofZ 0)) d) (dofZ 1)). apply div_one. change (dmul dzero (dofZ 0)) with dzero.
  apply (represents_ext _ (0 + zq n * pw 2 g)); [ring|]. apply dadd_exact; auto; [apply represents_zero|]. exists d. apply (represents_ext _ (zq n * pw 2 g)); [ring|auto].
Qed.
Lemma running_two d1 d2 n1 n2 g : (-1073 <= g <= 971)%Z -> (Z.abs n1 < 2 ^ 51)%Z -> (Z.abs n2 < 2 ^ 51)%Z -> lat g d1 n1 -> lat g d2 n2 -> lat (g - 1) (running [d1; d2]) (n1 + n2).
Proof.
  intros Hg L1 L2 D1 D2. change (running [d1; d2]) with (ddiv (dadd (dmul (running [d1]) (dofZ 1)) d2) (dofZ 2)). pose proof (running_one d1 n1 g D1) as R1. set (v := running [d1]) in *. clearbody v.
  assert (lat g (dmul v (dofZ 1)) n1) as R2.
  { apply (represents_ext _ (zq n1 * pw 2 g * zq 1)); [change (zq 1) with 1%Q; ring|]. apply dmul_exact; auto; [apply dofZ_int; lia|]. exists v. apply (represents_ext _ (zq n1 * pw 2 g)); [change (zq 1) with 1%Q; ring|auto]. }
  pose proof (lat_add g ltac:(lia) _ _ _ _ R2 D2 ltac:(lia)) as R3. pose proof (dofZ_int 2 ltac:(lia)) as R4.
  assert (zq (n1 + n2) * pw 2 g / zq 2 == zq (n1 + n2) * pw 2 (g - 1))%Q as E.
  { replace g with (g - 1 + 1)%Z at 1 by lia. rewrite Round_proofs.pw_add by lia. change (pw 2 1) with (zq 2). field. discriminate. }
  apply (represents_ext _ _ _ E). apply ddiv_exact; auto; [discriminate|]. destruct (lat_double (g - 1) (n1 + n2)) as [x X]; [lia|lia|]. exists x. exact (represents_ext _ _ _ (Qeq_sym _ _ E) X).
Qed.

(** ** C101 *)
(** The size of the raster and the counters are those of exact arithmetic. *)
Theorem C101_counters : forall K fp s S B H W e, br_box (fp_proj fp) = Some B -> lattice_scene K e B (br_facets (fp_proj fp)) s S -> grid B S H W -> cuts_have_vertices K ->
  Forall (drawable K B) (br_facets (fp_proj fp)) -> (Z.of_nat (length (br_facets (fp_proj fp))) < 32768)%Z ->
  exists r : raster doubles, raster_of doubles K fp s = Ok r /\ sized r /\ r_height doubles r = H /\ r_width doubles r = W /\ r_px doubles r = s /\ r_name doubles r = fp_name fp /\ r_epsg doubles r = fp_epsg fp /\
    r_ref doubles r = (dadd (px (fp_ref fp)) (dq (xmin B)), dadd (py (fp_ref fp)) (dq (ymax B)), dadd (pz (fp_ref fp)) dzero) /\
    forall i j, (i < H)%N -> (j < W)%N -> exists zs, given K B S i j (br_facets (fp_proj fp)) zs /\ nth_error (r_hits doubles r) (N.to_nat (i * W + j)) = Some (Z.of_nat (length zs)).
Proof.
  intros K fp s S B H W e EB LS G V D L. destruct (raster_doubles K fp s S B H W e EB LS G V D L) as (r & E & Z & _ & N1 & N2 & N3 & N4 & N5 & N6 & Sp).
  exists r. repeat (split; [assumption|]). intros i j Hi Hj. destruct (Sp i j Hi Hj) as (zs & ds & Gv & _ & Ec & _). eauto.
Qed.
(** Horizontal facets: pixels with at most two heights have their exact mean. *)
Theorem C101_flat : forall K fp s S B H W e g zr, br_box (fp_proj fp) = Some B -> lattice_scene K e B (br_facets (fp_proj fp)) s S -> (e <= 900)%Z -> grid B S H W ->
  cuts_have_vertices K -> cuts_inside K ->
  Forall (drawable K B) (br_facets (fp_proj fp)) -> (Z.of_nat (length (br_facets (fp_proj fp))) < 32768)%Z ->
  (-1073 <= g <= 971)%Z -> Forall (fun f => is_degenerate K f = true \/ one_piece K S f /\ exists h, flat_at f h /\ on_lattice g h) (br_facets (fp_proj fp)) ->
  represents (pz (fp_ref fp)) (this zr) -> on_lattice g zr ->
  exists r : raster doubles, raster_of doubles K fp s = Ok r /\ r_height doubles r = H /\ r_width doubles r = W /\
    forall i j, (i < H)%N -> (j < W)%N -> exists zs v d, given K B S i j (br_facets (fp_proj fp)) zs /\ averages zs v /\
      nth_error (r_hits doubles r) (N.to_nat (i * W + j)) = Some (Z.of_nat (length zs)) /\ nth_error (r_image doubles r) (N.to_nat (i * W + j)) = Some d /\
      (length zs <= 2 -> represents d (this (match zs with [] => 0%Qc | _ => (v + zr)%Qc end))).
Proof.
  intros K fp s S B H W e g zr EB LS He G V CI D L Hg FL Rr (nr & Lr & Er). destruct (raster_doubles K fp s S B H W e EB LS G V D L) as (r & E & Z & _ & _ & _ & N3 & N4 & _ & _ & Sp).
  exists r. repeat (split; [assumption|]). intros i j Hi Hj. destruct (Sp i j Hi Hj) as (zs & ds & Gv & Fv & Ec & Ev). destruct LS as (He' & _ & _ & _ & Hs & _). rewrite lattice_lat in Er.
  assert (Forall2 (fun z d => exists n, (Z.abs n < 2 ^ 51)%Z /\ (this z == zq n * pw 2 g)%Q /\ lat g d n) zs ds) as Fn.
  { clear Gv Ec Ev. induction Fv as [|z d zs ds (f & If & Nd & Bf) _ IH]; constructor; auto. rewrite Forall_forall in FL, D. destruct (FL f If) as [X|(OP & h & Fl & Lh)]; [congruence|]. destruct (D f If) as [X|(b & _ & _ & St)]; [congruence|].
    destruct (both_flat K e s S f h z d Hs He CI V OP Fl (lattice_double g h ltac:(lia) Lh) St Bf) as [-> Rd]. destruct Lh as (n & Ln & En). rewrite lattice_lat in En. exists n. split; auto. split; auto. exact (represents_ext _ _ _ En Rd). }
  set (zd := dadd (pz (fp_ref fp)) dzero) in *. assert (lat g zd nr) as Rz. { apply (represents_ext _ _ _ Er). apply (represents_ext _ (this zr + 0)); [ring|]. apply dadd_exact; auto; [apply represents_zero|]. exists (pz (fp_ref fp)). apply (represents_ext _ (this zr)); [ring|auto]. }
  clearbody zd. assert (exists v, averages zs v) as (v & Av).
  { destruct zs as [|z zs']; [exists 0%Qc; split; auto; cbn [qsum]; ring|]. set (w := z :: zs'). exists (qsum w / qn (nsize w))%Qc. split; [discriminate|]. rewrite Qcmult_comm. apply Qcmult_div_r. apply qn_nonzero. unfold w, nsize. cbn [length]. lia. }
  exists zs, v. eexists. split; [exact Gv|]. split; [exact Av|]. split; [exact Ec|]. split; [exact Ev|]. intros L2. destruct Av as [Av0 Av].
  destruct Fn as [|z d zs ds (n & Ln & En & Rn) Fn]; [|destruct Fn as [|z2 d2 zs ds (n2 & Ln2 & En2 & Rn2) Fn]; [|destruct Fn; [|cbn [length] in L2; lia]]].
  - change (running []) with dzero. apply (represents_ext _ (0 + zq 0 * (zq nr * pw 2 g))); [change (this 0%Qc) with 0%Q; change (zq 0) with 0%Q; ring|].
    assert (represents (dmul (dofZ 0) zd) (zq 0 * (zq nr * pw 2 g))) as R0. { apply dmul_exact; auto; [apply dofZ_int; lia|]. exists dzero. apply (represents_ext _ 0); [change (zq 0) with 0%Q; ring|apply represents_zero]. }
    apply dadd_exact; auto; [apply represents_zero|]. exists dzero. apply (represents_ext _ 0); [change (zq 0) with 0%Q; ring|apply represents_zero].
  - assert (v = z) as ->. { change (nsize [z]) with 1%N in Av. rewrite qn_1 in Av. cbn [qsum] in Av. transitivity (v * 1)%Qc; [ring|rewrite Av; ring]. }
    apply (represents_ext _ (zq (n + 1 * nr) * pw 2 g)); [rewrite this_plus, En, Er, Round_proofs.qz_add, Round_proofs.qz_mul; change (zq 1) with 1%Q; ring|].
    apply lat_add; [lia|now apply running_one|apply lat_mul; auto; [lia|apply dofZ_int; lia|lia]|lia].
  - assert (this v * zq 2 == this z + this z2)%Q as Ev2.
    { assert (X := f_equal this Av). cbn [qsum] in X. assert (this v * zq 2 == this (v * qn (nsize [z; z2]))%Qc)%Q as -> by (unfold Qcmult; rewrite Dq_proofs.this_Q2Qc; change (nsize [z; z2]) with 2%N; unfold qn; rewrite this_qz; reflexivity).
      rewrite X, !this_plus. change (this 0%Qc) with 0%Q. ring. }
    assert (pw 2 g == zq 2 * pw 2 (g - 1))%Q as Eg. { replace g with (1 + (g - 1))%Z at 1 by lia. rewrite Round_proofs.pw_add by lia. reflexivity. }
    apply (represents_ext _ (zq (n + n2 + 1 * (2 * nr)) * pw 2 (g - 1))).
    { rewrite this_plus, Er. assert (this v == (this z + this z2) / zq 2)%Q as -> by (rewrite <- Ev2; field; discriminate). rewrite En, En2, Eg, !Round_proofs.qz_add, !Round_proofs.qz_mul. change (zq 1) with 1%Q. field. discriminate. }
    apply lat_add; [lia|apply running_two; auto|apply lat_mul; [lia|apply dofZ_int; lia| |lia]|lia].
    apply (represents_ext _ (zq nr * pw 2 g)); [rewrite Eg, Round_proofs.qz_mul; ring|auto].
Qed.
(** *** The hypotheses can be met: the two facets of C60_example, with pixels of 1, in units of 1/2 *)
Lemma rects_inside : cuts_inside rects.
Proof.
  intros x y s Q q Hs I. cbn [k_inter2 rects] in I. rewrite (ground_box x y s Hs) in I. unfold box_inter in I. destruct (ring_box (outer Q)) as [b|]; [|destruct I].
  destruct (_ && _) eqn:E in I; [|destruct I]. destruct I as [<-|[]]. cbn [xmin xmax ymin ymax] in *. apply andb_true_iff in E as [E1 E2]. apply Qcltb_lt in E1, E2.
  split; [cbn; lia|]. intros p Ip. cbn [outer rect In] in Ip. cbn [xmin xmax ymin ymax] in Ip.
  assert (x <= qmax x (xmin b) /\ y - s <= qmax (y - s) (ymin b) /\ qmin (x + s) (xmax b) <= x + s /\ qmin y (ymax b) <= y)%Qc as (A1 & A2 & A3 & A4).
  { clear. unfold qmax, qmin. repeat split.
    all: match goal with |- context [if ?c then _ else _] => destruct c eqn:C end; try apply Qcle_refl.
    all: first [apply Qcltb_lt in C; now apply Qclt_le_weak | apply Qcleb_le in C; assumption | match goal with |- (?a <= ?b)%Qc => destruct (Qclt_le_dec b a) as [X|X]; auto; exfalso; apply Qclt_le_weak in X; apply Qcleb_le in X; congruence end]. }
  apply Qclt_le_weak in E1. apply Qclt_le_weak in E2.
  destruct Ip as [<-|[<-|[<-|[<-|[]]]]]; cbn [x2 y2]; repeat split; eauto using Qcle_trans.
Qed.
Lemma lattice_intro e q : (let n := Qfloor (this q * 2 ^ (- e)) in (Z.abs n <? 2 ^ 51)%Z && Qeq_bool (this q) (inject_Z n * 2 ^ e)) = true -> on_lattice e q.
Proof. intros H. apply andb_true_iff in H as [A B]. apply Z.ltb_lt in A. apply Qeq_bool_iff in B. eexists. split; eauto. Qed.
Ltac lattice_tac := apply lattice_intro; vm_compute; reflexivity.
Lemma rects_one_piece s f : one_piece rects s f.
Proof.
  intros x y. cbn [k_inter2 rects]. unfold box_inter. destruct (ring_box _); [|cbn; lia]. destruct (ring_box _); [|cbn; lia]. destruct (_ && _); cbn; lia.
Qed.
Example C101_example : let fp := Props_raster.foot Props_raster.two_faces (mkPoint (dofZ 100) (dofZ 200) (dofZ 2)) in let B := Props_raster.ibox 0 0 4 4 in
  br_box (fp_proj fp) = Some B /\ lattice_scene rects (-1) B (br_facets (fp_proj fp)) (dofZ 1) (qz 1) /\ grid B (qz 1) 4 4 /\ cuts_have_vertices rects /\ cuts_inside rects /\
  Forall (drawable rects B) (br_facets (fp_proj fp)) /\ Forall (fun f => is_degenerate rects f = true \/ one_piece rects (qz 1) f /\ exists h, flat_at f h /\ on_lattice 0 h) (br_facets (fp_proj fp)) /\
  represents (pz (fp_ref fp)) (this (qz 2)) /\ on_lattice 0 (qz 2).
Proof.
  cbv zeta. split; [reflexivity|]. split.
  { split; [lia|]. split; [split; [|split; [|split]]; lattice_tac|]. split.
    - constructor; [|constructor; [|constructor]]; (right; eexists; split; [vm_compute; reflexivity|]; split; [|split; [|split]]; lattice_tac).
    - split; [lattice_tac|]. split; [reflexivity|]. exact (dofZ_int 1 ltac:(lia)). }
  split; [Props_raster.grid_tac|]. split; [exact rects_vertices|]. split; [exact rects_inside|]. split.
  { constructor; [Props_raster.drawable_tac|constructor; [Props_raster.drawable_tac|constructor]]. }
  split; [|split; [exact (dofZ_int 2 ltac:(lia))|lattice_tac]].
  constructor; [|constructor; [|constructor]]; right; (split; [apply rects_one_piece|]).
  - exists (qz 5). split; [|lattice_tac]. split; [reflexivity|]. split; [reflexivity|]. split; [apply Qceqb_eq; vm_compute; reflexivity|]. split; [exists (dofZ 1); exact (dofZ_int 1 ltac:(lia))|]. exists (dofZ (-5)). split; [reflexivity|]. eexists. split; reflexivity.
  - exists (qz 9). split; [|lattice_tac]. split; [reflexivity|]. split; [reflexivity|]. split; [apply Qceqb_eq; vm_compute; reflexivity|]. split; [exists (dofZ 1); exact (dofZ_int 1 ltac:(lia))|]. exists (dofZ (-9)). split; [reflexivity|]. eexists. split; reflexivity.
Qed.
