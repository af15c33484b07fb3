(** * C101, any number of heights: the mean of the heights of a pixel up to rounding. *)
From Verif Require Import Base Dbl Geom Decimal Shadow Streams Handlers Surface Projection Raster Spec_projection Spec_raster Raster_proofs Rect Spec_text Spec_num Spec_arith Arith_proofs Rn_proofs Rootsq_proofs Lattice_proofs Mean_proofs Props_grid.
From Coq Require Import QArith Qabs Qcanon Qround Lqa Lia.
From Verif Require Round_proofs Props_height Props_raster.
Import List.
Open Scope nat_scope.

Lemma running_error (M : Q) (ML : (pw 2 (-1020) <= M)%Q) (MH : (M <= pw 2 960)%Q) ds : forall zs, Forall2 (fun (z : Qc) d => represents d (this z) /\ (Qabs (this z) <= M)%Q) zs ds -> (Z.of_nat (length ds) <= 32768)%Z ->
  real_double (running ds) /\ (Qabs (dval (running ds) * zq (Z.of_nat (length ds)) - this (qsum zs)) <= 2 * u53 * (zq (Z.of_nat (length ds)) * (zq (Z.of_nat (length ds)) + 1) * M))%Q.
Proof.
  induction ds as [|d ds IH] using rev_ind; intros zs F L.
  - inversion F; subst. split; [split; reflexivity|]. change (zq (Z.of_nat (@length dbl []))) with 0%Q. cbn [qsum]. change (this 0%Qc) with 0%Q. setoid_replace (dval (running []) * 0 - 0)%Q with 0%Q by ring. change (Qabs 0) with 0%Q. setoid_replace (2 * u53 * (0 * (0 + 1) * M))%Q with 0%Q by ring. apply Qle_refl.
  - apply Forall2_app_inv_r in F as (z1 & z2 & F1 & F2 & ->). inversion F2 as [|z ? ? ? [Rd Bz] F0]; subst. inversion F0; subst. rewrite app_length in *. cbn [length] in *. destruct (IH z1 F1 ltac:(lia)) as [Rr Er].
    rewrite running_snoc. replace (Z.of_nat (length ds + 1)) with (Z.of_nat (length ds) + 1)%Z by lia.
    assert (Forall (fun z : Qc => (Qabs (this z) <= M)%Q) z1) as Fb. { clear -F1. induction F1 as [|? ? ? ? [_ B] F IH]; constructor; auto. }
    pose proof (sum_bound M z1 Fb) as Sb. rewrite (Forall2_len F1) in Sb.
    destruct (step_error M ML MH (running ds) (this (qsum z1)) d (this z) (Z.of_nat (length ds)) ltac:(lia) Rr Er Sb Rd Bz) as [Rq Eq]. split; [exact Rq|].
    assert (this (qsum (z1 ++ [z])) == this (qsum z1) + this z)%Q as ->; [|exact Eq]. rewrite qsum_app, this_plus. cbn [qsum]. rewrite this_plus. change (this 0%Qc) with 0%Q. ring.
Qed.
Lemma pw_Qpower k : (pw 2 k == 2 ^ k)%Q.
Proof. pose proof (proj1 (lattice_lat k (Q2Qc (1 * 2 ^ k)) 1)) as X. rewrite Dq_proofs.this_Q2Qc in X. change (inject_Z 1) with 1%Q in X. change (zq 1) with 1%Q in X. rewrite !Qmult_1_l in X. symmetry. now apply X. Qed.
(** Horizontal facets, the heights and the reference height at most [M]: a pixel hit [n] times holds the mean of the
    heights plus the reference height, with an error of at most (n + 3) * 2^-52 * M. *)
Theorem C101_means : forall K fp s S B H W e (M : Q) zr, br_box (fp_proj fp) = Some B -> lattice_scene K e B (br_facets (fp_proj fp)) s S -> (e <= 900)%Z -> grid B S H W ->
  cuts_have_vertices K -> cuts_inside K ->
  Forall (drawable K B) (br_facets (fp_proj fp)) -> (Z.of_nat (length (br_facets (fp_proj fp))) < 32768)%Z ->
  (2 ^ (-1020) <= M <= 2 ^ 960)%Q -> Forall (fun f => is_degenerate K f = true \/ one_piece K S f /\ exists h, flat_at f h /\ is_double h /\ (Qabs (this h) <= M)%Q) (br_facets (fp_proj fp)) ->
  represents (pz (fp_ref fp)) (this zr) -> (Qabs (this zr) <= M)%Q ->
  exists r : raster doubles, raster_of doubles K fp s = Ok r /\ r_height doubles r = H /\ r_width doubles r = W /\
    forall i j, (i < H)%N -> (j < W)%N -> exists zs v d, given K B S i j (br_facets (fp_proj fp)) zs /\ averages zs v /\
      nth_error (r_hits doubles r) (N.to_nat (i * W + j)) = Some (Z.of_nat (length zs)) /\ nth_error (r_image doubles r) (N.to_nat (i * W + j)) = Some d /\
      (zs = [] -> represents d 0) /\
      (zs <> [] -> exists x, represents d x /\ (Qabs (x - this (v + zr)%Qc) <= inject_Z (Z.of_nat (length zs) + 3) * 2 ^ (-52) * M)%Q).
Proof.
  intros K fp s S B H W e M zr EB LS He G V CI D L [ML0 MH0] FL Rr Br. rewrite <- pw_Qpower in ML0, MH0. destruct (raster_doubles K fp s S B H W e EB LS G V D L) as (r & E & Z & _ & _ & _ & N3 & N4 & _ & _ & Sp).
  exists r. repeat (split; [assumption|]). intros i j Hi Hj. destruct (Sp i j Hi Hj) as (zs & ds & Gv & Fv & Ec & Ev). destruct LS as (He' & _ & _ & _ & Hs & _).
  pose proof (given_length _ _ _ _ _ _ _ Gv) as Ln. clear Sp Z.
  assert (Forall2 (fun (z : Qc) d => represents d (this z) /\ (Qabs (this z) <= M)%Q) zs ds) as Fn.
  { clear Gv Ec Ev Ln. induction Fv as [|z d zs ds (f & If & Nd & Bf) _ IH]; constructor; auto. rewrite Forall_forall in FL, D. destruct (FL f If) as [X|(OP & h & Fl & Dh & Bh)]; [congruence|]. destruct (D f If) as [X|(b & _ & _ & St)]; [congruence|].
    destruct (both_flat K e s S f h z d Hs He CI V OP Fl Dh St Bf) as [-> Rd]. auto. }
  set (zd := dadd (pz (fp_ref fp)) dzero) in *. assert (represents zd (this zr)) as Rz by (apply add_zero; [exact Rr|apply represents_zero]). clearbody zd.
  assert (exists v, averages zs v) as (v & Av).
  { destruct zs as [|z zs']; [exists 0%Qc; split; auto; cbn [qsum]; ring|]. set (w := z :: zs'). exists (qsum w / qn (nsize w))%Qc. split; [discriminate|]. rewrite Qcmult_comm. apply Qcmult_div_r. apply qn_nonzero. unfold w, nsize. cbn [length]. lia. }
  exists zs, v. eexists. split; [exact Gv|]. split; [exact Av|]. split; [exact Ec|]. split; [exact Ev|]. destruct Av as [_ Av]. pose proof (Forall2_len Fn) as Len.
  split.
  - intros ->. inversion Fn; subst. change (running []) with dzero. destruct (Props_height.dmul_zero zd) as [b ->]; [now apply represents_real in Rz|]. destruct b; apply represents_zero.
  - intros Nz. destruct zs as [|z0 zs']; [congruence|]. set (zs := z0 :: zs') in *. rewrite (Props_height.dmul_one zd (proj1 Rz)).
    destruct (running_error M ML0 MH0 ds zs Fn ltac:(lia)) as [Rg Eg]. rewrite <- Len in Eg. set (n := Z.of_nat (length zs)) in *. assert (1 <= n <= 32768)%Z as Hn by (unfold n, zs in *; cbn [length] in *; lia).
    pose proof (M_pos M ML0) as PM. set (g := running ds) in *. clearbody g.
    assert (this v * zq n == this (qsum zs))%Q as Es. { rewrite <- Av. unfold Qcmult. rewrite Dq_proofs.this_Q2Qc. unfold qn. rewrite this_qz. unfold n. reflexivity. }
    assert (1 <= zq n <= 32768)%Q as Nq. { split; [change 1%Q with (zq 1)|change 32768%Q with (zq 32768)]; apply (proj1 (Round_proofs.qz_le _ _)); lia. }
    assert (Qabs (dval g - this v) <= 2 * u53 * (zq n + 1) * M)%Q as E1.
    { apply (Qmult_le_r _ _ (zq n)); [lra|]. assert (Qabs (dval g - this v) * zq n == Qabs (dval g * zq n - this (qsum zs)))%Q as ->. { rewrite <- (Qabs_pos (zq n)) at 1 by lra. rewrite <- Qabs_Qmult. apply Qabs_wd. rewrite <- Es. ring. }
      eapply Qle_trans; [exact Eg|]. apply Qle_lteq. right. ring. }
    assert (Qabs (this v) <= M)%Q as Bv.
    { assert (Forall (fun z : Qc => (Qabs (this z) <= M)%Q) zs) as Fb by (clear -Fn; induction Fn as [|? ? ? ? [_ X] F IH]; constructor; auto). pose proof (sum_bound M zs Fb) as Sb. fold n in Sb. rewrite <- Es, Qabs_Qmult, (Qabs_pos (zq n)) in Sb by lra. apply (Qmult_le_r _ _ (zq n)); [lra|]. now rewrite (Qmult_comm M). }
    assert (2 * u53 * (zq n + 1) * M <= (1 # 1000) * M)%Q as Sm. { apply Qmult_le_compat_r; [|lra]. unfold u53. lra. }
    assert (Qabs (dval g + this zr) <= 3 * M)%Q as B2. { eapply Qle_trans; [apply Qabs_triangle|]. pose proof (abs_near _ _ _ _ E1 Bv). lra. }
    destruct (small M ML0 MH0 (dval g + this zr) 3) as [L2 R2]; [lia|exact B2|]. pose proof (dadd_closest g zd _ _ (represents_dval g Rg) Rz R2) as C. pose proof (error M ML0 _ _ L2 C) as E2. set (d := dadd g zd) in *.
    exists (dval d). split; [apply represents_dval, C|]. rewrite this_plus. change (inject_Z (n + 3)) with (zq (n + 3)). rewrite Round_proofs.qz_add. change (zq 3) with 3%Q. assert (2 ^ (-52) == 2 * u53)%Q as -> by reflexivity.
    set (a := (2 * u53 * (zq n + 1) * M)%Q) in *. assert ((zq n + 3) * (2 * u53) * M == a + 4 * u53 * M)%Q as -> by (unfold a; ring).
    assert (u53 * Qabs (dval g + this zr) <= u53 * (3 * M))%Q as E3 by (apply Qmult_le_l; [reflexivity|exact B2]). assert (0 < u53 * M)%Q as P3 by (rewrite <- (Qmult_0_r u53); apply Qmult_lt_l; [reflexivity|exact PM]).
    assert (Qabs (dval d - (dval g + this zr)) <= 4 * u53 * M)%Q as E4. { eapply Qle_trans; [exact E2|]. lra. }
    apply Qabs_Qle_condition in E1, E4. apply Qabs_Qle_condition. split; lra.
Qed.

(** *** Three facets one above the other: a mean that is no double *)
Definition three_faces : list face2 := [Props_raster.flat_face (Props_raster.ibox 0 0 2 2) (qz 1); Props_raster.flat_face (Props_raster.ibox 0 0 2 2) (qz 0); Props_raster.flat_face (Props_raster.ibox 0 0 2 2) (qz 0)].
Example C101_means_example : let fp := Props_raster.foot three_faces (mkPoint (dofZ 100) (dofZ 200) (dofZ 2)) in let B := Props_raster.ibox 0 0 2 2 in
  br_box (fp_proj fp) = Some B /\ lattice_scene rects (-1) B (br_facets (fp_proj fp)) (dofZ 1) (qz 1) /\ grid B (qz 1) 2 2 /\ cuts_have_vertices rects /\ cuts_inside rects /\
  Forall (drawable rects B) (br_facets (fp_proj fp)) /\
  Forall (fun f => is_degenerate rects f = true \/ one_piece rects (qz 1) f /\ exists h, flat_at f h /\ is_double h /\ (Qabs (this h) <= 2)%Q) (br_facets (fp_proj fp)) /\
  represents (pz (fp_ref fp)) (this (qz 2)) /\ (Qabs (this (qz 2)) <= 2)%Q.
Proof.
  cbv zeta. split; [reflexivity|]. split.
  { split; [lia|]. split; [split; [|split; [|split]]; lattice_tac|]. split.
    - constructor; [|constructor; [|constructor; [|constructor]]]; (right; eexists; split; [vm_compute; reflexivity|]; split; [|split; [|split]]; lattice_tac).
    - split; [lattice_tac|]. split; [reflexivity|]. exact (dofZ_int 1 ltac:(lia)). }
  split; [Props_raster.grid_tac|]. split; [exact rects_vertices|]. split; [exact rects_inside|]. split.
  { constructor; [Props_raster.drawable_tac|constructor; [Props_raster.drawable_tac|constructor; [Props_raster.drawable_tac|constructor]]]. }
  split; [|split; [exact (dofZ_int 2 ltac:(lia))|vm_compute; discriminate]].
  assert (flat_at (Props_raster.flat_face (Props_raster.ibox 0 0 2 2) (qz 0)) (qz 0)) as F0.
  { split; [reflexivity|]. split; [reflexivity|]. split; [apply Qceqb_eq; vm_compute; reflexivity|]. split; [exists (dofZ 1); exact (dofZ_int 1 ltac:(lia))|]. exists dzero. exact (dofZ_int 0 ltac:(lia)). }
  constructor; [|constructor; [|constructor; [|constructor]]]; right; (split; [apply rects_one_piece|]).
  - exists (qz 1). split; [|split; [exists (dofZ 1); exact (dofZ_int 1 ltac:(lia))|vm_compute; discriminate]]. split; [reflexivity|]. split; [reflexivity|]. split; [apply Qceqb_eq; vm_compute; reflexivity|]. split; [exists (dofZ 1); exact (dofZ_int 1 ltac:(lia))|]. exists (dofZ (-1)). split; [reflexivity|]. eexists. split; reflexivity.
  - exists (qz 0). split; [exact F0|]. split; [exists dzero; exact (dofZ_int 0 ltac:(lia))|vm_compute; discriminate].
  - exists (qz 0). split; [exact F0|]. split; [exists dzero; exact (dofZ_int 0 ltac:(lia))|vm_compute; discriminate].
Qed.
