(** * Property C45 about the doubles of UNode::centroid: where the centre of a facet is. *)
From Verif Require Import Base Dbl Decimal Round_proofs Shadow Streams Handlers Spec_shadow Spec_text Spec_num Spec_arith.
From Verif Require Import Geom Surface Spec_surface Surface_proofs Facet_geom Prune_proofs Unode_proofs Projection Raster Edges Spec_edges Props_surface.
From Verif Require Import Arith_proofs Nearest_proofs Dq_proofs Dual Spec_dual Props_dual Props_dual2.
From Coq Require Import QArith Qcanon Qabs Lqa.
Import List.
Close Scope Q_scope.
Open Scope nat_scope.

Lemma represents_qd z q : represents z (this q) -> qd z = q /\ dfinite z = true /\ dvalid z = true.
Proof.
  intros (V & v & E & H). split; [|split; auto].
  - rewrite qd_value. apply Qc_is_canon. unfold value. rewrite this_Q2Qc, <- H. destruct z as [b|b| |b m e]; try discriminate E; injection E as <-; [reflexivity|]. cbn [dval]. change (inject_Z 2) with (2 # 1)%Q. destruct b; ring.
  - destruct z; cbn in E; try discriminate; reflexivity.
Qed.
Lemma represents_value x q : represents x (this q) -> value x = q.
Proof. intros H. rewrite <- qd_value. apply represents_qd in H. tauto. Qed.
Lemma a_double_dq q : a_double q -> represents (dq q) (this q).
Proof.
  intros [z Z]. destruct (Qc_eq_dec q 0) as [->|N].
  - split; [reflexivity|]. exists 0%Q. split; reflexivity.
  - pose proof (represents_qd z q Z) as (E & F & V). rewrite <- E, dq_qd; auto; [now rewrite E|now rewrite E].
Qed.
Lemma exact_root X L : a_double X -> a_double L -> (0 <= L)%Qc -> (L * L)%Qc = X -> value (root_d X) = L.
Proof.
  intros Dx [z Z] P E. apply represents_value. unfold root_d. eapply dsqrt_exact; [|exact P|exact Z]. eapply represents_ext; [|apply a_double_dq, Dx].
  rewrite <- E. unfold Qcmult. now rewrite this_Q2Qc.
Qed.
Lemma exact_centre s f pts c n : valid s -> In f (s_facets s) -> boundary s f pts -> facet_centre s f = Ok c -> unit_normal s f = Ok n ->
  (forall p q, In (p, q) (cyclic_pairs pts) -> a_double (det p q n)) -> c = Surface.centroid n (value (facet_area s f)) pts /\ value (facet_area s f) <> 0%Qc.
Proof.
  intros V I B Hc Hn D. destruct (proj1 (centre_defined s f pts c n V I B) (conj Hc Hn)) as (_ & _ & _ & Na & ->). split; auto. unfold Surface.centroid. f_equal.
  rewrite (fold_left_vsum (fun pq => vscale (det (fst pq) (snd pq) n / qz 6) (vadd (fst pq) (snd pq)))), pairs_cyclic.
  assert (forall l, (forall p q, In (p, q) l -> a_double (det p q n)) -> vscale (/ qz 6) (vsum (map (fun pq => vscale (value (dq (det (fst pq) (snd pq) n))) (vadd (fst pq) (snd pq))) l)) =
    vsum (map (fun pq => vscale (det (fst pq) (snd pq) n / qz 6) (vadd (fst pq) (snd pq))) l)) as G.
  { induction l as [|[p q] l IH]; intros Dl; cbn [map]; unfold vsum; cbn [fold_right]; [apply p3_eq; unfold vscale, v0; cbn [x3 y3 z3]; ring|].
    fold (vsum (map (fun pq => vscale (value (dq (det (fst pq) (snd pq) n))) (vadd (fst pq) (snd pq))) l)) (vsum (map (fun pq => vscale (det (fst pq) (snd pq) n / qz 6) (vadd (fst pq) (snd pq))) l)).
    rewrite <- IH by (intros; apply Dl; now right). cbn [fst snd]. rewrite (represents_value _ _ (a_double_dq _ (Dl p q (or_introl eq_refl)))).
    apply p3_eq; unfold vscale, vadd, Qcdiv; cbn [x3 y3 z3]; ring. }
  rewrite (G _ D). apply p3_eq; unfold vadd, v0; cbn [x3 y3 z3]; ring.
Qed.
(** the shoelace sum divided by any area *)
Lemma centroid_scaled u n a b l : a <> 0%Qc -> b <> 0%Qc -> (dot u (Surface.centroid n a l) * a)%Qc = (dot u (Surface.centroid n b l) * b)%Qc.
Proof. intros A B. rewrite !centroid_dot. field. repeat split; auto; apply qz_nonzero; lia. Qed.
(** Where the centre of a planar facet is, when the determinants of its sides with the normal
    are doubles: the area in use is that of the triangle of the first corner, so height and
    in-plane part are both off by the ratio of the areas, and the height by 2/3 *)
Theorem C45_facet s f pts c n h : valid s -> In f (s_facets s) -> boundary s f pts -> facet_centre s f = Ok c -> unit_normal s f = Ok n ->
  (forall p q, In (p, q) (cyclic_pairs pts) -> a_double (det p q n)) -> (forall p, In p pts -> dot n p = h) -> poly_area n pts <> 0%Qc ->
  (dot n c * value (facet_area s f) = qz 2 / qz 3 * h * poly_area n pts)%Qc /\
  forall u, dot u n = 0%Qc -> (dot u c * value (facet_area s f) = dot u (poly_center n pts) * poly_area n pts)%Qc.
Proof.
  intros V I B Hc Hn D Pl Na. destruct (exact_centre s f pts c n V I B Hc Hn D) as [-> Nv]. split.
  - rewrite (centroid_scaled n n _ (poly_area n pts)) by auto. now rewrite (C45_height n pts h Pl Na).
  - intros u Hu. rewrite (centroid_scaled u n _ (poly_area n pts)) by auto. now rewrite (C45_in_plane_part n pts u Hu).
Qed.
(** the area of a polygon along a vector is the product with its vector area *)
Lemma poly_area_vector n l : poly_area n l = dot n (area_vector l).
Proof.
  rewrite poly_area_cyclic. unfold area_vector, newell. rewrite dot_scale. f_equal. rewrite dot_vsum, map_map. f_equal. apply map_ext. intros [p q]. cbn [fst snd]. unfold det, dot, cross; cbn; ring.
Qed.
(** a triangle whose area is a double: two thirds of the height, right in the plane *)
Theorem C45_triangle s f p q r c n L : valid s -> In f (s_facets s) -> boundary s f [p; q; r] -> facet_centre s f = Ok c -> unit_normal s f = Ok n ->
  a_double (tri_sq_area p q r) -> a_double L -> (0 < L)%Qc -> (L * L)%Qc = tri_sq_area p q r ->
  (forall a b, In (a, b) (cyclic_pairs [p; q; r]) -> a_double (det a b n)) ->
  dot n n = 1%Qc /\ dot n p = dot n q /\ dot n q = dot n r /\
  dot n c = (qz 2 / qz 3 * dot n p)%Qc /\ forall u, dot u n = 0%Qc -> dot u c = dot u (vscale (/ qz 3) (vadd p (vadd q r))).
Proof.
  intros V I B Hc Hn Ds DL P E D. set (v := area_vector [p; q; r]).
  assert (dot v v = (L * L)%Qc) as Sq by (rewrite E; apply tri_vector).
  assert (L <> 0)%Qc as NL by (intros X; rewrite X in P; discriminate P).
  assert (value (root_d (dot v v)) = L) as Rt. { apply exact_root; auto. - rewrite Sq, E. exact Ds. - now apply Qclt_le_weak. }
  assert (v <> v0) as Nv. { intros X. rewrite X in Sq. unfold dot, v0 in Sq; cbn [x3 y3 z3] in Sq. assert (L * L = 0)%Qc as Z by (rewrite <- Sq; ring). apply Qcmult_integral in Z. tauto. }
  pose proof Hn as U. rewrite (unit_normal_of s f _ V I B) in U. fold v in U. unfold normalized3 in U. apply p3_eqb_neq in Nv. rewrite Nv in U. apply bind_Ok in U. destruct U as (qq & Q & U). apply exactly_Ok in Q. destruct Q as [_ ->]. rewrite Rt in U.
  destruct (Qceqb L 0) eqn:E0; [apply Qceqb_eq in E0; contradiction|]. apply Ok_inj in U.
  assert (forall w, dot n w = / L * dot v w)%Qc as Dn by (intros w; rewrite <- U; unfold dot, vscale; cbn [x3 y3 z3]; ring).
  assert (dot n v = L) as Pv by (rewrite Dn, Sq; field; auto).
  assert (dot n n = 1%Qc) as Un. { transitivity (/ L * dot n v)%Qc; [|rewrite Pv; now apply Qcmult_inv_l]. rewrite (Dn n). replace (dot v n) with (dot n v); auto. unfold dot; ring. }
  assert (forall x y z, dot v y = dot v x /\ dot v z = dot v x -> dot n x = dot n y /\ dot n y = dot n z) as Pl by (intros x y z [A C]; rewrite !Dn, A, C; auto).
  assert (dot v q = dot v p /\ dot v r = dot v p) as Vp.
  { unfold v, area_vector, newell, cyclic_pairs. cbn [combine app map fst snd]. unfold vsum; cbn [fold_right]. unfold dot, vadd, vscale, cross, v0; cbn [x3 y3 z3]. split; ring. }
  destruct (Pl p q r Vp) as [P1 P2]. split; auto. split; auto. split; auto.
  assert (value (facet_area s f) = L) as Ar. { rewrite facet_area_corner, (corner_triangle s f p q r V I B). apply exact_root; auto. now apply Qclt_le_weak. }
  assert (poly_area n [p; q; r] = L) as Pa by (rewrite poly_area_vector; exact Pv).
  destruct (C45_facet s f [p; q; r] c n (dot n p) V I B Hc Hn D) as [H1 H2].
  { intros x [<-|[<-|[<-|[]]]]; congruence. } { now rewrite Pa. }
  rewrite Ar, Pa in *. split.
  - assert (dot n c = dot n c * L / L)%Qc as -> by (field; auto). rewrite H1. field. split; auto. apply qz_nonzero; lia.
  - intros u Hu. specialize (H2 u Hu). assert (dot u c = dot u c * L / L)%Qc as -> by (field; auto). rewrite H2.
    assert (poly_center n [p; q; r] = vscale (/ qz 3) (vadd p (vadd q r))) as ->; [|field; auto]. unfold poly_center. rewrite Pa. cbn [triangles map]. unfold vsum; cbn [fold_right]. assert (tri_area n (p, q, r) = L) as T. { rewrite <- Pa. unfold poly_area. cbn [triangles map]. unfold qsum; cbn [fold_right]. ring. }
    rewrite T. unfold tri_center. apply p3_eq; unfold vscale, vadd, v0; cbn [x3 y3 z3]; field; split; auto; apply qz_nonzero; lia.
Qed.

(** ** Cases *)
Lemma a_double_int z : (Z.abs z < 2 ^ 53)%Z -> a_double (Geom.qz z).
Proof. intros H. destruct (int_double z H) as [x X]. exists x. eapply represents_ext; [|exact X]. unfold Geom.qz. now rewrite this_Q2Qc. Qed.
(** a triangle at height 3: its centre is written at height 2 *)
Example C45_triangle_example : exists c n, boundary raised 0 [pt 4 1 3; pt 4 5 3; pt 1 1 3] /\ facet_centre raised 0 = Ok c /\ unit_normal raised 0 = Ok n /\
  a_double (tri_sq_area (pt 4 1 3) (pt 4 5 3) (pt 1 1 3)) /\ a_double (Geom.qz 6) /\ (Geom.qz 6 * Geom.qz 6)%Qc = tri_sq_area (pt 4 1 3) (pt 4 5 3) (pt 1 1 3) /\
  (forall a b, In (a, b) (cyclic_pairs [pt 4 1 3; pt 4 5 3; pt 1 1 3]) -> a_double (det a b n)) /\ n = pt 0 0 1 /\ c = P3 (Geom.qz 3) (Geom.qz 7 / Geom.qz 3) (Geom.qz 2).
Proof.
  exists (P3 (Geom.qz 3) (Geom.qz 7 / Geom.qz 3)%Qc (Geom.qz 2)), (pt 0 0 1). split; [apply boundary_points; [apply raised_valid|now left|vm_compute; reflexivity]|].
  assert (forall (o : outcome p3) q, (match o with Ok x => p3_eqb x q | _ => false end) = true -> o = Ok q) as G by (intros [x| |] q H; try discriminate; apply p3_eqb_eq in H; now subst).
  split; [apply G; vm_compute; reflexivity|]. split; [apply G; vm_compute; reflexivity|].
  assert (tri_sq_area (pt 4 1 3) (pt 4 5 3) (pt 1 1 3) = Geom.qz 36) as T by (apply Qceqb_eq; vm_compute; reflexivity). rewrite T.
  split; [now apply a_double_int|]. split; [now apply a_double_int|]. split; [apply Qceqb_eq; vm_compute; reflexivity|]. split; [|split; reflexivity].
  intros a b H. cbn [cyclic_pairs combine app] in H. destruct H as [H|[H|[H|[]]]]; injection H as <- <-.
  - replace (det _ _ _) with (Geom.qz 16) by (apply Qceqb_eq; vm_compute; reflexivity). now apply a_double_int.
  - replace (det _ _ _) with (Geom.qz (-1)) by (apply Qceqb_eq; vm_compute; reflexivity). now apply a_double_int.
  - replace (det _ _ _) with (Geom.qz (-3)) by (apply Qceqb_eq; vm_compute; reflexivity). now apply a_double_int.
Qed.
(** a square through the origin: the centre is at its corner *)
Theorem C45_polygon_refuted : exists s f pts c n, valid s /\ In f (s_facets s) /\ boundary s f pts /\ facet_centre s f = Ok c /\ unit_normal s f = Ok n /\
  (forall p q, In (p, q) (cyclic_pairs pts) -> a_double (det p q n)) /\ (forall p, In p pts -> dot n p = 0%Qc) /\ poly_area n pts <> 0%Qc /\
  c = vscale (Geom.qz 2) (poly_center n pts) /\ c <> poly_center n pts.
Proof.
  exists plate1, 0, [pt 1 0 0; pt 1 1 0; pt 0 1 0; pt 0 0 0], (pt 1 1 0), (pt 0 0 1). split; [apply plate1_valid|]. split; [now left|]. split; [apply boundary_points; [apply plate1_valid|now left|vm_compute; reflexivity]|].
  assert (forall (o : outcome p3) q, (match o with Ok x => p3_eqb x q | _ => false end) = true -> o = Ok q) as G by (intros [x| |] q H; try discriminate; apply p3_eqb_eq in H; now subst).
  split; [apply G; vm_compute; reflexivity|]. split; [apply G; vm_compute; reflexivity|]. split; [|split; [|split; [|split]]].
  - intros a b H. cbn [cyclic_pairs combine app] in H. destruct H as [H|[H|[H|[H|[]]]]]; injection H as <- <-.
    + replace (det _ _ _) with (Geom.qz 1) by (apply Qceqb_eq; vm_compute; reflexivity). now apply a_double_int.
    + replace (det _ _ _) with (Geom.qz 1) by (apply Qceqb_eq; vm_compute; reflexivity). now apply a_double_int.
    + replace (det _ _ _) with (Geom.qz 0) by (apply Qceqb_eq; vm_compute; reflexivity). now apply a_double_int.
    + replace (det _ _ _) with (Geom.qz 0) by (apply Qceqb_eq; vm_compute; reflexivity). now apply a_double_int.
  - intros p [<-|[<-|[<-|[<-|[]]]]]; apply Qceqb_eq; vm_compute; reflexivity.
  - intros H. apply Qceqb_eq in H. revert H. vm_compute. discriminate.
  - apply p3_eqb_eq. vm_compute. reflexivity.
  - apply p3_eqb_neq. vm_compute. reflexivity.
Qed.
