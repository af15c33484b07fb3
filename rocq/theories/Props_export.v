(** * Property C85: exporting a node as a mesh; scenes of surfaces stored in files. *)
From Coq Require Import String.
From Verif Require Import Base Dbl Dbl_facts Geom Decimal Shadow Spec_shadow Shadow_proofs Streams Spec_text Handlers Spec_io Surface Spec_surface
  Surface_proofs Props_surface Raster Dq_proofs Export Spec_export Spec_arith Props_mesheq Scenefile_proofs Props_io Scenes_proofs Props_scenes.
Close Scope string_scope.
Open Scope nat_scope.

Lemma numbers_index s v : NoDup (s_vertices s) -> In v (s_vertices s) -> exists i, vertex_index s v = Ok i /\ numbers s v i /\ (i < nsize (s_vertices s))%N.
Proof.
  intros Nd H. destruct (position_In _ _ H) as (i & E & L). exists (N.of_nat i). unfold vertex_index, numbers. rewrite E, Nnat.Nat2N.id. split; auto.
  split; [now apply position_Some|]. unfold nsize. lia.
Qed.
Lemma face_of_facet_ok s f : valid s -> NoDup (s_vertices s) -> In f (s_facets s) -> exists vs fc, face_of_facet s f = Ok fc /\ corners s f vs /\
  Forall2 (numbers s) vs fc /\ Forall (fun i => (i < nsize (s_vertices s))%N) fc.
Proof.
  intros V Nd Hf. destruct (around_facet_ok _ _ V Hf) as (r & Hr & E & C & I). unfold face_of_facet. rewrite E. cbn [bind].
  assert (forall h, In h (s_rep s f :: r) -> In h (s_halfedges s)) as In_h.
  { intros h Hh. now apply I. }
  exists (map (s_vert s) (s_rep s f :: r)).
  assert (exists fc, omapM (fun h => vertex_index s (s_vert s h)) (s_rep s f :: r) = Ok fc /\ Forall2 (numbers s) (map (s_vert s) (s_rep s f :: r)) fc /\ Forall (fun i => (i < nsize (s_vertices s))%N) fc) as (fc & A & B & D).
  { revert In_h. generalize (s_rep s f :: r). clear -V Nd. induction l as [|h l IH]; intros H.
    - exists []. repeat split; constructor.
    - destruct (numbers_index s (s_vert s h) Nd) as (i & E & N1 & N2). { apply (va_vert s V h). apply H. now left. }
      destruct IH as (fc & A & B & D). { intros k Hk. apply H. now right. }
      exists (i :: fc). split; [apply omapM_Ok; constructor; [exact E|now apply omapM_Ok]|]. split; constructor; auto. }
  exists fc. split; auto. split; [exists r; auto|]. split; auto.
Qed.
Lemma shown_point_of tod p : shown tod p = point_of tod p.
Proof. reflexivity. Qed.
Lemma export_shows tod n s : valid s -> NoDup (s_vertices s) -> exists m, mesh_of_surface tod n s = Ok m /\ m_name m = n /\ shows tod s m.
Proof.
  intros V Nd. unfold mesh_of_surface. set (P := map (fun v => point_of tod (s_point s v)) (s_vertices s)).
  assert (forall fs, (forall f, In f fs -> In f (s_facets s)) -> exists F, omapM (face_of_facet s) fs = Ok F /\
    Forall2 (fun f fc => exists vs, corners s f vs /\ Forall2 (numbers s) vs fc) fs F) as A.
  { induction fs as [|f fs IH]; intros H; [exists []; split; auto; constructor|].
    destruct (face_of_facet_ok s f V Nd) as (vs & fc & E & C & B & _). { apply H; now left. }
    destruct IH as (F & E' & C'). { intros g Hg. apply H; now right. }
    exists (fc :: F). split; [apply omapM_Ok; constructor; [auto|now apply omapM_Ok]|]. constructor; eauto. }
  destruct (A (s_facets s) (fun _ h => h)) as (F & E & C). rewrite E. cbn [bind]. eexists. split; [reflexivity|]. split; [reflexivity|].
  assert (P = map (shown tod) (points s)) as HP by (unfold P, points; rewrite map_map; reflexivity).
  split; [exact HP|]. split; [exact C|]. split; [|apply compute_bbox_tight].
  unfold polygons. cbn [m_points m_faces]. clear E A. induction C as [|f fc fs F (vs & (r & C & ->) & B) HC IH]; [constructor|]. cbn [map]. constructor; [|exact IH].
  exists (map (fun h => s_point s (s_vert s h)) (s_rep s f :: r)). split; [exists r; auto|]. rewrite map_map. clear -B. revert fc B. generalize (s_rep s f :: r).
  induction l as [|h l IH]; intros fc B; inversion B; subst; [reflexivity|]. cbn [map]. f_equal; [|apply IH; auto].
  unfold P. rewrite nth_error_map. match goal with H : numbers _ _ _ |- _ => unfold numbers in H; rewrite H end. reflexivity.
Qed.

Lemma corners_fun s f a b : corners s f a -> corners s f b -> a = b.
Proof. intros (r & C & ->) (r' & C' & ->). now rewrite (cycle_head_fun _ _ _ _ C C'). Qed.
Lemma corners_exist s f : valid s -> In f (s_facets s) -> exists vs, corners s f vs.
Proof. intros V H. destruct (va_cycle s V f H) as (r & _ & C & _). exists (map (s_vert s) (s_rep s f :: r)), r. auto. Qed.
Lemma numbers_bound s v i : numbers s v i -> (i < nsize (s_vertices s))%N.
Proof. unfold numbers. intros H. assert (N.to_nat i < length (s_vertices s)) by (apply nth_error_Some; congruence). unfold nsize. lia. Qed.
Lemma shows_wf tod s m : valid s -> shows tod s m -> (mesh_wf m <-> proper s).
Proof.
  intros V (HP & HF & _ & _). assert (nsize (m_points m) = nsize (s_vertices s)) as HL by (rewrite HP; unfold nsize, points; now rewrite !map_length). split.
  - intros W f vs Hf C. revert W. unfold mesh_wf. revert Hf. induction HF as [|g fc fs F (vs' & C' & N) HF IH]; intros Hf W; [destruct Hf|]. destruct Hf as [->|Hf].
    + rewrite (corners_fun _ _ _ _ C C'), (Forall2_len N). apply W. now left.
    + apply IH; auto. intros x Hx. apply W. now right.
  - intros Pr fc Hfc. rewrite HL. assert (exists f, In f (s_facets s) /\ exists vs, corners s f vs /\ Forall2 (numbers s) vs fc) as (f & Hf & vs & C & N).
    { clear -HF Hfc. induction HF as [|g x fs F H HF IH]; [destruct Hfc|]. destruct Hfc as [<-|Hfc]; [exists g; split; [now left|auto]|]. destruct (IH Hfc) as (f & Hf & R). exists f. split; [now right|auto]. }
    split; [rewrite <- (Forall2_len N); eapply Pr; eauto|]. intros i Hi. clear -N Hi. induction N as [|v j vs fc H N IH]; [destruct Hi|]. destruct Hi as [<-|Hi]; [eapply numbers_bound; eauto|auto].
Qed.

(** C85: every point and every facet of the surface, in order *)
Theorem C85_export : forall tod n s, valid s -> NoDup (s_vertices s) -> exists m, mesh_of_surface tod n s = Ok m /\ m_name m = n /\ shows tod s m /\ (mesh_wf m <-> proper s).
Proof. intros tod n s V Nd. destruct (export_shows tod n s V Nd) as (m & E & N & S). exists m. split; auto. split; auto. split; auto. eapply shows_wf; eauto. Qed.
Theorem C85_node : forall tod u, valid (b_surface (u_surf u)) -> NoDup (s_vertices (b_surface (u_surf u))) ->
  exists m, mesh_of_unode tod u = Ok m /\ node_mesh tod u = m /\ m_name m = u_name u /\ shows tod (b_surface (u_surf u)) m.
Proof. intros tod u V Nd. destruct (export_shows tod (u_name u) _ V Nd) as (m & E & N & S). exists m. unfold node_mesh, mesh_of_unode. rewrite E. auto. Qed.
(** transforming the node transforms the exported points only *)
Theorem C85_transform : forall tod t u m, mesh_of_unode tod u = Ok m -> exists m', mesh_of_unode tod (affine_transform t u) = Ok m' /\
  m_name m' = m_name m /\ m_faces m' = m_faces m /\ m_points m' = map (fun p => shown tod (aff_apply t p)) (points (b_surface (u_surf u))) /\ tight_box (m_points m') (m_bbox m').
Proof.
  intros tod t u m H. unfold mesh_of_unode, mesh_of_surface in *. cbn [u_surf b_surface affine_transform u_name]. set (s := b_surface (u_surf u)) in *.
  change (omapM (face_of_facet (map_points (aff_apply t) s)) (s_facets (map_points (aff_apply t) s))) with (omapM (face_of_facet s) (s_facets s)).
  destruct (omapM (face_of_facet s) (s_facets s)) as [F| |]; try discriminate. cbn [bind] in *. apply Ok_inj in H as <-. eexists. split; [reflexivity|].
  split; [reflexivity|]. split; [reflexivity|]. split; [|apply compute_bbox_tight]. cbn [m_points s_vertices map_points s_point]. unfold points. rewrite map_map. reflexivity.
Qed.

(** ** A mesh made into a node and exported again *)
Lemma exact_points_ok P Q : omapM exact_point P = Ok Q <-> (forall p, In p P -> all_finite p) /\ Forall2 at_point P Q.
Proof.
  rewrite omapM_Ok. split.
  - intros H. assert (forall p q, exact_point p = Ok q -> all_finite p /\ at_point p q) as A.
    { unfold exact_point, all_finite, at_point. intros p q E. destruct (dfinite (px p)), (dfinite (py p)), (dfinite (pz p)); cbn in E; try discriminate. apply Ok_inj in E as <-. cbn [x3 y3 z3]. repeat split; reflexivity. }
    split; [|clear -H A; induction H; constructor; auto; now apply A].
    intros p Hp. induction H as [|a b P Q H0 H IH]; [destruct Hp|]. destruct Hp as [<-|Hp]; [eapply A; eauto|auto].
  - intros [Fi A]. induction A as [|p q P Q (A1 & A2 & A3) A IH]; constructor; [|apply IH; intros; apply Fi; now right].
    destruct (Fi p (or_introl eq_refl)) as (F1 & F2 & F3). unfold exact_point. rewrite F1, F2, F3. cbn [andb]. rewrite <- A1, <- A2, <- A3. now destruct q.
Qed.
Lemma exact_point_cases p : all_finite p \/ exact_point p = UB.
Proof.
  unfold exact_point, all_finite. destruct (dfinite (px p)), (dfinite (py p)), (dfinite (pz p)); auto.
Qed.
Lemma numbers_fun s v i j : NoDup (s_vertices s) -> numbers s v i -> numbers s v j -> i = j.
Proof.
  unfold numbers. intros Nd A B. apply Nnat.N2Nat.inj. apply (proj1 (NoDup_nth_error (s_vertices s)) Nd); [apply nth_error_Some; congruence|congruence].
Qed.
Lemma numbers_list_fun s vs fc fc' : NoDup (s_vertices s) -> Forall2 (numbers s) vs fc -> Forall2 (numbers s) vs fc' -> fc = fc'.
Proof. intros Nd A. revert fc'. induction A; intros fc' B; inversion B; subst; auto. f_equal; auto. eapply numbers_fun; eauto. Qed.
Lemma shown_same tod P : exact_on_doubles tod -> forall Q, (forall p, In p P -> pt_real p) -> Forall2 at_point P Q -> Forall2 same_point P (map (shown tod) Q).
Proof.
  intros T Q R A. induction A as [|p q P Q (A1 & A2 & A3) A IH]; cbn [map]; constructor; [|apply IH; intros; apply R; now right].
  destruct (R p (or_introl eq_refl)) as ((R1 & R2) & (R3 & R4) & (R5 & R6)). unfold same_point, shown. cbn [px py pz]. rewrite A1, A2, A3. repeat split; apply T; auto.
Qed.
Lemma built_export tod n P F s : built_as P F s -> exists m, mesh_of_surface tod n s = Ok m /\ m_name m = n /\ m_points m = map (shown tod) P /\ Forall2 rotation F (m_faces m) /\ shows tod s m.
Proof.
  intros (V & Nd & HP & HF). destruct (export_shows tod n s V Nd) as (m & E & N & S). exists m. split; auto. split; auto. pose proof S as (S1 & S2 & _). rewrite <- HP. split; auto. split; auto.
  clear -HF S2 Nd. revert F HF. induction S2 as [|f fc fs G (vs & C & M) S IH]; intros F HF; inversion HF; subst; constructor; auto.
  match goal with H : exists vs fc', _ |- _ => destruct H as (vs' & fc' & C' & R & M') end. rewrite (corners_fun _ _ _ _ C' C) in M'. now rewrite (numbers_list_fun _ _ _ _ Nd M M').
Qed.
(** the node made from a mesh whose polygons CGAL takes as they are: exported again, it gives
    an equal mesh of the same name *)
Theorem C85_round_trip : forall T tod m P s ref epsg, exact_on_doubles tod -> simple_faces m -> (forall p, In p (m_points m) -> pt_real p) -> Forall2 at_point (m_points m) P ->
  t_orient T P (m_faces m) = (P, m_faces m) -> t_build T P (m_faces m) = Ok s -> built_as P (m_faces m) s ->
  (exists h, In h (s_halfedges s) /\ s_facet s h = None) \/ t_outward T s = true ->
  exists u m', unode_of_mesh T m ref epsg = Ok u /\ u_name u = m_name m /\ u_ref u = ref /\ u_epsg u = epsg /\ b_surface (u_surf u) = s /\
    mesh_of_unode tod u = Ok m' /\ m_name m' = m_name m /\ mesh_eqb m m' = Ok true /\ tight_box (m_points m') (m_bbox m').
Proof.
  intros T tod m P s ref epsg HT Si Re AP Ho Hb B Hc. unfold unode_of_mesh, body_of_mesh, get_cgal_points, get_cgal_faces.
  assert (omapM exact_point (m_points m) = Ok P) as ->. { apply exact_points_ok. split; auto. intros p Hp. destruct (Re p Hp) as ((_ & A) & (_ & D) & (_ & E)). repeat split; auto. }
  cbn [bind]. unfold body_of_soup. rewrite Ho, Hb. cbn [bind].
  assert (is_closed s && negb (t_outward T s) = false) as ->.
  { destruct Hc as [(h & Hh & Hf)| ->]; [|apply andb_false_r]. apply andb_false_iff. left. unfold is_closed. apply not_true_iff_false. rewrite forallb_forall. intros Q. specialize (Q h Hh). unfold is_border in Q. now rewrite Hf in Q. }
  destruct (built_export tod (m_name m) P (m_faces m) s B) as (m' & E & N & Pm & Fm & S). do 2 eexists. split; [reflexivity|]. split; [reflexivity|]. split; [reflexivity|]. split; [reflexivity|]. split; [reflexivity|].
  split; [exact E|]. split; [exact N|]. split; [|apply S]. apply C77_mesh_equality; auto. split; [|exact Fm]. rewrite Pm. now apply shown_same.
Qed.
(** a closed surface facing inwards: every face comes back in the opposite direction *)
Theorem C85_inward : forall T tod m P s ref epsg F, (forall p, In p (m_points m) -> all_finite p) -> Forall2 at_point (m_points m) P ->
  t_orient T P (m_faces m) = (P, m_faces m) -> t_build T P (m_faces m) = Ok s -> (forall h, In h (s_halfedges s) -> s_facet s h <> None) -> t_outward T s = false ->
  built_as P F (t_reverse T s) -> Forall2 (fun a b => rotation (rev a) b) (m_faces m) F ->
  exists u m', unode_of_mesh T m ref epsg = Ok u /\ mesh_of_unode tod u = Ok m' /\ m_points m' = map (shown tod) P /\ Forall2 (fun a b => rotation (rev a) b) (m_faces m) (m_faces m').
Proof.
  intros T tod m P s ref epsg F Fi AP Ho Hb Cl Ou B R. unfold unode_of_mesh, body_of_mesh, get_cgal_points, get_cgal_faces.
  assert (omapM exact_point (m_points m) = Ok P) as -> by (apply exact_points_ok; auto).
  cbn [bind]. unfold body_of_soup. rewrite Ho, Hb. cbn [bind].
  assert (is_closed s && negb (t_outward T s) = true) as ->.
  { rewrite Ou, andb_true_r. unfold is_closed. apply forallb_forall. intros h Hh. specialize (Cl h Hh). unfold is_border. destruct (s_facet s h); [reflexivity|congruence]. }
  destruct (built_export tod (m_name m) P F _ B) as (m' & E & N & Pm & Fm & S). do 2 eexists. split; [reflexivity|]. split; [exact E|]. split; [exact Pm|].
  clear -R Fm. revert Fm. generalize (m_faces m'). intros G Fm. revert R. generalize (m_faces m). intros L R.
  assert (forall x y z, rotation x y -> rotation y z -> rotation x z) as RT.
  { intros x y z (u & v & -> & ->) (u' & v' & E & ->). apply app_eq_app in E as (l & [(-> & ->)|(-> & ->)]).
    - exists (u ++ u'), l. rewrite <- !app_assoc. auto.
    - exists l, (v' ++ v). rewrite <- !app_assoc. auto. }
  revert G Fm. induction R as [|a b L F H R IH]; intros G Fm; inversion Fm; subst; constructor; eauto.
Qed.
(** what a node made from a mesh or from a soup holds: the surface CGAL builds from the oriented
    soup, reversed if it is closed and not outward, and its bounding box, or the default box
    where there is no vertex *)
Definition made_from (T : soup_tools) (P : list p3) (F : list (list N)) (b : body) : Prop :=
  exists s, t_build T (fst (t_orient T P F)) (snd (t_orient T P F)) = Ok s /\
    ((forall h, In h (s_halfedges s) -> s_facet s h <> None) /\ t_outward T s = false /\ b_surface b = t_reverse T s \/
     ~ ((forall h, In h (s_halfedges s) -> s_facet s h <> None) /\ t_outward T s = false) /\ b_surface b = s) /\
    (s_vertices (b_surface b) = [] -> b_box b = t_no_box T) /\ (s_vertices (b_surface b) <> [] -> b_box b = t_bbox T (b_surface b)).
Lemma is_closed_spec s : is_closed s = true <-> forall h, In h (s_halfedges s) -> s_facet s h <> None.
Proof.
  unfold is_closed, is_border. rewrite forallb_forall. split; intros H h I; specialize (H h I); destruct (s_facet s h); cbn in *; congruence.
Qed.
Lemma soup_made T P F b : body_of_soup T P F = Ok b -> made_from T P F b.
Proof.
  unfold body_of_soup, made_from. destruct (t_orient T P F) as [P' F']. cbn [fst snd]. intros H. apply bind_Ok in H as (s & E & H). exists s. split; auto. apply Ok_inj in H. subst b. cbn [b_surface b_box].
  pose proof (is_closed_spec s) as C. split.
  - destruct (is_closed s) eqn:Ec; [destruct (t_outward T s) eqn:Eo|]; cbn [andb negb].
    + right. split; auto. intros [_ X]. discriminate.
    + left. split; [now apply C|auto].
    + right. split; auto. intros [X _]. apply C in X. discriminate.
  - split; intros X; [now rewrite X|]. destruct (s_vertices _); [congruence|reflexivity].
Qed.
Theorem C85_made : forall T m ref epsg u, unode_of_mesh T m ref epsg = Ok u ->
  u_name u = m_name m /\ u_ref u = ref /\ u_epsg u = epsg /\ exists P, Forall2 at_point (m_points m) P /\ made_from T P (m_faces m) (u_surf u).
Proof.
  intros T m ref epsg u H. unfold unode_of_mesh in H. apply bind_Ok in H as (b & E & H). apply Ok_inj in H. subst u. cbn [u_name u_ref u_epsg u_surf]. do 3 (split; [reflexivity|]).
  unfold body_of_mesh in E. apply bind_Ok in E as (P & E & H). exists P. split; [|now apply soup_made].
  unfold get_cgal_points in E. apply omapM_Ok in E. clear - E. induction E as [|p q l k X E IH]; constructor; auto. unfold exact_point in X. destruct (_ && _); [|discriminate]. apply Ok_inj in X. subst q. repeat split.
Qed.
(** from points and polygons: the same, and the caller's points and polygons are left oriented *)
Theorem C85_soup : forall T n P F ref epsg,
  (forall u P' F', unode_of_soup T n P F ref epsg = Ok (u, (P', F')) -> u_name u = n /\ u_ref u = ref /\ u_epsg u = epsg /\ made_from T P F (u_surf u) /\ (P', F') = t_orient T P F) /\
  (forall m, Forall2 at_point (m_points m) P -> (forall p, In p (m_points m) -> all_finite p) -> m_name m = n -> m_faces m = F -> t_orient T P F = (P, F) ->
     unode_of_soup T n P F ref epsg = (let* u := unode_of_mesh T m ref epsg in Ok (u, (P, F)))).
Proof.
  intros T n P F ref epsg. split.
  - intros u P' F' H. unfold unode_of_soup in H. apply bind_Ok in H as (b & E & H). apply Ok_inj in H. assert (mkUNode n ref epsg b = u /\ t_orient T P F = (P', F')) as [<- X] by (split; congruence). cbn [u_name u_ref u_epsg u_surf]. repeat (split; [reflexivity|]). split; [now apply soup_made|auto].
  - intros m A Fi <- <- O. unfold unode_of_soup, unode_of_mesh, body_of_mesh, get_cgal_points. assert (omapM exact_point (m_points m) = Ok P) as -> by (apply exact_points_ok; auto). cbn [bind]. rewrite O. unfold get_cgal_faces. destruct (body_of_soup T P (m_faces m)); reflexivity.
Qed.
(** coordinates that are no numbers: undefined *)
Theorem C85_not_finite : forall T m ref epsg p, In p (m_points m) -> ~ all_finite p -> unode_of_mesh T m ref epsg = UB.
Proof.
  intros T m ref epsg p Hp Nf. unfold unode_of_mesh, body_of_mesh, get_cgal_points. assert (omapM exact_point (m_points m) = UB) as ->; [|reflexivity].
  induction (m_points m) as [|a P IH]; [destruct Hp|]. cbn [omapM]. destruct (exact_point_cases a) as [Fa|E]; [|now rewrite E]. destruct Hp as [->|Hp]; [contradiction|].
  destruct (exact_point a) as [b| |] eqn:E; cbn [bind]; [now rewrite (IH Hp)| |reflexivity]. unfold exact_point in E. destruct (_ && _); discriminate.
Qed.

(** ** Scenes of surfaces in files *)
Lemma Forall2_In_r {A B} (R : A -> B -> Prop) l k : Forall2 R l k -> forall b, In b k -> exists a, In a l /\ R a b.
Proof. induction 1 as [|a b l k H F IH]; intros c Hc; [destruct Hc|]. destruct Hc as [<-|Hc]; [exists a; split; [now left|auto]|]. destruct (IH c Hc) as (x & Hx & Q). exists x. split; [now right|auto]. Qed.
Lemma facet_degree s f vs : valid s -> In f (s_facets s) -> corners s f vs -> length vs <= length (s_halfedges s).
Proof.
  intros V Hf (r & C & ->). destruct (va_cycle s V f Hf) as (r' & _ & C' & I). rewrite <- (cycle_head_fun _ _ _ _ C C') in I. rewrite map_length.
  apply NoDup_incl_length; [now apply cycle_NoDup in C|]. intros h Hh. now apply I.
Qed.
Lemma facets_bound s : valid s -> length (s_facets s) <= length (s_halfedges s).
Proof.
  intros V. rewrite <- (map_length (s_rep s)). apply NoDup_incl_length.
  - assert (forall f, In f (s_facets s) -> s_facet s (s_rep s f) = Some f) as A by (intros f Hf; destruct (va_cycle s V f Hf) as (r & _ & _ & I); apply I; now left).
    pose proof (va_fs s V) as Nd. revert A. induction Nd as [|f l Hn Nd IH]; intros A; [constructor|]. cbn [map]. constructor; [|apply IH; intros; apply A; now right].
    intros H. apply in_map_iff in H as (g & E & Hg). pose proof (A g (or_intror Hg)) as Q1. pose proof (A f (or_introl eq_refl)) as Q2. rewrite E, Q2 in Q1. injection Q1 as ->. auto.
  - intros h H. apply in_map_iff in H as (f & <- & Hf). destruct (va_cycle s V f Hf) as (r & _ & _ & I). apply I. now left.
Qed.
Lemma shows_storable tod s m : (forall p, In p (points s) -> pt_real (shown tod p)) -> valid s -> proper s -> addressable s -> shows tod s m -> storable m.
Proof.
  intros R V Pr (A1 & A2) S. pose proof (proj2 (shows_wf _ _ _ V S) Pr) as W. destruct S as (S1 & S2 & _). unfold nsize in A1, A2.
  assert (length (m_points m) = length (s_vertices s)) as L by (rewrite S1; unfold points; now rewrite !map_length).
  split; [rewrite S1; intros p Hp; apply in_map_iff in Hp as (q & <- & Hq); now apply R|]. split; [|].
  - intros fc Hfc. destruct (W fc Hfc) as [W1 W2]. destruct (Forall2_In_r _ _ _ S2 fc Hfc) as (f & Hf & vs & C & N). pose proof (facet_degree s f vs V Hf C) as D.
    rewrite (Forall2_len N) in D. split; auto. unfold nsize in *. change (2 ^ 60)%N with 1152921504606846976%N in *. split; [lia|]. intros i Hi. specialize (W2 i Hi). unfold two64. lia.
  - pose proof (facets_bound s V) as D. assert (length (s_facets s) = length (m_faces m)) as E by exact (Forall2_len S2). unfold nsize, two64. change (2 ^ 60)%N with 1152921504606846976%N in *. lia.
Qed.
Lemma node_storable tod u : good_node tod u -> storable (node_mesh tod u) /\ m_name (node_mesh tod u) = u_name u /\ shows tod (b_surface (u_surf u)) (node_mesh tod u) /\ mesh_wf (node_mesh tod u).
Proof.
  intros (V & Nd & Pr & A & R). destruct (C85_node tod u V Nd) as (m & _ & -> & N & S). split; [eapply shows_storable; eauto|]. split; auto. split; auto. now apply (shows_wf tod (b_surface (u_surf u))).
Qed.
Lemma came_back_of tod s m x : shows tod s m -> rereads m x -> came_back tod s x.
Proof. intros (S1 & S2 & _) (E & P). split; [now rewrite <- S1|now rewrite E]. Qed.
Theorem C85_off_scene : forall tod T X f d mw mr s,
  fs_tree f -> is_map mw -> is_map mr -> granted mw "write" -> granted mr "read" ->
  no_nul d -> d <> [] -> f d = None -> f (removelast d) = Some Dir ->
  (forall u, In u (sc_terrain s :: sc_buildings s) -> good_node tod u /\ file_safe (u_name u)) ->
  NoDup (map u_name (sc_buildings s)) -> u_name (sc_terrain s) = lit "terrain" ->
  (forall u, In u (sc_buildings s) -> u_name u <> lit "terrain") ->
  exists f', scene_write (node_mesh tod) f (mkSceneH d mw off) s = (f', Ok tt) /\
    forall ls, lists f' d ls -> exists bs ms t, Permutation bs (sc_buildings s) /\
      Forall2 (fun u x => m_name x = u_name u /\ came_back tod (b_surface (u_surf u)) x) bs ms /\
      m_name t = lit "terrain" /\ came_back tod (b_surface (u_surf (sc_terrain s))) t /\
      scene_read X (body_of_mesh T) f' ls (mkSceneH d mr off) = scene_make (body_of_mesh T) ms t point_default 2154.
Proof.
  intros tod T X f d mw mr s Hf Mw Mr Gw Gr Nn Nd Fd Fr Hu ND Ht Hb.
  destruct (C34_off_scene_round_trip body (node_mesh tod) (body_of_mesh T) X f d mw mr s Hf Mw Mr Gw Gr Nn Nd Fd Fr) as (f' & E & K); auto.
  { intros u Hu'. destruct (Hu u Hu') as [G S]. destruct (node_storable tod u G) as (A & B & _). auto. }
  exists f'. split; auto. intros ls Hl. destruct (K ls Hl) as (bs & ms & t & P & F & N & RT & SR). exists bs, ms, t. split; auto. split; [|split; auto; split; auto].
  - assert (forall u, In u bs -> good_node tod u) as G by (intros u Hu'; apply Hu; right; eapply Permutation_in; eauto).
    clear -F G. induction F as [|u x bs ms (A & B) F IH]; constructor; [|apply IH; intros; apply G; now right]. split; auto.
    destruct (node_storable tod u (G u (or_introl eq_refl))) as (_ & _ & S & _). eapply came_back_of; eauto.
  - destruct (node_storable tod (sc_terrain s)) as (_ & _ & S & _); [apply Hu; now left|]. eapply came_back_of; eauto.
Qed.
Theorem C85_obj_scene : forall tod T X f p mw mr s,
  is_map mw -> is_map mr -> granted mw "write" -> granted mr "read" ->
  no_nul p -> p <> [] -> f (removelast p) = Some Dir -> f p <> Some Dir ->
  (forall u, In u (sc_buildings s ++ [sc_terrain s]) -> good_node tod u /\ no_space (u_name u)) ->
  NoDup (map u_name (sc_buildings s ++ [sc_terrain s])) -> u_name (sc_terrain s) = lit "terrain" ->
  (fold_right N.add 0 (map (fun u => nsize (s_vertices (b_surface (u_surf u)))) (sc_buildings s ++ [sc_terrain s])) < 2 ^ 53)%N ->
  exists f', scene_write (node_mesh tod) f (mkSceneH p mw obj) s = (f', Ok tt) /\ differ_only_at p f f' /\
    exists bs ms t, Permutation bs (sc_buildings s) /\
      Forall2 (fun u x => m_name x = u_name u /\ mesh_wf x /\ exists pgs, Forall2 (fun f pg => exists pts, boundary (b_surface (u_surf u)) f pts /\ pg = map (fun p => Some (shown tod p)) pts)
         (s_facets (b_surface (u_surf u))) pgs /\ poly_reads_back pgs (polygons x)) bs ms /\
      m_name t = lit "terrain" /\ (exists pgs, Forall2 (fun f pg => exists pts, boundary (b_surface (u_surf (sc_terrain s))) f pts /\ pg = map (fun p => Some (shown tod p)) pts)
         (s_facets (b_surface (u_surf (sc_terrain s)))) pgs /\ poly_reads_back pgs (polygons t)) /\
      forall ls, scene_read X (body_of_mesh T) f' ls (mkSceneH p mr obj) = scene_make (body_of_mesh T) ms t point_default 2154.
Proof.
  intros tod T X f p mw mr s Mw Mr Gw Gr Nn Np Fr Fp Hu ND Ht Hs.
  assert (forall u, In u (sc_buildings s ++ [sc_terrain s]) -> m_name (node_mesh tod u) = u_name u) as Nm. { intros u H. destruct (Hu u H) as [G _]. now apply (node_storable tod u G). }
  destruct (C79_obj_scene_round_trip body (node_mesh tod) (body_of_mesh T) X f p mw mr s Mw Mr Gw Gr Nn Np Fr Fp) as (f' & c & E & D & _ & _ & bs & ms & t & P & _ & F & N & RT & _ & SR); auto.
  { split; [destruct (sc_buildings s); discriminate|]. split; [|split].
    - intros m Hm. apply in_map_iff in Hm as (u & <- & H). destruct (Hu u H) as [G Ns]. destruct (node_storable tod u G) as (St & Nu & _ & W). rewrite Nu. split; auto. split; auto. apply St.
    - rewrite map_map. replace (map (fun x => m_name (node_mesh tod x)) (sc_buildings s ++ [sc_terrain s])) with (map (@u_name body) (sc_buildings s ++ [sc_terrain s])); auto.
      apply map_ext_in. intros u H. symmetry. now apply Nm.
    - unfold sum_points. match goal with |- (?x < _)%N => replace x with (fold_right N.add 0 (map (fun u => nsize (s_vertices (b_surface (u_surf u)))) (sc_buildings s ++ [sc_terrain s])))%N; auto end.
      clear -Hu. induction (sc_buildings s ++ [sc_terrain s]) as [|u l IH]; [reflexivity|]. cbn [map fold_right]. rewrite IH by (intros; apply Hu; now right). f_equal.
      destruct (node_storable tod u) as (_ & _ & (S & _) & _); [apply Hu; now left|]. rewrite S. unfold nsize, points. now rewrite !map_length. }
  exists f'. split; auto. split; auto. exists bs, ms, t. split; auto.
  assert (forall u, In u (sc_buildings s ++ [sc_terrain s]) -> Forall2 (fun f pg => exists pts, boundary (b_surface (u_surf u)) f pts /\ pg = map (fun p => Some (shown tod p)) pts) (s_facets (b_surface (u_surf u))) (polygons (node_mesh tod u))) as Sh.
  { intros u H. destruct (Hu u H) as [G _]. now apply (node_storable tod u G). }
  split; [|split; auto; split; auto].
  - assert (forall u, In u bs -> In u (sc_buildings s ++ [sc_terrain s])) as G by (intros u H; apply in_or_app; left; eapply Permutation_in; eauto).
    clear -F G Sh. induction F as [|u x bs ms (A & B & C) F IH]; constructor; [|apply IH; intros; apply G; now right]. split; auto. split; auto. exists (polygons (node_mesh tod u)). split; auto. apply Sh. apply G. now left.
  - exists (polygons (node_mesh tod (sc_terrain s))). split; auto. apply Sh. apply in_or_app. right. now left.
Qed.

(** ** Examples *)
Lemma exact_dq : exact_on_doubles dq.
Proof.
  intros x V F. destruct (Qc_eq_dec (qd x) 0) as [E|N]; [|rewrite dq_qd by auto; apply deqb_refl; now destruct x].
  destruct x as [b| | |b m e]; try discriminate; [destruct b; reflexivity|]. exfalso. revert E. pose proof (qd_val b m e) as Q. pose proof (val_pos m e) as P. intros E. rewrite E in Q. change (this 0%Qc) with 0%Q in Q.
  destruct b; revert P Q; generalize (zq (Zpos m) * Round_proofs.pw 2 e)%Q; intros q P Q; Lqa.lra.
Qed.

Lemma built_self tod n s m : valid s -> NoDup (s_vertices s) -> mesh_of_surface tod n s = Ok m -> built_as (points s) (m_faces m) s.
Proof.
  intros V Nd E. destruct (export_shows tod n s V Nd) as (m' & E' & _ & (_ & F & _)). rewrite E in E'. apply Ok_inj in E' as <-. split; auto. split; auto. split; auto.
  clear -F. induction F as [|f fc fs G (vs & C & M) F IH]; constructor; auto. exists vs, fc. split; auto. split; auto. exists [], fc. now rewrite app_nil_r.
Qed.
Lemma proper_check s : valid s -> forallb (fun f => match around_facet s f with Ok (_ :: _ :: _ :: _) => true | _ => false end) (s_facets s) = true -> proper s.
Proof.
  intros V H f vs Hf (r & C & ->). rewrite forallb_forall in H. specialize (H f Hf). rewrite (around_facet_cycle s f r V Hf C) in H.
  destruct r as [|a [|b r]]; try discriminate. cbn. lia.
Qed.
Definition tetra_node : unode body := mkUNode (lit "hall") p123 2154 (mkBody tetra (mkBox3 (pt 0 0 0) (pt 1 1 1))).
Definition square_node : unode body := mkUNode (lit "terrain") p123 2154 (mkBody square2 (mkBox3 (pt 0 0 0) (pt 1 1 0))).
Lemma tetra_good : good_node dq tetra_node.
Proof.
  split; [exact tetra_valid|]. split; [apply nodup_b_NoDup; vm_compute; reflexivity|]. split; [apply (proper_check _ tetra_valid); vm_compute; reflexivity|].
  split; [split; vm_compute; reflexivity|]. intros p H. cbn in H. repeat (destruct H as [<-|H]; [repeat split; vm_compute; reflexivity|]). destruct H.
Qed.
Lemma square_good : good_node dq square_node.
Proof.
  split; [exact square2_valid|]. split; [apply nodup_b_NoDup; vm_compute; reflexivity|]. split; [apply (proper_check _ square2_valid); vm_compute; reflexivity|].
  split; [split; vm_compute; reflexivity|]. intros p H. cbn in H. repeat (destruct H as [<-|H]; [repeat split; vm_compute; reflexivity|]). destruct H.
Qed.
Definition hamlet : scene body := mkScene p123 2154 [tetra_node] square_node.
Definition exported_faces (o : outcome mesh) : list (list N) := match o with Ok m => m_faces m | _ => [] end.
Definition exported_sizes (o : outcome mesh) : nat * str := match o with Ok m => (length (m_points m), m_name m) | _ => (0, []) end.
Example C85_example : exported_faces (mesh_of_unode dq tetra_node) = [[2; 1; 0]; [1; 3; 0]; [2; 3; 1]; [0; 3; 2]]%N /\ exported_sizes (mesh_of_unode dq tetra_node) = (4, lit "hall") /\
  (forall u, In u (sc_terrain hamlet :: sc_buildings hamlet) -> good_node dq u /\ file_safe (u_name u) /\ no_space (u_name u)) /\ exact_on_doubles dq.
Proof.
  split; [vm_compute; reflexivity|]. split; [vm_compute; reflexivity|]. split; [|exact exact_dq].
  intros u [<-|[<-|[]]]; (split; [exact square_good || exact tetra_good|]); (split; [repeat split; cbn; intuition discriminate|]); intros c Hc; cbn in Hc; repeat (destruct Hc as [<-|Hc]; [reflexivity|]); destruct Hc.
Qed.
(** the hypotheses of the round trip: the open square, and the closed tetrahedron *)
Definition square_tools : soup_tools := mkTools (fun P F => (P, F)) (fun _ _ => Ok square2) (fun _ => true) (fun s => s) (fun _ => mkBox3 (pt 0 0 0) (pt 1 1 0)) (mkBox3 v0 v0).
Definition square_mesh : mesh := node_mesh dq square_node.
Example C85_round_trip_example : simple_faces square_mesh /\ (forall p, In p (m_points square_mesh) -> pt_real p) /\ Forall2 at_point (m_points square_mesh) (points square2) /\
  built_as (points square2) (m_faces square_mesh) square2 /\ (exists h, In h (s_halfedges square2) /\ s_facet square2 h = None) /\
  exists u, unode_of_mesh square_tools square_mesh p123 2154 = Ok u /\ mesh_of_unode dq u = Ok square_mesh.
Proof.
  destruct (C85_node dq square_node square2_valid) as (m & E & Em & N & S). { apply nodup_b_NoDup; vm_compute; reflexivity. }
  assert (square_mesh = m) as Q by exact Em.
  assert (m_faces square_mesh = [[1; 2; 0]; [3; 0; 2]]%N) as Fm by (vm_compute; reflexivity).
  split. { unfold simple_faces. rewrite Fm. intros f [<-|[<-|[]]]; (split; [repeat constructor; cbn; intuition discriminate|discriminate]). }
  split. { rewrite Q. destruct S as (-> & _). intros p H. apply in_map_iff in H as (q & <- & Hq). now apply square_good. }
  split. { rewrite Q. destruct S as (-> & _). assert (forall p, In p (points square2) -> at_point (shown dq p) p) as A.
    { intros p H. cbn in H. repeat (destruct H as [<-|H]; [repeat split; apply Qc_is_canon; vm_compute; reflexivity|]). destruct H. }
    change (points (b_surface (u_surf square_node))) with (points square2). revert A. generalize (points square2). induction l as [|p l IH]; intros A; cbn [map]; constructor; [apply A; now left|apply IH; intros; apply A; now right]. }
  split. { rewrite Q. eapply (built_self dq); [exact square2_valid|apply nodup_b_NoDup; vm_compute; reflexivity|exact E]. }
  split. { exists 6. split; vm_compute; auto 10. }
  exists (mkUNode (m_name square_mesh) p123 2154 (mkBody square2 (mkBox3 (pt 0 0 0) (pt 1 1 0)))). split; [vm_compute; reflexivity|]. rewrite Q. unfold mesh_of_unode in *. cbn [u_name u_surf b_surface]. rewrite N. exact E.
Qed.
