(** * Property C104, the other way: OBJ to OFF and back to OBJ. *)
From Coq Require Import String.
From Verif Require Import Base Dbl Dbl_facts Geom Decimal Shadow Spec_shadow Shadow_proofs Streams Spec_text Off_proofs Handlers Spec_io Handlers_proofs Surface Spec_surface
  Surface_proofs Obj_proofs Edges_proofs Props_text Props_obj Objw_proofs Props_cli2 Props_surface Projection Raster Ogr Dq_proofs Export Spec_export Spec_arith Props_mesheq Scenefile_proofs Props_io Spec_scenes Scenes_proofs Props_scenes Props_export Cli Spec_cli Props_cli Spec_convert Props_convert Spec_repeat Spec_back Props_back.
Import List.
Close Scope string_scope.
Open Scope nat_scope.

Lemma overs_impl (P Q : point -> point -> Prop) a b : (forall x y, P x y -> Q x y) -> Forall2 (polygon_over P) a b -> Forall2 (polygon_over Q) a b.
Proof.
  intros H F. induction F as [|x y l k (c & T & G) F IH]; constructor; auto. exists c. split; auto. clear -G H. induction G as [|o o' l k (p & q & -> & -> & X) G IH]; constructor; auto. exists p, q. auto.
Qed.
(** the file of a mesh in an OFF directory *)
Lemma off_gives_back f d x y' : (forall q, In q (m_points x) -> pt_real q) -> simple_faces x -> mesh_wf x -> off_savable x -> same_mesh x y' -> f (d ++ [m_name x ++ lit ".off"]) = Some (File (off_write y')) ->
  exists z, stored_as f (d ++ [m_name x ++ lit ".off"]) (m_name x) z /\ mesh_wf z /\ nsize (m_points z) = nsize (m_points x) /\
    Forall2 (polygon_over (fun p q => exists p', same_point p p' /\ pt_reads_back p' q)) (polygons x) (polygons z).
Proof.
  intros Re Si Wf Ox S F. destruct (same_mesh_parts x y' Si S) as (Ny & P & Fa). pose proof (faces_over same_point x y' Wf P Fa) as O1. pose proof (same_wf x y' Si S Wf) as Wy. pose proof (same_size x y' Si S) as Sy.
  assert (off_savable y') as Sv. { pose proof Ox as (_ & _ & Nl & Np & _). apply (savable_over same_point x y' Ox O1 Wy); [now apply (same_real x y')|now rewrite Ny|now rewrite Sy]. }
  destruct (C21_off_round_trip y' Sv) as (z & Rz & Fz & Pz & _ & _). assert (nsize (m_points z) = nsize (m_points y')) as Sz by (unfold nsize; now rewrite (Forall2_len Pz)).
  exists (mkMesh (m_name x) (m_points z) (m_faces z) (m_bbox z)). split; [exists (off_write y'), z; repeat split; auto|]. split; [intros g; cbn [m_faces m_points]; rewrite Fz, Sz; apply Wy|]. split; [cbn [m_points]; congruence|].
  refine (overs_trans _ pt_reads_back _ _ _ _ _ O1 _); [intros u v k Su Bu; exists v; auto|].
  apply (faces_over pt_reads_back y' (mkMesh (m_name x) (m_points z) (m_faces z) (m_bbox z))); cbn [m_points m_faces]; [exact Wy|exact Pz|rewrite Fz; apply rotation_refl].
Qed.
Lemma stored_same f p a x z : stored_as f p a x -> stored_as f p a z -> x = z.
Proof. intros (c & r & F & R & N & P & Fa & B) (c' & r' & F' & R' & N' & P' & Fa' & B'). rewrite F in F'. injection F' as <-. rewrite R in R'. apply Ok_inj in R'. subst r'. destruct x, z. cbn in *. congruence. Qed.
Lemma choose {A B} (R : A -> B -> Prop) l : (forall a, In a l -> exists b, R a b) -> exists k, Forall2 R l k.
Proof. induction l as [|a l IH]; intros H; [exists []; constructor|]. destruct (H a) as [b Hb]; [now left|]. destruct IH as [k K]; [intros; apply H; now right|]. exists (b :: k). now constructor. Qed.
Definition buildings_of (xs : list mesh) : list mesh := filter (fun x => negb (str_eqb (m_name x) (lit "terrain"))) xs.
Lemma split_terrain xs t : NoDup (map m_name xs) -> In t xs -> m_name t = lit "terrain" -> interleave (buildings_of xs) [t] xs.
Proof.
  intros Nd Ht Tn. apply in_split in Ht. destruct Ht as (pre & post & ->). rewrite map_app in Nd. cbn [map] in Nd. apply NoDup_remove_2 in Nd. rewrite Tn in Nd. unfold buildings_of.
  assert (forall l, ~ In (lit "terrain") (map m_name l) -> filter (fun x => negb (str_eqb (m_name x) (lit "terrain"))) l = l) as Q.
  { intros l. induction l as [|x l IH]; intros H; [auto|]. cbn [filter]. destruct (str_eqb (m_name x) (lit "terrain")) eqn:Ex; [exfalso; apply H; left; now apply str_eqb_eq in Ex|]. cbn [negb]. rewrite IH; auto. intros I'; apply H; now right. }
  rewrite filter_app. cbn [filter]. assert (str_eqb (m_name t) (lit "terrain") = true) as -> by now apply str_eqb_eq. cbn [negb]. rewrite (Q pre), (Q post); [|intros I'; apply Nd, in_or_app; now right|intros I'; apply Nd, in_or_app; now left].
  clear. induction pre as [|a pre IH]; cbn [app]; constructor; auto. induction post; constructor; auto.
Qed.
Lemma interleave_map {A B} (f : A -> B) a b l : interleave a b l -> interleave (map f a) (map f b) (map f l).
Proof. induction 1; cbn [map]; constructor; auto. Qed.
Lemma interleave_perm {A} (a b l : list A) : interleave a b l -> Permutation (a ++ b) l.
Proof. induction 1 as [|x a b l I' IH|x a b l I' IH]; [constructor|cbn; now constructor|]. rewrite <- IH. symmetry. apply Permutation_middle. Qed.
Lemma sum_points_perm a b : Permutation a b -> sum_points a = sum_points b.
Proof. unfold sum_points. induction 1; cbn [fold_right]; lia. Qed.
Section BACK.
Context (T : soup_tools) (tod : Qc -> dbl) (E : exact_on_doubles tod) (X : externals) (prune : body -> outcome body) (line : surface -> nat -> outcome str) (listing : fs -> path -> list str).
Notation convert := (format_main X (body_of_mesh T) b_surface (node_mesh tod) prune line listing).
(** OBJ file to OFF directory and back to an OBJ file *)
Theorem C104_obj_and_back : forall m1 a1 m2 a2 w c rs,
  format_given m1 a1 -> fa_prune a1 = false -> fa_graphs a1 = false -> fa_format a1 = lit "OBJ" -> fa_outfmt a1 = lit "OFF" ->
  format_given m2 a2 -> fa_prune a2 = false -> fa_graphs a2 = false -> fa_format a2 = lit "OFF" -> fa_outfmt a2 = lit "OBJ" ->
  let d := fa_out a1 in let p2 := fa_out a2 in resolves (fa_path a2) d ->
  ends_with_ci (filename (fa_path a1)) (lit ".obj") -> no_nul (fa_path a1) -> w_fs w (fa_path a1) = Some (File c) -> obj_read c = Ok rs ->
  (exists t, In t rs /\ m_name t = lit "terrain") -> (forall x, In x rs -> taken_as_is T x) -> portable rs ->
  fs_tree (w_fs w) -> no_nul d -> d <> [] -> w_fs w d = None -> w_fs w (removelast d) = Some Dir ->
  ends_with_ci (filename p2) (lit ".obj") -> no_nul p2 -> p2 <> [] -> apart p2 d -> w_fs w p2 <> Some Dir -> w_fs w (removelast p2) = Some Dir ->
  exists w1, convert (PArgs m1) w = (w1, Exit 0 None, []) /\ only_in [d] (w_fs w) (w_fs w1) /\
    (forall n, w_fs w1 (d ++ [n]) <> None <-> exists x, In x rs /\ n = m_name x ++ lit ".off") /\
    (forall x, In x rs -> exists z, stored_as (w_fs w1) (d ++ [m_name x ++ lit ".off"]) (m_name x) z /\ over x z) /\
    (lists (w_fs w1) d (listing (w_fs w1) d) -> (forall x z, In x rs -> stored_as (w_fs w1) (d ++ [m_name x ++ lit ".off"]) (m_name x) z -> taken_as_is T z) ->
     exists w2 c2 rs2, convert (PArgs m2) w1 = (w2, Exit 0 None, []) /\ differ_only_at p2 (w_fs w1) (w_fs w2) /\ w_fs w2 p2 = Some (File c2) /\ obj_read c2 = Ok rs2 /\
       (forall n, In n (map m_name rs2) <-> In n (map m_name rs)) /\
       forall x, In x rs -> exists r, In r rs2 /\ m_name r = m_name x /\ over x r).
Proof.
  intros m1 a1 m2 a2 w c xs G1 Pr1 Gr1 Fi1 Fo1 G2 Pr2 Gr2 Fi2 Fo2 d p2 Rd Ex N1 Fc Rr (t & Htx & Tn) Tk Po Ft Nd Zd Fr Fd Ex2 N2 Z2 Ap Fp2 Fd2. assert (Po' := Po). destruct Po' as [Sv Off].
  destruct (lone_terrain T X (w_fs w) (fa_path a1) c xs t) as (bs0 & Pe & Sc); auto; [rewrite (os_path_plain _ N1); exact Fc|apply Sv|]. set (b' := mkMesh (m_name t) (m_points t) (m_faces t) (m_bbox mesh_empty)) in *.
  assert (forall r, In r xs <-> In r bs0 \/ r = t) as Ip. { intros r. split; intros H; [apply (Permutation_in r (Permutation_sym Pe)) in H; apply in_app_or in H as [H|[<-|[]]]; auto|]. apply (Permutation_in r Pe), in_or_app. destruct H as [H| ->]; [now left|right; now left]. }
  assert (forall x', In x' (bs0 ++ [b']) -> exists x, In x xs /\ m_name x' = m_name x /\ m_points x' = m_points x /\ m_faces x' = m_faces x) as Ip1. { intros r Hr. apply in_app_or in Hr as [Hr|[<-|[]]]; [exists r; split; [apply Ip; now left|auto]|exists t; auto]. }
  assert (forall x, In x xs -> exists x', In x' (bs0 ++ [b']) /\ m_name x' = m_name x /\ m_points x' = m_points x /\ m_faces x' = m_faces x) as Ip2. { intros r Hr. apply Ip in Hr as [Hr| ->]; [exists r; split; [apply in_or_app; now left|auto]|exists b'; split; [apply in_or_app; right; now left|auto]]. }
  destruct (C92_to_off T tod E X prune line listing m1 a1 w bs0 b') as (f1 & R1 & O1 & D1 & Fn0 & Ff0); auto.
  { split; [exact G1|]. do 2 (split; [assumption|]). split.
    - exists (mkSceneH (fa_path a1) [(lit "read", true)] obj), (fa_path a1), point_default, 2154%N. split; [rewrite Fi1; now apply named_ok|]. split; [right; split; auto; now apply obj_not_dot|apply Sc].
    - intros r Hr. apply in_app_or in Hr as [Hr|[<-|[]]]; [apply Tk, Ip; now left|exact (Tk t Htx)]. }
  { intros r Hr. destruct (Ip1 r Hr) as (x & Hx & Q & _). rewrite Q. now apply Off. }
  { replace (map m_name (bs0 ++ [b'])) with (map m_name (bs0 ++ [t])) by (rewrite !map_app; reflexivity). apply (Permutation_NoDup (l := map m_name xs)); [apply Permutation_map; now symmetry|apply Sv]. }
  fold d in O1, D1, Fn0, Ff0.
  assert (forall n, f1 (d ++ [n]) <> None <-> exists x, In x xs /\ n = m_name x ++ lit ".off") as Fn.
  { intros n. rewrite Fn0. split; intros (x & Hx & ->); [destruct (Ip1 x Hx) as (y & Hy & Q & _)|destruct (Ip2 x Hx) as (y & Hy & Q & _)]; exists y; split; auto; now rewrite Q. }
  assert (forall x, In x xs -> exists y, same_mesh x y /\ f1 (d ++ [m_name x ++ lit ".off"]) = Some (File (off_write y))) as Ff.
  { intros x Hx. destruct (Ip2 x Hx) as (x' & Hx' & Q1 & Q2 & Q3). destruct (Ff0 x' Hx') as (y & [S1 S2] & Fy). exists y. rewrite <- Q1. split; auto. split; [congruence|]. unfold mesh_eqb in *. now rewrite <- Q2, <- Q3. }
  exists (mkWorld f1 (w_vectors w) (w_rasters w)). cbn [w_fs]. split; [exact R1|]. split; [exact O1|]. split; [exact Fn|].
  assert (forall x, In x xs -> simple_faces x) as Si by (intros x Hx; apply (Tk x Hx)). assert (forall x p, In x xs -> In p (m_points x) -> pt_real p) as Re by (intros x p Hx; apply (Tk x Hx)).
  assert (forall x, In x xs -> mesh_wf x) as Wf by (intros x Hx; now apply Sv).
  assert (forall x, In x xs -> exists z, stored_as f1 (d ++ [m_name x ++ lit ".off"]) (m_name x) z /\ mesh_wf z /\ nsize (m_points z) = nsize (m_points x) /\
    Forall2 (polygon_over (fun p q => (pt_real p /\ pt_not_tiny p) /\ exists p', same_point p p' /\ pt_reads_back p' q)) (polygons x) (polygons z)) as Gv.
  { intros x Hx. destruct (Ff x Hx) as (y & S & Fy). destruct (Off x Hx) as (Ox & _ & Ti). destruct (off_gives_back f1 d x y (fun q => Re x q Hx) (Si x Hx) (Wf x Hx) Ox S Fy) as (z & Sz & Wz & Nz & Oz). exists z. split; auto. split; auto. split; auto.
    apply overs_In; auto. intros l q Hl Hq. pose proof (polygon_points x l q Hl Hq) as Hp. split; [now apply (Re x)|now apply Ti]. }
  split. { intros x Hx. destruct (Gv x Hx) as (z & Sz & _ & _ & Oz). exists z. split; auto. refine (overs_impl _ _ _ _ _ Oz). intros u v ((Ru & _) & k & Su & Bu). now apply (pt_once u k v). }
  intros Li Tz. set (nm := fun x : mesh => m_name x ++ lit ".off").
  assert (forall x y, nm x = nm y -> m_name x = m_name y) as Nj by (intros x y Q; unfold nm in Q; now apply app_inv_tail in Q).
  assert (NoDup (map m_name xs)) as NDn by apply Sv.
  assert (NoDup (map nm xs)) as NDx. { unfold nm. rewrite <- (map_map m_name (fun n => n ++ lit ".off")). apply FinFun.Injective_map_NoDup; auto. intros n n' Q. now apply app_inv_tail in Q. }
  destruct Li as [Ln Li]. assert (Permutation (listing f1 d) (map nm xs)) as Pl. { apply NoDup_Permutation; auto. intros n. rewrite Li, Fn. split; [intros (x & Hx & ->); apply in_map_iff; exists x; auto|intros H; apply in_map_iff in H as (x & <- & Hx); exists x; auto]. }
  destruct (Permutation_map_inv _ _ Pl) as (xs' & El & Px). symmetry in Px.
  assert (forall x, In x xs' <-> In x xs) as Ix by (intros x; split; apply Permutation_in; [exact Px|now symmetry]).
  assert (In t xs') as Ht by now apply Ix.
  assert (NoDup (map m_name xs')) as NDx' by (apply (Permutation_NoDup (l := map m_name xs)); [apply Permutation_map; now symmetry|exact NDn]).
  pose proof (split_terrain xs' t NDx' Ht Tn) as Is. set (bs := buildings_of xs') in *.
  assert (forall x, In x (bs ++ [t]) -> In x xs) as Ib by (intros x Hx; apply Ix; eapply Permutation_in; [exact (interleave_perm _ _ _ Is)|exact Hx]).
  assert (forall x, In x bs -> m_name x <> lit "terrain") as Nbt. { intros x Hx Q. unfold bs, buildings_of in Hx. apply filter_In in Hx. destruct Hx as [_ Hx]. rewrite (proj2 (str_eqb_eq _ _) Q) in Hx. discriminate. }
  set (rel := fun x z : mesh => stored_as f1 (d ++ [nm x]) (m_name x) z /\ mesh_wf z /\ nsize (m_points z) = nsize (m_points x) /\
    Forall2 (polygon_over (fun p q => (pt_real p /\ pt_not_tiny p) /\ exists p', same_point p p' /\ pt_reads_back p' q)) (polygons x) (polygons z)).
  destruct (choose rel bs) as (zs & Fz); [intros x Hx; apply Gv, Ib, in_or_app; now left|]. destruct (Gv t) as (zt & Rt); [apply Ib, in_or_app; right; now left|].
  assert (Forall2 rel (bs ++ [t]) (zs ++ [zt])) as Fzz by (apply Forall2_app; [exact Fz|constructor; [exact Rt|constructor]]).
  assert (forall z, In z (zs ++ [zt]) -> taken_as_is T z) as Tk2. { intros z Hz. destruct (Forall2_In_r _ _ _ Fzz z Hz) as (x & Hx & Sz & _). exact (Tz x z (Ib x Hx) Sz). }
  assert (map m_name (zs ++ [zt]) = map m_name (bs ++ [t])) as Nz. { clear -Fzz. induction Fzz as [|x z l k ((c & r & _ & _ & Q & _) & _) F IH]; auto. cbn [map]. congruence. }
  assert (Permutation (bs ++ [t]) xs) as Pb by (rewrite (interleave_perm _ _ _ Is); exact Px).
  assert (obj_savable (zs ++ [zt])) as Sv2.
  { split; [destruct zs; discriminate|]. split; [|split].
    - intros z Hz. destruct (Forall2_In_r _ _ _ Fzz z Hz) as (x & Hx & (c0 & r0 & _ & _ & Q & _) & Wz & _). split; auto. split; [rewrite Q; now apply Sv, Ib|]. apply (Tk2 z Hz).
    - rewrite Nz. apply (Permutation_NoDup (l := map m_name xs)); [apply Permutation_map; now symmetry|exact NDn].
    - replace (sum_points (zs ++ [zt])) with (sum_points xs); [apply Sv|]. rewrite <- (sum_points_perm _ _ Pb). clear -Fzz. unfold sum_points. induction Fzz as [|x z l k (_ & _ & Q & _) F IH]; auto. cbn [fold_right]. now rewrite IH, Q. }
  assert (forall n, f1 (d ++ [n]) <> None -> ~ In nul n) as Nn. { intros n H. apply Fn in H. destruct H as (x & Hx & ->). intros Q. apply in_app_or in Q as [Q|Q]; [destruct (Off x Hx) as (_ & (_ & Z0 & _) & _); exact (Z0 Q)|cbn in Q; intuition discriminate]. }
  assert (forall q, (forall r, q <> d ++ r) -> w_fs w q = f1 q) as Out. { intros q H. symmetry. apply O1. intros e r [<-|[]]. apply H. }
  destruct (C92_off_to_obj T tod E X prune line listing m2 a2 (mkWorld f1 (w_vectors w) (w_rasters w)) d (map nm bs) [nm t] zs zt G2 Pr2 Gr2 Fi2 Fo2 Rd Nd) as (f2 & ys & c2 & R2 & D2 & FS & OW & Fc2); cbn [w_fs w_vectors w_rasters]; auto.
  - intros n H. apply Li in H. now apply Nn.
  - rewrite El. exact (interleave_map nm bs [t] xs' Is).
  - clear -Fz Nbt. revert Nbt. induction Fz as [|x z l k (Sz & _) F IH]; intros Nbt; cbn [map]; constructor; [|apply IH; intros; apply Nbt; now right]. exists (m_name x). split; [exists (lit ".off"); split; [reflexivity|]; repeat (constructor; [now left|]); constructor|]. split; [apply Nbt; now left|exact Sz].
  - intros n [<-|[]] (_ & a & Na & Za). apply Za. rewrite <- (off_named_stem d _ _ Na). rewrite <- Tn. apply off_named_stem. exists (lit ".off"). split; [reflexivity|]; repeat (constructor; [now left|]); constructor.
  - destruct Rt as (Rt & _). unfold nm in Rt. rewrite Tn in Rt. exact Rt.
  - fold p2. rewrite <- (Out p2); [exact Fp2|]. intros r Q. apply (Ap [] r). now rewrite app_nil_r.
  - fold p2. rewrite <- (Out (removelast p2)); [exact Fd2|]. intros r Q. destruct (exists_last Z2) as (q & e & Ep). rewrite Ep, removelast_last in Q. apply (Ap [] (r ++ [e])). rewrite app_nil_r, Ep, Q. now rewrite app_assoc.
  - destruct Sv2 as (_ & _ & _ & L). change (2 ^ 53)%N with 9007199254740992%N in L. unfold two64. lia.
  - fold p2 in D2, Fc2. assert (forall z, In z (zs ++ [zt]) -> simple_faces z) as Si2 by (intros z Hz; apply (Tk2 z Hz)).
    destruct (obj_gives_back c2 (zs ++ [zt]) ys Sv2 Si2 FS OW) as (rs2 & Rr2 & _ & Nm2 & Ea). exists (mkWorld f2 (w_vectors w) (w_rasters w)), c2, rs2. cbn [w_fs]. split; [exact R2|]. split; [exact D2|]. split; [exact Fc2|]. split; [exact Rr2|]. split.
    + intros n. rewrite Nm2, Nz. split; apply Permutation_in; apply Permutation_map; [exact Pb|now symmetry].
    + intros x Hx. destruct (Forall2_In_l _ _ _ Fzz x) as (z & Hz & (c0 & r0 & _ & _ & Q & _) & Wz & _ & Oz); [eapply Permutation_in; [symmetry; exact Pb|exact Hx]|]. destruct (Forall2_In_l _ _ _ FS z Hz) as (y & Hy & S). destruct (Ea z y Hz S Hy) as (r & Hr & Nr & P & _). exists r. split; auto. split; [congruence|].
      destruct (same_mesh_parts z y (Si2 z Hz) S) as (_ & Py & Fy). pose proof (faces_over same_point z y Wz Py Fy) as O3.
      refine (overs_trans (fun p q => (pt_real p /\ pt_not_tiny p) /\ exists q1 q2, same_point p q1 /\ pt_reads_back q1 q2 /\ same_point q2 q) _ _ _ _ _ _ _ (reads_over _ _ P)).
      * intros u v k ((Ru & Tu) & q1 & q2 & S1 & B1 & S2) B2. now apply (pt_twice u q1 q2 v k).
      * refine (overs_trans _ _ _ _ _ _ _ Oz O3). intros u v k (Ru & q1 & Su & Bu) Sk. split; auto. exists q1, v. auto.
Qed.
End BACK.

(** ** Example: an OBJ file to OFF and back *)
Definition start_text : str := match obj_write [mesh_make (lit "Hut") flat_points flat_faces; mesh_make (lit "terrain") flat_points flat_faces] with Ok c => c | _ => [] end.
Definition start_disk : fs := fun p => if path_eqb p [] then Some Dir else if path_eqb p [lit "town.obj"] then Some (File start_text) else None.
Definition again_map : list (str * value) :=
  [(lit "--formats", VBool false); (lit "<scene>", VStr (lit "back")); (lit "--input-format", VStr (lit "OFF")); (lit "--prune", VBool false); (lit "--graphs", VBool false);
   (lit "--terrain", VBool true); (lit "output", VBool true); (lit "<path>", VStr (lit "again.obj")); (lit "--output-format", VStr (lit "OBJ"))].
Definition again_a : format_arguments := mkFormat [lit "back"] (lit "OFF") false false true [lit "again.obj"] (lit "OBJ").
Definition listed_back (f : fs) (d : path) : list str := if path_eqb d [lit "back"] then [lit "terrain.off"; lit "Hut.off"] else [].
Definition flights2 (m : list (str * value)) (w : world) := format_main no_ext (body_of_mesh building_tools) b_surface (node_mesh dq) (fun s => Ok s) (fun _ _ => Ok []) listed_back (PArgs m) w.
Definition start_points : list point := [mkPoint (dofZ 1) (dofZ 0) (dofZ 0); mkPoint (dofZ 1) (dofZ 1) (dofZ 0); mkPoint (dofZ 0) (dofZ 0) (dofZ 0); mkPoint (dofZ 0) (dofZ 1) (dofZ 0)].
Ltac checks_building :=
  [> intros f [<-|[<-|[]]]; (split; [repeat constructor; cbn; intuition discriminate|discriminate])
   | let p := fresh in let H := fresh in intros p H; cbn in H; repeat (destruct H as [<-|H]; [repeat split; vm_compute; reflexivity|]); destruct H
   | repeat constructor; apply Qc_is_canon; vm_compute; reflexivity
   | reflexivity
   | apply check_valid; vm_compute; reflexivity
   | apply nodup_b_NoDup; vm_compute; reflexivity
   | vm_compute; reflexivity
   | vm_compute; reflexivity
   | ].
Lemma start_builds x : m_points x = start_points -> m_faces x = [[0; 1; 2]; [3; 2; 1]]%N -> taken_as_is building_tools x.
Proof.
  intros Ep Ef. apply (builds x [pt 1 0 0; pt 1 1 0; pt 0 0 0; pt 0 1 0] (build_surface [pt 1 0 0; pt 1 1 0; pt 0 0 0; pt 0 1 0] [[0; 1; 2]; [3; 2; 1]]) [[1; 2; 0]; [2; 1; 3]]%N); rewrite ?Ep, ?Ef; checks_building.
  repeat constructor; [exists [0%N], [1%N; 2%N]|exists [3%N], [2%N; 1%N]]; split; reflexivity.
Qed.
Lemma second_builds x : m_points x = start_points -> m_faces x = [[1; 2; 0]; [2; 1; 3]]%N -> taken_as_is building_tools x.
Proof.
  intros Ep Ef. apply (builds x [pt 1 0 0; pt 1 1 0; pt 0 0 0; pt 0 1 0] (build_surface [pt 1 0 0; pt 1 1 0; pt 0 0 0; pt 0 1 0] [[1; 2; 0]; [2; 1; 3]]) [[2; 0; 1]; [1; 3; 2]]%N); rewrite ?Ep, ?Ef; checks_building.
  repeat constructor; [exists [1%N], [2%N; 0%N]|exists [2%N], [1%N; 3%N]]; split; reflexivity.
Qed.
Lemma start_reads : exists rs, obj_read start_text = Ok rs /\ map m_name rs = [lit "Hut"; lit "terrain"] /\ forall x, In x rs -> m_points x = start_points /\ m_faces x = [[0; 1; 2]; [3; 2; 1]]%N.
Proof. eexists. split; [vm_compute; reflexivity|]. split; [reflexivity|]. intros x [<-|[<-|[]]]; split; reflexivity. Qed.
Lemma first_run : forall n, In n [lit "Hut"; lit "terrain"] -> exists c' r', w_fs (fst (fst (flights2 back_map (mkWorld start_disk [] [])))) ([lit "back"] ++ [n ++ lit ".off"]) = Some (File c') /\ off_read c' = Ok r' /\ m_points r' = start_points /\ m_faces r' = [[1; 2; 0]; [2; 1; 3]]%N.
Proof. intros n [<-|[<-|[]]]; (eexists; eexists; split; [vm_compute; reflexivity|split; [vm_compute; reflexivity|split; reflexivity]]). Qed.
Example C104_obj_example : exists w1 w2 c rs c2 rs2, flights2 back_map (mkWorld start_disk [] []) = (w1, Exit 0 None, []) /\ flights2 again_map w1 = (w2, Exit 0 None, []) /\
  start_disk [lit "town.obj"] = Some (File c) /\ obj_read c = Ok rs /\ map m_name rs = [lit "Hut"; lit "terrain"] /\ w_fs w2 [lit "again.obj"] = Some (File c2) /\ obj_read c2 = Ok rs2 /\
  forall x, In x rs -> exists r, In r rs2 /\ m_name r = m_name x /\ over x r.
Proof.
  assert (format_given back_map back_a) as G1 by (apply C75_arguments; vm_compute; reflexivity). assert (format_given again_map again_a) as G2 by (apply C75_arguments; vm_compute; reflexivity).
  destruct start_reads as (rs & Rr & Nm & Al).
  assert (forall n, In n [lit "Hut"; lit "terrain"] -> no_space n /\ file_safe n /\ ~ In newline n) as Ns. { intros n [<-|[<-|[]]]; (split; [intros k Hk; cbn in Hk; repeat (destruct Hk as [<-|Hk]; [reflexivity|]); destruct Hk|split; [repeat split|]; cbn; intuition discriminate]). }
  assert (forall p, In p start_points -> pt_real p /\ pt_not_tiny p) as Rf. { intros p H. cbn in H. repeat (destruct H as [<-|H]; [split; [repeat split; vm_compute; reflexivity|repeat split; first [left; vm_compute; reflexivity|right; vm_compute; discriminate]]|]). destruct H. }
  assert (forall f, In f [[0; 1; 2]; [3; 2; 1]]%N -> 3 <= List.length f /\ (nsize f <= 1152921504606846975)%N /\ forall i, In i f -> (i < 4)%N) as Ff. { intros f [<-|[<-|[]]]; (split; [cbn; lia|split; [vm_compute; discriminate|cbn; intros i [<-|[<-|[<-|[]]]]; lia]]). }
  assert (forall y, In y rs -> In (m_name y) [lit "Hut"; lit "terrain"]) as In' by (intros y Hy; rewrite <- Nm; now apply in_map).
  assert (portable rs) as Po.
  { split.
    - split; [intros Z0; rewrite Z0 in Nm; discriminate Nm|]. split; [|split].
      + intros y Hy. destruct (Al y Hy) as (Py & Fy). split; [intros f Hf; rewrite Py; rewrite Fy in Hf; destruct (Ff f Hf) as (L & _ & Bd); split; auto|]. split; [now apply Ns, In'|]. rewrite Py. intros p Hp. now apply Rf.
      + rewrite Nm. repeat constructor; cbn; intuition discriminate.
      + assert (forall l : list mesh, (forall x, In x l -> m_points x = start_points) -> sum_points l = (4 * nsize l)%N) as Sp.
        { clear. induction l as [|a l IH]; intros H; [reflexivity|]. cbn [sum_points fold_right]. fold (sum_points l). rewrite IH, (H a); [|now left|intros; apply H; now right]. unfold nsize. cbn [List.length start_points]. lia. }
        rewrite Sp; [|intros x Hx; now apply Al]. assert (nsize rs = 2%N) as ->; [|reflexivity]. unfold nsize. rewrite <- (map_length m_name rs), Nm. reflexivity.
    - intros y Hy. destruct (Al y Hy) as (Py & Fy). destruct (Ns _ (In' y Hy)) as (_ & Sf & Nl). split; [|split; [exact Sf|rewrite Py; intros p Hp; now apply Rf]]. unfold off_savable. rewrite Py, Fy. split; [intros p Hp; now apply Rf|]. split; [|split; [exact Nl|split; reflexivity]].
      unfold faces_ok. rewrite Fy. intros f Hf. destruct (Ff f Hf) as (L & L' & Bd). split; auto. split; auto. intros i Hi. specialize (Bd i Hi). unfold two64. lia. }
  assert (exists x t, In x rs /\ m_name x = lit "Hut" /\ In t rs /\ m_name t = lit "terrain") as (x & t & Hx & Nx & Ht & Nt).
  { clear -Nm. destruct rs as [|x [|t [|]]]; try discriminate Nm. injection Nm as Q1 Q2. exists x, t. split; [now left|]. split; [exact Q1|]. split; [right; now left|exact Q2]. }
  destruct (C104_obj_and_back building_tools dq exact_dq no_ext (fun s => Ok s) (fun _ _ => Ok []) listed_back back_map back_a again_map again_a (mkWorld start_disk [] []) start_text rs G1 eq_refl eq_refl eq_refl eq_refl G2 eq_refl eq_refl eq_refl eq_refl) as (w1 & R1 & _ & Nf & _ & K); auto.
  - apply resolves_location. reflexivity.
  - exists (lit "town"), (lit ".obj"). split; [reflexivity|]. repeat (constructor; [now left|]). constructor.
  - intros k [<-|[]]. now apply no_nul_check.
  - exists t. auto.
  - intros y Hy. destruct (Al y Hy). now apply start_builds.
  - split; [reflexivity|]. intros p Zp Hp. cbn [w_fs] in *. unfold start_disk in Hp. destruct (path_eqb p []) eqn:E0; [apply (list_eqb_spec _ str_eqb_eq) in E0; easy|].
    repeat match type of Hp with (if path_eqb p ?q then _ else _) <> None => destruct (path_eqb p q) eqn:?; [match goal with H : path_eqb p q = true |- _ => apply (list_eqb_spec _ str_eqb_eq) in H; subst p; reflexivity end|] end. easy.
  - intros k [<-|[]]. now apply no_nul_check.
  - discriminate.
  - exists (lit "again"), (lit ".obj"). split; [reflexivity|]. repeat (constructor; [now left|]). constructor.
  - intros k [<-|[]]. now apply no_nul_check.
  - discriminate.
  - intros u v. discriminate.
  - discriminate.
  - change (flights2 back_map (mkWorld start_disk [] []) = (w1, Exit 0 None, [])) in R1. destruct K as (w2 & c2 & rs2 & R2 & _ & F2 & Rr2 & _ & Z).
    + change (lists (w_fs w1) [lit "back"] [lit "terrain.off"; lit "Hut.off"]). split; [repeat constructor; cbn; intuition discriminate|]. intros n. change (fa_out back_a) with [lit "back"] in Nf. rewrite Nf. split.
      * intros [<-|[<-|[]]]; [exists t|exists x]; split; auto; [now rewrite Nt|now rewrite Nx].
      * intros (y & Hy & ->). destruct (In' y Hy) as [<-|[<-|[]]]; [right; now left|now left].
    + intros y z Hy (c & r & Ec & Er & _ & Pz & Fz & _). change (fa_out back_a) with [lit "back"] in Ec.
      destruct (first_run _ (In' y Hy)) as (c' & r' & Ec' & Er' & Pr & Fr). rewrite R1 in Ec'. cbn [fst] in Ec'.
      rewrite Ec in Ec'. injection Ec' as <-. rewrite Er in Er'. apply Ok_inj in Er'. subst r'. apply second_builds; congruence.
    + exists w1, w2, start_text, rs, c2, rs2. auto 10.
Qed.
