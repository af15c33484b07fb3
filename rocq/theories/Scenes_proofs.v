(** * Proofs for C79, C80 and the content part of C32. *)
From Coq Require Import String.
From Verif Require Import Base Dbl Dbl_facts Decimal Shadow Spec_shadow Streams Spec_text
  Shadow_proofs Face3ds_proofs Obj_proofs Objw_proofs Handlers Spec_io Handlers_proofs Scenefile_proofs T3ds_proofs Xml_proofs Spec_scenes.
Close Scope string_scope.
Open Scope nat_scope.

(** ** C32, contents *)
Lemma obj_read_value f h h' : is_map (oh_modes h) -> obj_handler_read f h = Ok h' <->
  granted (oh_modes h) "read" /\ oh_path h' = oh_path h /\ oh_modes h' = oh_modes h /\
  exists c, f (os_path (oh_path h)) = Some (File c) /\ obj_read c = Ok (oh_meshes h').
Proof.
  intros Hm. unfold obj_handler_read, can_read. change s_read with (lit "read").
  pose proof (mode_granted _ "read" Hm) as R. destruct (mode_of (oh_modes h) (lit "read")).
  2:{ split; [discriminate|]. intros [H _]. apply R in H. discriminate. }
  destruct (is_regular_file f (oh_path h)) eqn:G.
  - apply is_reg_file in G as [c G]. unfold fread. rewrite G. split.
    + intros H. apply bind_Ok in H as (ms & E & H). apply Ok_inj in H. subst h'. cbn [oh_path oh_modes oh_meshes].
      split; [now apply R|]. split; auto. split; auto. exists c. auto.
    + intros (_ & E1 & E2 & c' & E & O). injection E as <-. rewrite O. cbn [bind]. destruct h' as [p' m' ms']; cbn in *. now rewrite E1, E2.
  - apply is_reg_file_false in G. split; [discriminate|]. intros (_ & _ & _ & c & E & _). exfalso; apply G. exists c; auto.
Qed.
Lemma obj_read_fails f h c : is_map (oh_modes h) -> granted (oh_modes h) "read" -> f (os_path (oh_path h)) = Some (File c) ->
  (forall e, obj_read c = Throw e -> obj_handler_read f h = Throw e) /\ (obj_read c = UB -> obj_handler_read f h = UB).
Proof.
  intros Hm Hr Hc. apply (mode_granted _ "read" Hm) in Hr. unfold obj_handler_read, can_read. change s_read with (lit "read"). rewrite Hr.
  replace (is_regular_file f (oh_path h)) with true by (symmetry; apply is_reg_file; exists c; auto).
  unfold fread. rewrite Hc. split; [intros e ->|intros ->]; reflexivity.
Qed.
Lemma fwrite_cases f p c : (can_create f p = true -> fwrite f p c (os_path p) = Some (File c)) /\ (can_create f p = false -> fwrite f p c = f).
Proof. unfold fwrite. split; intros ->; [apply fs_set_same|reflexivity]. Qed.
Lemma can_create_spec f p : can_create f p = true <-> os_path p <> [] /\ f (removelast (os_path p)) = Some Dir /\ f (os_path p) <> Some Dir.
Proof.
  unfold can_create. destruct (os_path p) as [|a q]; [split; [discriminate|intros [H _]; congruence]|].
  destruct (f (removelast (a :: q))) as [[|c]|]; [|split; [discriminate|intros (_ & H & _); discriminate]..].
  destruct (f (a :: q)) as [[|c]|]; split; try reflexivity; try discriminate; intros H.
  - destruct H as (_ & _ & H). congruence.
  - repeat split; discriminate.
  - repeat split; discriminate.
Qed.
Lemma obj_write_value f h : is_map (oh_modes h) -> granted (oh_modes h) "write" -> exists f',
  (forall t, obj_write (oh_meshes h) = Ok t -> obj_handler_write f h = (f', Ok tt)) /\
  (forall e, obj_write (oh_meshes h) = Throw e -> obj_handler_write f h = (f', Throw e)) /\
  (obj_write (oh_meshes h) = UB -> obj_handler_write f h = (f', UB)) /\
  differ_only_at (os_path (oh_path h)) f f' /\
  (can_create f (oh_path h) = false -> f' = f) /\
  (can_create f (oh_path h) = true -> exists c, f' (os_path (oh_path h)) = Some (File c) /\ forall t, obj_write (oh_meshes h) = Ok t -> c = t).
Proof.
  intros Hm Hw. apply (mode_granted _ "write" Hm) in Hw. unfold obj_handler_write, can_write. change s_write with (lit "write"). rewrite Hw.
  destruct (obj_write (oh_meshes h)) as [t|e|].
  - exists (fwrite f (oh_path h) t). split; [intros u H; apply Ok_inj in H; subst; auto|]. split; [discriminate|]. split; [discriminate|].
    split; [apply fwrite_other|]. destruct (fwrite_cases f (oh_path h) t) as [A B]. split; [exact B|].
    intros H. exists t. split; [auto|]. intros u E. apply Ok_inj in E. auto.
  - exists (fwrite f (oh_path h) []). split; [discriminate|]. split; [intros u H; congruence|]. split; [discriminate|].
    split; [apply fwrite_other|]. destruct (fwrite_cases f (oh_path h) []) as [A B]. split; [exact B|].
    intros H. exists []. split; [auto|]. discriminate.
  - exists (fwrite f (oh_path h) []). split; [discriminate|]. split; [discriminate|]. split; [auto|].
    split; [apply fwrite_other|]. destruct (fwrite_cases f (oh_path h) []) as [A B]. split; [exact B|].
    intros H. exists []. split; [auto|]. discriminate.
Qed.

(** ** Import of a 3DS mesh *)
Lemma point_of_floats_eq q : pt_of_3ds q = point_of_floats q.
Proof. destruct q as [[a b] c]. reflexivity. Qed.
Lemma map_point_of_floats l : map pt_of_3ds l = map point_of_floats l.
Proof. apply map_ext. exact point_of_floats_eq. Qed.
Lemma face_of_3ds_iff lm t f : face_of_3ds (map pt_of_3ds (lm_points lm)) t = Ok f <-> oriented_face lm t f.
Proof.
  unfold face_of_3ds, oriented_face. split.
  - intros H. apply bind_Ok in H as (p0 & E0 & H). apply bind_Ok in H as (p1 & E1 & H). apply bind_Ok in H as (p2 & E2 & H). apply Ok_inj in H.
    rewrite vidxN_Ok in E0, E1, E2. rewrite nth_error_map in E0, E1, E2.
    destruct (nth_error (lm_points lm) (N.to_nat (lf_a t))) as [p|]; [|discriminate].
    destruct (nth_error (lm_points lm) (N.to_nat (lf_b t))) as [q|]; [|discriminate].
    destruct (nth_error (lm_points lm) (N.to_nat (lf_c t))) as [r|]; [|discriminate].
    cbn [option_map] in *. injection E0 as <-. injection E1 as <-. injection E2 as <-.
    exists p, q, r. repeat (split; [reflexivity|]). rewrite <- !point_of_floats_eq. symmetry. exact H.
  - intros (p & q & r & E0 & E1 & E2 & ->).
    assert (V : forall i a, nth_error (lm_points lm) (N.to_nat i) = Some a -> vidxN (map pt_of_3ds (lm_points lm)) i = Ok (point_of_floats a)).
    { intros i a E. apply vidxN_Ok. rewrite nth_error_map, E. cbn. now rewrite point_of_floats_eq. }
    rewrite (V _ _ E0), (V _ _ E1), (V _ _ E2). reflexivity.
Qed.
Lemma imported_iff lm r : mesh_of_3ds lm = Ok r -> imported lm r.
Proof.
  unfold mesh_of_3ds. cbv zeta. intros H. apply bind_Ok in H as (F & E & H). apply Ok_inj in H. subst r. unfold imported. cbn [m_name m_points m_bbox m_faces].
  rewrite map_point_of_floats. split; auto. split; auto. split; [apply compute_bbox_tight|].
  apply omapM_Ok in E. clear -E. induction E; constructor; auto. now apply face_of_3ds_iff.
Qed.
Lemma imported_faces_Ok lm F : Forall2 (oriented_face lm) (lm_faces lm) F -> omapM (face_of_3ds (map pt_of_3ds (lm_points lm))) (lm_faces lm) = Ok F.
Proof. intros H. apply omapM_Ok. induction H; constructor; auto. now apply face_of_3ds_iff. Qed.
Lemma oriented_fine lm t f : oriented_face lm t f -> (lf_a t < nsize (lm_points lm) /\ lf_b t < nsize (lm_points lm) /\ lf_c t < nsize (lm_points lm))%N.
Proof.
  intros (p & q & r & E0 & E1 & E2 & _). unfold nsize.
  assert (V : forall i a, nth_error (lm_points lm) (N.to_nat i) = Some a -> (i < N.of_nat (Datatypes.length (lm_points lm)))%N).
  { intros i a E. assert (N.to_nat i < Datatypes.length (lm_points lm)) by (apply nth_error_Some; congruence). lia. }
  split; [|split]; eapply V; eauto.
Qed.
Lemma mesh_of_3ds_outcome lm : (indices_fine lm -> exists r, mesh_of_3ds lm = Ok r /\ imported lm r /\ mesh_wf r) /\ (~ indices_fine lm -> mesh_of_3ds lm = UB).
Proof.
  split.
  - intros H. destruct (mesh_of_3ds_fine lm H) as [r E]. exists r. split; auto. split; [now apply imported_iff|]. now apply mesh_of_3ds_wf in E.
  - intros H. unfold mesh_of_3ds. cbv zeta. destruct (omapM (face_of_3ds (map pt_of_3ds (lm_points lm))) (lm_faces lm)) as [F|e|] eqn:E; [|exfalso|reflexivity].
    + exfalso. apply H. apply omapM_Ok in E. intros t Ht. clear H.
      assert (G : exists f, face_of_3ds (map pt_of_3ds (lm_points lm)) t = Ok f).
      { induction E; [destruct Ht|]. destruct Ht as [->|Ht]; eauto. }
      destruct G as [f G]. apply face_of_3ds_iff in G. now apply oriented_fine in G.
    + apply omapM_throws in E as (t & _ & E). unfold face_of_3ds in E.
      assert (V : forall i e, vidxN (map pt_of_3ds (lm_points lm)) i <> Throw e).
      { intros i e'. unfold vidxN. destruct (_ <? _)%N; [apply vidx_not_throw|discriminate]. }
      destruct (vidxN _ (lf_a t)) eqn:A; cbn in E; try discriminate; [|eapply V; eauto].
      destruct (vidxN _ (lf_b t)) eqn:B; cbn in E; try discriminate; [|eapply V; eauto].
      destruct (vidxN _ (lf_c t)) eqn:C; cbn in E; try discriminate. eapply V; eauto.
Qed.

(** ** C79: OBJ scenes *)
Lemma obj_scene_read {S} (build : mesh -> outcome S) X f p m c rs : is_map m -> granted m "read" ->
  f (os_path p) = Some (File c) -> obj_read c = Ok rs ->
  exists ms out t, (forall ls, scene_read X build f ls (mkSceneH p m obj) = scene_make build ms t point_default 2154) /\
    interleave ms out rs /\ (forall x, In x ms -> m_name x <> lit "terrain") /\ (forall x, In x out -> m_name x = lit "terrain") /\
    m_name t = lit "terrain" /\ joins out t.
Proof.
  intros Hm Hr Hc Ho.
  assert (R : obj_handler_read f (mkObjH p m []) = Ok (mkObjH p m rs)).
  { apply obj_read_value; [exact Hm|]. cbn [oh_modes oh_path oh_meshes]. split; [exact Hr|]. split; auto. split; auto. exists c; auto. }
  destruct (exclude_mesh (mkObjH p m rs) (lit "terrain")) as [h' t] eqn:E.
  destruct (C31_proof _ _ _ _ E) as (out & I & K & O & _ & _ & N & P & Q & _). cbn [oh_meshes] in I.
  exists (oh_meshes h'), out, t. split; [|repeat split; auto; apply Q; auto].
  intros ls. unfold scene_read. cbn [sh_fmt sh_path sh_modes]. unfold obj_get_scene. rewrite R. cbn [bind]. change s_terrain with (lit "terrain"). rewrite E. unfold scene_make_default.
  destruct (scene_make build (oh_meshes h') t point_default 2154); reflexivity.
Qed.
Lemma incr_head s l : increasing (s :: l) -> (forall x, In x l -> str_lt s x) /\ increasing l.
Proof.
  revert s. induction l as [|a l IH]; intros s H; [split; [intros x []|constructor]|].
  inversion H; subst. split; auto. destruct (IH _ H4) as [A _]. intros x [<-|Hx]; auto.
  specialize (A x Hx). clear -H2 A. eapply str_lt_trans; eauto.
Qed.
Lemma interleave_In {A} (a b l : list A) x : interleave a b l -> (In x l <-> In x a \/ In x b).
Proof. induction 1; cbn; intuition. Qed.
Lemma interleave_len {A} (a b l : list A) : interleave a b l -> length l = length a + length b.
Proof. induction 1; cbn; lia. Qed.
Lemma incr_interleave (a b l : list mesh) : interleave a b l -> increasing (map m_name l) -> increasing (map m_name a).
Proof.
  induction 1 as [|x a b l H IH|x a b l H IH]; cbn [map]; intros I; [constructor| |apply IH; now apply incr_head in I].
  apply incr_head in I as [I1 I2]. specialize (IH I2). destruct a as [|y a]; [constructor|]. cbn [map]. constructor; auto.
  apply I1. apply in_map. apply (interleave_In _ _ _ y) in H. apply H. left; left; auto.
Qed.
Lemma incr_NoDup l : increasing l -> NoDup l.
Proof.
  induction l as [|s l IH]; intros H; [constructor|]. apply incr_head in H as [A B]. constructor; auto.
  intros G. specialize (A s G). revert A. apply str_lt_irrefl.
Qed.
Lemma obj_scene_round_trip {S} (to_mesh : unode S -> mesh) (build : mesh -> outcome S) X f p mw mr s :
  is_map mw -> is_map mr -> granted mw "write" -> granted mr "read" ->
  no_nul p -> p <> [] -> f (removelast p) = Some Dir -> f p <> Some Dir ->
  obj_savable (map to_mesh (sc_buildings s ++ [sc_terrain s])) ->
  (forall u, In u (sc_buildings s ++ [sc_terrain s]) -> m_name (to_mesh u) = u_name u) -> u_name (sc_terrain s) = lit "terrain" ->
  exists f' c, scene_write to_mesh f (mkSceneH p mw obj) s = (f', Ok tt) /\ differ_only_at p f f' /\ f' p = Some (File c) /\
    obj_write (map to_mesh (sc_buildings s) ++ [to_mesh (sc_terrain s)]) = Ok c /\
    exists bs ms t, Permutation bs (sc_buildings s) /\ increasing (map u_name bs) /\
      Forall2 (fun u x => m_name x = u_name u /\ poly_reads_back (polygons (to_mesh u)) (polygons x) /\ mesh_wf x) bs ms /\
      m_name t = lit "terrain" /\ poly_reads_back (polygons (to_mesh (sc_terrain s))) (polygons t) /\ mesh_wf t /\
      forall ls, scene_read X build f' ls (mkSceneH p mr obj) = scene_make build ms t point_default 2154.
Proof.
  intros Mw Mr Gw Gr Hn Hp Hd Hf Hs Hu Ht.
  destruct (C26_proof _ Hs) as (c & rs & W & R & I & L & Q).
  rewrite map_app in W. cbn [map] in W.
  destruct (obj_write_value f (obj_handler_of_scene to_mesh p s mw) Mw Gw) as (f' & Wok & _ & _ & D & _ & C).
  unfold obj_handler_of_scene in *. cbn [oh_meshes oh_path oh_modes] in *. specialize (Wok _ W).
  rewrite (os_path_plain p Hn) in *.
  destruct C as (c' & Fc & Ec). { apply can_create_spec. rewrite (os_path_plain p Hn). auto. }
  specialize (Ec _ W). subst c'. exists f', c. split; [exact Wok|]. split; [exact D|]. split; [exact Fc|]. split; [exact W|].
  pose proof (incr_NoDup _ I) as ND. destruct Hs as (_ & Hs & NDm & Hsum).
  destruct (@obj_scene_read S build X f' p mr c rs Mr Gr) as (ms & out & t & Er & Il & Kn & On & Tn & J); auto.
  { now rewrite (os_path_plain p Hn). }
  (* the terrain *)
  destruct (Q (to_mesh (sc_terrain s))) as (r & Hr & Nr & Pr & _ & Wr & Br). { apply in_map. apply in_or_app; right; left; auto. }
  rewrite Hu, Ht in Nr by (apply in_or_app; right; left; auto).
  assert (Ho : out = [r]).
  { assert (Hi : In r out). { apply (interleave_In _ _ _ r) in Il. apply Il in Hr as [Hr|Hr]; auto. exfalso. apply (Kn r Hr). exact Nr. }
    assert (NDo : NoDup (map m_name out)).
    { clear -Il ND. induction Il; cbn [map] in *; [constructor| |].
      - apply IHIl. now inversion ND.
      - inversion ND; subst. constructor; auto. intros G. apply H1. apply in_map_iff in G as (y & E & G). apply in_map_iff. exists y. split; auto.
        apply (interleave_In _ _ _ y) in Il. apply Il. right; auto. }
    destruct out as [|a out]; [destruct Hi|]. cbn [map] in NDo. inversion NDo; subst.
    assert (out = []). { destruct out as [|b out]; auto. exfalso. apply H1. cbn [map]. left. rewrite (On a), (On b); auto; [right; left; auto|left; auto]. }
    subst. destruct Hi as [->|[]]; auto. }
  subst out. destruct J as [J1 J2]. destruct J2 as [J2 J3].
  { intros m [<-|[]]; auto. }
  { unfold sum_points. cbn [map list_sum fold_right]. rewrite map_app in Hsum. rewrite sum_points_app in Hsum.
    unfold sum_points in Hsum. cbn [map fold_right list_sum] in Hsum. unfold two64. lia. }
  cbn [map concat] in J3. rewrite app_nil_r in J3.
  (* the buildings *)
  assert (Lm : length ms = length (sc_buildings s)).
  { apply interleave_len in Il. rewrite map_length, app_length in L. cbn [length] in *. lia. }
  pose proof (incr_interleave _ _ _ Il I) as Im. pose proof (incr_NoDup _ Im) as NDms.
  assert (Pn : Permutation (map m_name ms) (map u_name (sc_buildings s))).
  { symmetry. apply NoDup_Permutation_bis.
    - rewrite map_map in NDm. rewrite (map_ext_in _ u_name) in NDm by (intros u G; apply Hu; auto).
      rewrite map_app in NDm. clear -NDm. induction (map u_name (sc_buildings s)) as [|a l IH]; [constructor|]. cbn in NDm. inversion NDm; subst. constructor; auto.
      intros G; apply H1. apply in_or_app; auto.
    - rewrite !map_length. lia.
    - intros n G. apply in_map_iff in G as (u & <- & G). assert (G' : In u (sc_buildings s ++ [sc_terrain s])) by (apply in_or_app; auto).
      destruct (Q (to_mesh u)) as (x & Hx & Nx & _). { now apply in_map. } rewrite (Hu u G') in Nx. rewrite <- Nx. apply in_map.
      apply (interleave_In _ _ _ x) in Il. apply Il in Hx as [Hx|[<-|[]]]; auto. exfalso.
      rewrite map_map in NDm. rewrite (map_ext_in _ u_name) in NDm by (intros v G2; apply Hu; auto).
      rewrite map_app in NDm. apply NoDup_remove_2 in NDm. apply NDm. rewrite app_nil_r, Ht, <- Nr, Nx. now apply in_map. }
  destruct (Permutation_map_inv _ _ Pn) as (bs & Eb & Pb).
  exists bs, ms, t. split; [now symmetry|]. rewrite <- Eb. split; [exact Im|]. split.
  { assert (Hb : forall u, In u bs -> In u (sc_buildings s)). { intros u G. eapply Permutation_in; [symmetry; exact Pb|auto]. }
    assert (Hx : forall x, In x ms -> In x rs). { intros x G. apply (interleave_In _ _ _ x) in Il. apply Il; auto. }
    clear Pn Pb Im NDms Lm Er. clear Il. revert bs Eb Hb. induction ms as [|x ms IH]; intros [|u bs] Eb Hb; try discriminate; constructor.
    - cbn [map] in Eb. injection Eb as E1 E2. split; [exact E1|].
      assert (G' : In u (sc_buildings s ++ [sc_terrain s])) by (apply in_or_app; left; apply Hb; left; auto).
      destruct (Q (to_mesh u)) as (y & Hy & Ny & Py & _ & Wy & _). { now apply in_map. } rewrite (Hu u G') in Ny.
      assert (x = y). { assert (Hxr : In x rs) by (apply Hx; left; auto). assert (En : m_name x = m_name y) by congruence. clear -ND Hxr Hy En.
        induction rs as [|a rs IH]; [destruct Hy|]. cbn [map] in ND. inversion ND; subst. destruct Hxr as [->|Hxr], Hy as [->|Hy]; auto.
        - exfalso; apply H1. rewrite En. now apply in_map.
        - exfalso; apply H1. rewrite <- En. now apply in_map. }
      subst y. auto.
    - cbn [map] in Eb. injection Eb as E1 E2. apply IH; auto.
      + intros z G; apply Kn; right; auto.
      + intros z G; apply Hx; right; auto.
      + intros v G; apply Hb; right; auto. }
  split; [exact Tn|]. split. { rewrite J3. exact Pr. } split; [exact J2|].
  exact Er.
Qed.

(** ** C80: 3DS scenes *)
Lemma F2_app_inv_l' {A B} (R : A -> B -> Prop) l1 : forall l2 l, Forall2 R (l1 ++ l2) l -> exists a b, l = a ++ b /\ Forall2 R l1 a /\ Forall2 R l2 b.
Proof. intros l2 l H. apply Forall2_app_inv_l in H as (a & b & H1 & H2 & ->). eauto. Qed.
Lemma t3ds_mesh_join h s types m r : node_meshes_by_type h s types = Ok m -> t3ds_mesh h s types = Ok r -> m_name r = s /\ joins (concat (map snd m)) r.
Proof.
  intros E H. unfold t3ds_mesh, t3ds_mesh_by_type in H. rewrite E in H. cbn [bind] in H. apply Ok_inj in H. subst r. cbn [mesh_set_name snd m_name].
  split; auto. split; cbn [m_points].
  - assert (P : forall l, m_points (sum_meshes l) = concat (map m_points l)) by (intros l; unfold sum_meshes; rewrite fold_add_points; reflexivity).
    match goal with |- context [mesh_copy ?a] => change (m_points (mesh_copy a)) with (m_points a) | _ => idtac end.
    cbn [m_points snd mesh_set_name]. rewrite P. rewrite !map_map. cbn [snd].
    rewrite concat_map_concat, map_map. f_equal. apply map_ext. intros p. apply P.
  - intros _ B. destruct (C38_proof _ _ _ _ E B) as (r' & E' & _ & W & P & _). unfold t3ds_mesh, t3ds_mesh_by_type in E'. rewrite E in E'. cbn [bind] in E'. apply Ok_inj in E'. subst r'. auto.
Qed.
Lemma F2_impl {A B} (R Q : A -> B -> Prop) l1 l2 : (forall a b, R a b -> Q a b) -> Forall2 R l1 l2 -> Forall2 Q l1 l2.
Proof. intros H. induction 1; constructor; auto. Qed.
Lemma filter_none {A} (p : A -> bool) l : (forall a, In a l -> p a = false) -> filter p l = [].
Proof. induction l as [|a l IH]; cbn; auto. intros H. rewrite (H a) by auto. auto. Qed.
Lemma sorted_two (c d : ascii) {A} (m : list (ascii * A)) : (signed_code c < signed_code d)%Z ->
  sorted_by (fun p => signed_code (fst p)) m -> (forall e, In e (map fst m) -> e = c \/ e = d) ->
  m = [] \/ (exists a, m = [(c, a)]) \/ (exists b, m = [(d, b)]) \/ exists a b, m = [(c, a); (d, b)].
Proof.
  intros L S K. destruct m as [|[e a] m]; auto. right. pose proof (K e) as Ke. cbn in Ke. specialize (Ke (or_introl eq_refl)).
  destruct m as [|[e2 b] m].
  { destruct Ke as [-> | ->]; [left|right; left]; eauto. }
  pose proof (K e2) as Ke2. cbn in Ke2. specialize (Ke2 (or_intror (or_introl eq_refl))). inversion S as [|?|? ? ? L1 S1]; subst. cbn [fst] in L1.
  destruct Ke as [-> | ->], Ke2 as [-> | ->]; try lia.
  destruct m as [|[e3 b3] m]; [right; right; eauto|]. exfalso.
  pose proof (K e3) as Ke3. cbn in Ke3. specialize (Ke3 (or_intror (or_intror (or_introl eq_refl)))). inversion S1 as [|?|? ? ? L2 S2]; subst. cbn [fst] in L2.
  destruct Ke3 as [-> | ->]; lia.
Qed.
Lemma sorted_one (c : ascii) {A} (m : list (ascii * A)) :
  sorted_by (fun p => signed_code (fst p)) m -> (forall e, In e (map fst m) -> e = c) -> m = [] \/ exists a, m = [(c, a)].
Proof.
  intros S K. destruct m as [|[e a] m]; auto. right. pose proof (K e (or_introl eq_refl)) as ->.
  destruct m as [|[e2 b] m]; eauto. pose proof (K e2 (or_intror (or_introl eq_refl))) as ->. inversion S; subst. cbn [fst] in *. lia.
Qed.
Lemma building_value h x root rest s r : th_file h = Some x -> f_nodes x = root :: rest -> t3ds_mesh h s ["F"; "T"]%char = Ok r -> building_mesh x root s r.
Proof.
  intros Hx Hroot H. assert (G : exists m, node_meshes_by_type h s ["F"; "T"]%char = Ok m).
  { unfold t3ds_mesh, t3ds_mesh_by_type in H. destruct (node_meshes_by_type h s ["F"; "T"]%char); try discriminate. eauto. }
  destruct G as [m E]. destruct (t3ds_mesh_join _ _ _ _ _ E H) as [N J]. split; auto.
  destruct (C36_value_proof _ _ _ _ _ Hx E) as (root' & rest' & n & ms & Er & Fn & Sm & So & Ke & Va). rewrite Hroot in Er. injection Er as <- <-.
  exists (filter (fun lm => Ascii.eqb (letter lm) "F"%char) ms), (filter (fun lm => Ascii.eqb (letter lm) "T"%char) ms), (concat (map snd m)).
  split; [exists n, ms; auto|]. split; [exists n, ms; auto|]. split; auto.
  assert (Ab : forall c, In c ["F"; "T"]%char -> ~ In c (map fst m) -> filter (fun lm => Ascii.eqb (letter lm) c) ms = []).
  { intros c Hc Hm. apply filter_none. intros lm Hl. apply Ascii.eqb_neq. intros El. apply Hm. apply Ke. split; auto. exists lm; auto. }
  assert (Va' : forall c rs, In (c, rs) m -> Forall2 imported (filter (fun lm => Ascii.eqb (letter lm) c) ms) rs).
  { intros c rs I. apply Va in I. eapply F2_impl; [|exact I]. intros; now apply imported_iff. }
  destruct (sorted_two "F"%char "T"%char m) as [->|[[a ->]|[[b ->]|(a & b & ->)]]]; auto.
  { reflexivity. }
  { intros e He. apply Ke in He as [[<-|[<-|[]]] _]; auto. }
  - rewrite !Ab; try (cbn; tauto). constructor.
  - rewrite (Ab "T"%char); [|cbn; tauto|cbn; intros [H1|[]]; discriminate]. cbn [map snd concat]. rewrite !app_nil_r. apply Va'. left; auto.
  - rewrite (Ab "F"%char); [|cbn; tauto|cbn; intros [H1|[]]; discriminate]. cbn [map snd concat app]. rewrite !app_nil_r. apply Va'. left; auto.
  - cbn [map snd concat]. rewrite app_nil_r. apply Forall2_app; apply Va'; [left|right; left]; auto.
Qed.
Lemma relief_value h x root rest s r : th_file h = Some x -> f_nodes x = root :: rest -> t3ds_mesh h s ["M"]%char = Ok r ->
  m_name r = s /\ exists rs, relief_parts x root s rs /\ joins rs r /\ forall m, In m rs -> mesh_wf m.
Proof.
  intros Hx Hroot H. assert (G : exists m, node_meshes_by_type h s ["M"]%char = Ok m).
  { unfold t3ds_mesh, t3ds_mesh_by_type in H. destruct (node_meshes_by_type h s ["M"]%char); try discriminate. eauto. }
  destruct G as [m E]. destruct (t3ds_mesh_join _ _ _ _ _ E H) as [N J]. split; auto.
  destruct (C36_value_proof _ _ _ _ _ Hx E) as (root' & rest' & n & ms & Er & Fn & Sm & So & Ke & Va). rewrite Hroot in Er. injection Er as <- <-.
  exists (concat (map snd m)). split; [|split; [auto|exact (collected_wf _ _ _ _ E)]].
  exists (filter (fun lm => Ascii.eqb (letter lm) "M"%char) ms). split; [exists n, ms; auto|].
  destruct (sorted_one "M"%char m) as [->|[a ->]]; auto.
  { intros e He. apply Ke in He as [[<-|[]] _]; auto. }
  - rewrite filter_none; [constructor|]. intros lm Hl. apply Ascii.eqb_neq. intros El. apply (proj1 (Ke "M"%char)). split; [left; auto|]. exists lm; auto.
  - cbn [map snd concat]. rewrite app_nil_r. eapply F2_impl; [|apply Va; left; auto]. intros; now apply imported_iff.
Qed.
Lemma sum_points_of_join rs r : joins rs r -> sum_points [r] = sum_points rs.
Proof. intros [P _]. rewrite !sum_points_concat. cbn [map concat]. now rewrite app_nil_r, P. Qed.
Lemma sum_pieces rss : forall ms, Forall2 joins rss ms -> (forall m, In m (concat rss) -> mesh_wf m) -> (sum_points (concat rss) <= two64)%N ->
  (forall m, In m ms -> mesh_wf m) /\ sum_points ms = sum_points (concat rss) /\ concat (map polygons ms) = concat (map polygons (concat rss)) /\
  concat (map m_points ms) = concat (map m_points (concat rss)).
Proof.
  intros ms H. induction H as [|rs r rss ms J H IH]; intros W B; [split; [intros ? []|auto]|].
  cbn [concat] in *. rewrite T3ds_proofs.sum_points_app in B. destruct IH as (A1 & A2 & A3 & A4).
  { intros m Hm; apply W; apply in_or_app; auto. } { lia. }
  destruct J as [J1 J2]. destruct J2 as [J2 J3]. { intros m Hm; apply W; apply in_or_app; auto. } { lia. }
  split. { intros m [<-|Hm]; auto. } split.
  { change (r :: ms) with ([r] ++ ms). rewrite !T3ds_proofs.sum_points_app, A2. f_equal. rewrite !sum_points_concat. cbn [map concat]. now rewrite app_nil_r, J1. }
  cbn [map concat]. rewrite !map_app, !concat_app, A3, A4, J1, J3. auto.
Qed.
Lemma sum_of_joins rss ms : Forall2 joins rss ms -> joins (concat rss) (sum_meshes ms).
Proof.
  intros H. split.
  - unfold sum_meshes. rewrite fold_add_points. cbn [m_points mesh_empty app]. induction H as [|rs r rss ms [J _] H IH]; auto.
    cbn [map concat]. rewrite map_app, concat_app, J. f_equal. exact IH.
  - intros W B. destruct (sum_pieces _ _ H W B) as (A1 & A2 & A3 & _). destruct (sum_meshes_spec ms A1) as (B1 & B2 & _); [rewrite A2; exact B|].
    split; auto. now rewrite B2.
Qed.
Lemma joins_rename rs r n : joins rs r -> joins rs (snd (mesh_set_name r n)).
Proof. intros [A B]. split; [exact A|]. intros W C. destruct (B W C) as [D E]. split; [exact D|exact E]. Qed.
Lemma relief_named h x root rest s r : th_file h = Some x -> f_nodes x = root :: rest -> t3ds_mesh h s ["M"]%char = Ok r ->
  relief_mesh x root [s] (snd (mesh_set_name r (lit "terrain"))).
Proof.
  intros Hx Hr H. destruct (relief_value _ _ _ _ _ _ Hx Hr H) as (_ & rs & P & J & _). split; [reflexivity|]. exists [rs]. split; [constructor; auto|].
  cbn [concat]. rewrite app_nil_r. now apply joins_rename.
Qed.
Lemma level_relief h x root rest t : th_file h = Some x -> f_nodes x = root :: rest -> level_terrain h 1 = Ok t ->
  relief_mesh x root (map node_label (node_kids root)) t.
Proof.
  intros Hx Hr H. unfold level_terrain in H. apply bind_Ok in H as (ms & E & H). apply Ok_inj in H. subst t. split; [reflexivity|].
  unfold level_meshes in E. rewrite (C35_proof h x root rest 1 Hx Hr) in E. cbn [repeat concat bind] in E. rewrite app_nil_r in E. apply omapM_Ok in E.
  assert (G : exists rss, Forall2 (relief_parts x root) (map node_label (node_kids root)) rss /\ Forall2 joins rss ms).
  { induction E as [|s r l ms E1 E2 IH]; [exists []; split; constructor|]. destruct IH as (rss & A & B).
    destruct (relief_value _ _ _ _ _ _ Hx Hr E1) as (_ & rs & P & J & _). exists (rs :: rss). split; constructor; auto. }
  destruct G as (rss & A & B). exists rss. split; auto. apply joins_rename. now apply sum_of_joins.
Qed.
Lemma level_buildings h x root rest bs : th_file h = Some x -> f_nodes x = root :: rest -> level_meshes h 1 ["F"; "T"]%char = Ok bs ->
  Forall2 (building_mesh x root) (map node_label (node_kids root)) bs.
Proof.
  intros Hx Hr E. unfold level_meshes in E. rewrite (C35_proof h x root rest 1 Hx Hr) in E. cbn [repeat concat bind] in E. rewrite app_nil_r in E. apply omapM_Ok in E.
  eapply F2_impl; [|exact E]. intros s b. now apply (building_value h x root rest).
Qed.
Lemma file_root h s types r : t3ds_mesh h s types = Ok r -> exists x root rest, th_file h = Some x /\ f_nodes x = root :: rest.
Proof.
  unfold t3ds_mesh, t3ds_mesh_by_type, node_meshes_by_type, t3ds_file. destruct (can_read (th_modes h)); [|discriminate].
  destruct (th_file h) as [x|]; [|discriminate]. cbn [bind]. destruct (f_nodes x) as [|root rest] eqn:E; [discriminate|]. intros _. exists x, root, rest. auto.
Qed.
Lemma level_root h t : level_terrain h 1 = Ok t -> exists x root rest, th_file h = Some x /\ f_nodes x = root :: rest.
Proof.
  unfold level_terrain, level_meshes. destruct (th_file h) as [x|] eqn:Hx.
  - destruct (f_nodes x) as [|root rest] eqn:Hr; [|intros _; exists x, root, rest; auto].
    destruct (C35_null_proof h 1) as [_ N]. rewrite (N x Hx Hr). discriminate.
  - destruct (C35_null_proof h 1) as [N _]. rewrite (N Hx). discriminate.
Qed.
(** the handler created for reading *)
Lemma t3ds_make_read X f p m h : t3ds_make X f p m = Ok h -> th_path h = p /\ th_modes h = m /\
  (can_read m = true -> can_write m = false /\ exists c, f (os_path p) = Some (File c) /\ th_file h = load_3ds X c) /\
  (can_read m = false -> can_write m = true /\ th_file h = Some (mk3ds [] [])).
Proof.
  unfold t3ds_make. destruct (can_read m), (can_write m); cbn; try discriminate.
  - destruct (is_regular_file f p) eqn:R; [|discriminate]. apply is_reg_file in R as [c R]. intros H. apply Ok_inj in H. subst h. cbn. unfold fread. rewrite R.
    split; auto. split; auto. split; [|discriminate]. split; auto. exists c; auto.
  - intros H. apply Ok_inj in H. subst h. cbn. split; auto. split; auto. split; [discriminate|]. auto.
Qed.
Lemma tree_make_Ok X f p d : tree_make X f p = Ok d <-> exists c, f (os_path p) = Some (File c) /\ load_xml X c = Some d.
Proof.
  unfold tree_make. split.
  - destruct (f (os_path p)) as [[|c]|]; try discriminate. destruct (load_xml X c) eqn:E; [|discriminate]. intros H; apply Ok_inj in H; subst. eauto.
  - intros (c & -> & ->). reflexivity.
Qed.
Lemma tree_make_cases X f p : (exists d, tree_make X f p = Ok d) \/ tree_make X f p = Throw RuntimeError.
Proof. unfold tree_make. destruct (f (os_path p)) as [[|c]|]; auto. destruct (load_xml X c); eauto. Qed.
Lemma t3ds_xml_scene {S} (build : mesh -> outcome S) X f ls p m s : scene_read X build f ls (mkSceneH p m t3ds_xml) = Ok s ->
  exists c x root rest cx d ids tid bs t pv ep, f (os_path p) = Some (File c) /\ load_3ds X c = Some x /\ f_nodes x = root :: rest /\
    f (os_path (xml_path p)) = Some (File cx) /\ load_xml X cx = Some d /\
    tree_building_ids d = Ok ids /\ tree_terrain_id d = Ok tid /\ tree_pivot X d = Ok pv /\ tree_epsg X d = Ok ep /\
    Forall2 (building_mesh x root) ids bs /\ relief_mesh x root [tid] t /\ scene_make build bs t pv ep = Ok s.
Proof.
  unfold scene_read. cbn [sh_fmt sh_path sh_modes]. intros H. apply bind_Ok in H as (h & Eh & H). apply bind_Ok in H as (d & Ed & H).
  unfold t3ds_get_scene_tree in H. apply bind_Ok in H as (ids & Ei & H). apply bind_Ok in H as (bs & Eb & H). apply bind_Ok in H as (tid & Et & H).
  apply bind_Ok in H as (t & Em & H). apply bind_Ok in H as (pv & Ep & H). apply bind_Ok in H as (ep & Ee & H).
  destruct (file_root _ _ _ _ Em) as (x & root & rest & Hx & Hr).
  apply t3ds_make_read in Eh as (_ & _ & R1 & R2). apply tree_make_Ok in Ed as (cx & F2 & L2).
  assert (exists c, f (os_path p) = Some (File c) /\ th_file h = load_3ds X c) as (c & Fc & Lc).
  { destruct (can_read m); [apply R1; auto|]. destruct R2 as [_ R2]; auto. exfalso. rewrite R2 in Hx. injection Hx as <-. discriminate. }
  exists c, x, root, rest, cx, d, ids, tid, bs, (snd (mesh_set_name t (lit "terrain"))), pv, ep.
  split; auto. split; [congruence|]. do 7 (split; [assumption|]). split.
  { apply omapM_Ok in Eb. eapply F2_impl; [|exact Eb]. intros a b. now apply (building_value h x root rest). }
  split; [now apply (relief_named h x root rest)|exact H].
Qed.
Lemma tree_bbox_throws X d e : tree_bbox X d = Throw e -> e = RuntimeError.
Proof.
  unfold tree_bbox. assert (V : forall k e, bbox_value X d k = Throw e -> e = RuntimeError).
  { intros k e'. unfold bbox_value. assert (C : forall l k e, child l k <> Throw e) by (intros l k' e2; unfold child; destruct (first_child l k'); discriminate).
    destruct (child d k_root) eqn:E1; cbn [bind]; [|intros; exfalso; eapply C; eauto|discriminate].
    destruct (child (x_kids a) k_bbox) eqn:E2; cbn [bind]; [|intros; exfalso; eapply C; eauto|discriminate].
    destruct (child (x_kids a0) k) eqn:E3; cbn [bind]; [|intros; exfalso; eapply C; eauto|discriminate].
    unfold query_double. destruct (x_text a1) as [t|]; [destruct (text_double X t)|]; congruence. }
  intros H. repeat match type of H with (let* _ := ?v in _) = _ => let E := fresh in destruct v eqn:E; cbn [bind] in H;
    [|injection H as <-; eapply V; exact E|discriminate] end. discriminate.
Qed.
Lemma tree_pivot_throws X d e : tree_pivot X d = Throw e -> e = RuntimeError.
Proof.
  unfold tree_pivot. assert (C : forall l k e, child l k <> Throw e) by (intros l k' e2; unfold child; destruct (first_child l k'); discriminate).
  destruct (child d k_root) eqn:E1; cbn [bind]; [|intros; exfalso; eapply C; eauto|discriminate].
  destruct (first_child (x_kids a) k_pivot) as [p|].
  - assert (Q : forall n k e', (let* v := query_double X n in k v) = Throw e' -> e' = RuntimeError \/ exists v : dbl, k v = Throw (A := point) e').
    { intros n k e'. unfold query_double. destruct (x_text n) as [t|]; [destruct (text_double X t)|]; cbn [bind]; intros H; [right; eauto|left; congruence|left; congruence]. }
    destruct (child (x_kids p) k_ox) eqn:E2; cbn [bind]; [|intros; exfalso; eapply C; eauto|discriminate].
    intros H. apply Q in H as [H|[vx H]]; auto.
    destruct (child (x_kids p) k_oy) eqn:E3; cbn [bind] in H; [|exfalso; eapply C; eauto|discriminate]. apply Q in H as [H|[vy H]]; auto.
    destruct (child (x_kids p) k_oz) eqn:E4; cbn [bind] in H; [|exfalso; eapply C; eauto|discriminate]. apply Q in H as [H|[vz H]]; auto. discriminate.
  - destruct (tree_bbox X d) eqn:E2; cbn [bind]; try discriminate. intros H; injection H as <-. now apply tree_bbox_throws in E2.
Qed.
Lemma tree_epsg_throws X d e : tree_epsg X d <> Throw e.
Proof.
  unfold tree_epsg. assert (C : forall l k e, child l k <> Throw e) by (intros l k' e2; unfold child; destruct (first_child l k'); discriminate).
  destruct (child d k_root) eqn:E1; cbn [bind]; [|intros; exfalso; eapply C; eauto|discriminate].
  destruct (child (x_kids a) k_epsg) eqn:E2; cbn [bind]; [|intros; exfalso; eapply C; eauto|discriminate]. discriminate.
Qed.
Lemma t3ds_scene {S} (build : mesh -> outcome S) X f ls p m s : scene_read X build f ls (mkSceneH p m t3ds) = Ok s ->
  exists c x root rest bs t pv ep, f (os_path p) = Some (File c) /\ load_3ds X c = Some x /\ f_nodes x = root :: rest /\
    Forall2 (building_mesh x root) (map node_label (node_kids root)) bs /\ relief_mesh x root (map node_label (node_kids root)) t /\
    scene_make build bs t pv ep = Ok s /\
    ((exists cx d, f (os_path (xml_path p)) = Some (File cx) /\ load_xml X cx = Some d /\ tree_pivot X d = Ok pv /\ tree_epsg X d = Ok ep) \/
     (pv = point_default /\ ep = 2154%N /\ forall cx d, f (os_path (xml_path p)) = Some (File cx) -> load_xml X cx = Some d -> tree_pivot X d = Throw RuntimeError)).
Proof.
  unfold scene_read. cbn [sh_fmt sh_path sh_modes]. cbv zeta. intros H.
  assert (P : forall h bs t pv ep, t3ds_make X f p m = Ok h -> level_meshes h 1 ["F"; "T"]%char = Ok bs -> level_terrain h 1 = Ok t -> scene_make build bs t pv ep = Ok s ->
    exists c x root rest, f (os_path p) = Some (File c) /\ load_3ds X c = Some x /\ f_nodes x = root :: rest /\
    Forall2 (building_mesh x root) (map node_label (node_kids root)) bs /\ relief_mesh x root (map node_label (node_kids root)) t).
  { intros h bs t pv ep Eh Eb Et _. destruct (level_root _ _ Et) as (x & root & rest & Hx & Hr).
    apply t3ds_make_read in Eh as (_ & _ & R1 & R2).
    assert (exists c, f (os_path p) = Some (File c) /\ th_file h = load_3ds X c) as (c & Fc & Lc).
    { destruct (can_read m); [apply R1; auto|]. destruct R2 as [_ R2]; auto. exfalso. rewrite R2 in Hx. injection Hx as <-. discriminate. }
    exists c, x, root, rest. split; auto. split; [congruence|]. split; auto. split; [now apply (level_buildings h x root rest)|now apply (level_relief h x root rest)]. }
  destruct (t3ds_make X f p m) as [h|e|] eqn:Eh; cbn [bind] in H; [|destruct (is_runtime_error e); discriminate|discriminate].
  assert (Fall : t3ds_get_scene build h = Ok s -> (forall cx d, f (os_path (xml_path p)) = Some (File cx) -> load_xml X cx = Some d -> tree_pivot X d = Throw RuntimeError) ->
    exists c x root rest bs t pv ep, f (os_path p) = Some (File c) /\ load_3ds X c = Some x /\ f_nodes x = root :: rest /\
    Forall2 (building_mesh x root) (map node_label (node_kids root)) bs /\ relief_mesh x root (map node_label (node_kids root)) t /\
    scene_make build bs t pv ep = Ok s /\
    ((exists cx d, f (os_path (xml_path p)) = Some (File cx) /\ load_xml X cx = Some d /\ tree_pivot X d = Ok pv /\ tree_epsg X d = Ok ep) \/
     (pv = point_default /\ ep = 2154%N /\ forall cx d, f (os_path (xml_path p)) = Some (File cx) -> load_xml X cx = Some d -> tree_pivot X d = Throw RuntimeError))).
  { intros G N. unfold t3ds_get_scene in G. apply bind_Ok in G as (bs & Eb & G). apply bind_Ok in G as (t & Et & G).
    destruct (P h bs t point_default 2154%N eq_refl Eb Et G) as (c & x & root & rest & A1 & A2 & A3 & A4 & A5).
    exists c, x, root, rest, bs, t, point_default, 2154%N. do 6 (split; [assumption|]). right. auto. }
  destruct (tree_make_cases X f (xml_path p)) as [[d Ed]|Ed]; rewrite Ed in H; cbn [bind is_runtime_error] in H.
  2:{ apply Fall; auto. intros cx d F L. exfalso. assert (tree_make X f (xml_path p) = Ok d) by (apply tree_make_Ok; eauto). congruence. }
  apply tree_make_Ok in Ed as (cx & Fx & Lx).
  destruct (t3ds_get_scene_tree X build h d false) as [s'|e|] eqn:E; [|destruct (is_runtime_error e) eqn:Re; [|discriminate]|discriminate].
  - apply Ok_inj in H. subst s'. unfold t3ds_get_scene_tree in E.
    apply bind_Ok in E as (bs & Eb & E). apply bind_Ok in E as (t & Et & E). apply bind_Ok in E as (pv & Ep & E). apply bind_Ok in E as (ep & Ee & E).
    destruct (P h bs t pv ep eq_refl Eb Et E) as (c & x & root & rest & A1 & A2 & A3 & A4 & A5).
    exists c, x, root, rest, bs, t, pv, ep. do 6 (split; [assumption|]). left. exists cx, d. auto.
  - apply Fall; auto. intros cx' d' F' L'. rewrite Fx in F'. injection F' as <-. rewrite Lx in L'. injection L' as <-.
    unfold t3ds_get_scene_tree in E. unfold t3ds_get_scene in H.
    destruct (level_meshes h 1 ["F"; "T"]%char) as [bs| |] eqn:Eb; try discriminate H. cbn [bind] in *.
    destruct (level_terrain h 1) as [t| |] eqn:Et; try discriminate H. cbn [bind] in *.
    destruct (tree_pivot X d) as [pv|e'|] eqn:Ep; cbn [bind] in E; [|f_equal; now apply tree_pivot_throws in Ep|discriminate].
    exfalso. destruct (tree_epsg X d) as [ep|e'|] eqn:Ee; cbn [bind] in E; [|now apply tree_epsg_throws in Ee|discriminate].
    unfold scene_make_default, scene_make in *.
    assert (W : forall r n x, unode_of_mesh build r n x = Throw e -> forall r' n' u, unode_of_mesh build r' n' x <> Ok u).
    { intros r n x Hx r' n' u. unfold unode_of_mesh in *. destruct (build x); cbn in *; try discriminate. }
    assert (W2 : forall l r n, omapM (unode_of_mesh build r n) l = Throw e -> forall r' n' us, omapM (unode_of_mesh build r' n') l <> Ok us).
    { intros l r n Hl r' n' us Ho. apply omapM_throws in Hl as (a & Ia & Ea). apply omapM_Ok in Ho. apply in_split in Ia as (l1 & l2 & ->).
      apply Forall2_app_inv_l in Ho as (u1 & u2 & _ & Ho & _). inversion Ho; subst. eapply W; eauto. }
    apply bind_Ok in H as (us & H1 & H). apply bind_Ok in H as (ut & H2 & H).
    destruct (omapM (unode_of_mesh build pv ep) bs) eqn:E1; cbn [bind] in E; [|injection E as ->; eapply W2; eauto|discriminate].
    destruct (unode_of_mesh build pv ep t) eqn:E2; cbn [bind] in E; [discriminate|injection E as ->; eapply W; eauto|discriminate].
Qed.
Lemma subtree_exists x n : exists ms, subtree_meshes (f_meshes x) n ms /\ forall lm, In lm ms -> In lm (f_meshes x).
Proof.
  exists (options (map (fun n => mesh_by_name x (node_label n)) (postorder n))). split.
  - exists (map (fun n => mesh_by_name x (node_label n)) (postorder n)). split; auto.
    induction (postorder n) as [|a l IH]; constructor; auto. apply mesh_by_name_spec.
  - intros lm H. unfold options in H. apply in_flat_map in H as (o & H1 & H2). apply in_map_iff in H1 as (k & <- & _).
    destruct (mesh_by_name x (node_label k)) as [y|] eqn:E; [|destruct H2]. destruct H2 as [<-|[]]. unfold mesh_by_name in E. now apply find_some in E.
Qed.
Lemma t3ds_mesh_defined h x root rest s types : th_file h = Some x -> can_read (th_modes h) = true -> f_nodes x = root :: rest ->
  (forall lm, In lm (f_meshes x) -> indices_fine lm) -> (exists n, found_at root (c_str s) n) -> exists r, t3ds_mesh h s types = Ok r.
Proof.
  intros Hx Hc Hr Hf [n Hn]. destruct (subtree_exists x n) as (ms & Hs & Hi).
  destruct (C36_defined_proof h x s types root rest n ms Hx Hc Hr Hn Hs) as [m E]; [intros; apply Hf; auto|].
  unfold t3ds_mesh, t3ds_mesh_by_type. rewrite E. eexists; reflexivity.
Qed.
Lemma omapM_defined {A B} (g : A -> outcome B) l : (forall a, In a l -> exists b, g a = Ok b) -> exists bs, omapM g l = Ok bs.
Proof.
  induction l as [|a l IH]; intros H; [eexists; reflexivity|]. destruct (H a) as [b Eb]; [left; auto|]. destruct IH as [bs E]; [intros; apply H; right; auto|].
  cbn [omapM]. rewrite Eb. cbn [bind]. rewrite E. eexists; reflexivity.
Qed.
Lemma t3ds_make_for_reading X f p m c : is_map m -> granted m "read" -> ~ granted m "write" -> f (os_path p) = Some (File c) ->
  t3ds_make X f p m = Ok (mk3dsH p m (load_3ds X c)) /\ can_read m = true.
Proof.
  intros Hm R W F. apply (mode_granted m "read" Hm) in R. apply (mode_granted_false m "write" Hm) in W.
  unfold t3ds_make, can_read, can_write. change s_read with (lit "read"). change s_write with (lit "write"). rewrite R, W. cbn.
  unfold is_regular_file, fread. rewrite F. auto.
Qed.
Section Defined.
Context {S : Type} (build : mesh -> outcome S) (X : externals) (f : fs) (p : path) (m : modes) (c : str) (x : lib3ds_file) (root : node) (rest : list node).
Hypotheses (Hm : is_map m) (R : granted m "read") (W : ~ granted m "write") (F : f (os_path p) = Some (File c)) (L : load_3ds X c = Some x)
  (Hr : f_nodes x = root :: rest) (Hf : forall lm, In lm (f_meshes x) -> indices_fine lm).
Lemma t3ds_xml_defined ls cx d ids tid pv ep : f (os_path (xml_path p)) = Some (File cx) -> load_xml X cx = Some d ->
  tree_building_ids d = Ok ids -> tree_terrain_id d = Ok tid -> tree_pivot X d = Ok pv -> tree_epsg X d = Ok ep ->
  (forall id, In id (tid :: ids) -> exists n, found_at root (c_str id) n) ->
  exists bs t, Forall2 (building_mesh x root) ids bs /\ relief_mesh x root [tid] t /\ scene_read X build f ls (mkSceneH p m t3ds_xml) = scene_make build bs t pv ep.
Proof.
  intros Fx Lx Ei Et Ep Ee Hn. destruct (t3ds_make_for_reading X f p m c Hm R W F) as [Mk Rd].
  set (h := mk3dsH p m (load_3ds X c)) in *.
  assert (Hx : th_file h = Some x) by (cbn; exact L).
  destruct (omapM_defined (fun s => t3ds_mesh h s ["F"; "T"]%char) ids) as [bs Eb].
  { intros a Ha. apply (t3ds_mesh_defined h x root rest); auto. apply Hn; right; auto. }
  destruct (t3ds_mesh_defined h x root rest tid ["M"]%char Hx Rd Hr Hf) as [t Em]; [apply Hn; left; auto|].
  exists bs, (snd (mesh_set_name t (lit "terrain"))). split.
  { apply omapM_Ok in Eb. eapply F2_impl; [|exact Eb]. intros a b. now apply (building_value h x root rest). }
  split; [now apply (relief_named h x root rest)|].
  unfold scene_read. cbn [sh_fmt sh_path sh_modes]. rewrite Mk. cbn [bind].
  replace (tree_make X f (xml_path p)) with (Ok d) by (symmetry; apply tree_make_Ok; eauto). cbn [bind].
  unfold t3ds_get_scene_tree. rewrite Ei. cbn [bind]. rewrite Eb. cbn [bind]. rewrite Et. cbn [bind]. rewrite Em. cbn [bind]. rewrite Ep. cbn [bind]. rewrite Ee. reflexivity.
Qed.
Lemma t3ds_defined ls : (forall n, In n (node_kids root) -> exists n', found_at root (c_str (node_label n)) n') ->
  exists bs t, Forall2 (building_mesh x root) (map node_label (node_kids root)) bs /\ relief_mesh x root (map node_label (node_kids root)) t /\
   (forall cx d pv ep s, f (os_path (xml_path p)) = Some (File cx) -> load_xml X cx = Some d -> tree_pivot X d = Ok pv -> tree_epsg X d = Ok ep ->
      scene_make build bs t pv ep = Ok s -> scene_read X build f ls (mkSceneH p m t3ds) = Ok s) /\
   (tree_make X f (xml_path p) = Throw RuntimeError \/ (exists cx d, f (os_path (xml_path p)) = Some (File cx) /\ load_xml X cx = Some d /\ tree_pivot X d = Throw RuntimeError) ->
      scene_read X build f ls (mkSceneH p m t3ds) = scene_make build bs t point_default 2154).
Proof.
  intros Hn. destruct (t3ds_make_for_reading X f p m c Hm R W F) as [Mk Rd].
  set (h := mk3dsH p m (load_3ds X c)) in *.
  assert (Hx : th_file h = Some x) by (cbn; exact L).
  assert (Lv : forall types, exists ms, level_meshes h 1 types = Ok ms).
  { intros types. unfold level_meshes. rewrite (C35_proof h x root rest 1 Hx Hr). cbn [repeat concat bind]. rewrite app_nil_r. apply omapM_defined.
    intros s Hs. apply in_map_iff in Hs as (n & <- & Hs). apply (t3ds_mesh_defined h x root rest); auto. }
  destruct (Lv ["F"; "T"]%char) as [bs Eb]. destruct (Lv ["M"]%char) as [ms Em].
  assert (Et : level_terrain h 1 = Ok (snd (mesh_set_name (sum_meshes ms) s_terrain))) by (unfold level_terrain; rewrite Em; reflexivity).
  exists bs, (snd (mesh_set_name (sum_meshes ms) s_terrain)).
  split; [now apply (level_buildings h x root rest)|]. split; [now apply (level_relief h x root rest)|].
  unfold scene_read. cbn [sh_fmt sh_path sh_modes]. cbv zeta. rewrite Mk. cbn [bind]. split.
  - intros cx d pv ep s Fx Lx Ep Ee Sc. replace (tree_make X f (xml_path p)) with (Ok d) by (symmetry; apply tree_make_Ok; eauto). cbn [bind].
    unfold t3ds_get_scene_tree. rewrite Eb. cbn [bind]. rewrite Et. cbn [bind]. rewrite Ep. cbn [bind]. rewrite Ee. cbn [bind]. rewrite Sc. reflexivity.
  - assert (G : t3ds_get_scene build h = scene_make build bs (snd (mesh_set_name (sum_meshes ms) s_terrain)) point_default 2154).
    { unfold t3ds_get_scene. rewrite Eb. cbn [bind]. rewrite Et. reflexivity. }
    intros [E|(cx & d & Fx & Lx & Ep)].
    + rewrite E. cbn [bind is_runtime_error]. exact G.
    + replace (tree_make X f (xml_path p)) with (Ok d) by (symmetry; apply tree_make_Ok; eauto). cbn [bind].
      unfold t3ds_get_scene_tree. rewrite Eb. cbn [bind]. rewrite Et. cbn [bind]. rewrite Ep. cbn [bind is_runtime_error]. exact G.
Qed.
End Defined.
(** a child of the root that is an object whose name is a C string is found by its name *)
Lemma kid_found root n : In n (node_kids root) -> is_object n = true -> ~ In nul (node_label n) -> exists n', found_at root (c_str (node_label n)) n'.
Proof.
  intros Hk Ho Hn. rewrite (Face3ds_proofs.c_str_no_nul _ Hn).
  destruct (find (is_named (node_label n)) (descendants root)) as [n'|] eqn:E.
  - exists n'. apply find_split in E as (pre & post & A & B & C). exists pre, post. apply is_named_true in B as [B1 B2]. repeat split; auto.
    intros y Hy. apply C in Hy. exact (proj1 (is_named_false _ _) Hy).
  - exfalso. pose proof (find_none _ _ E n) as G. assert (In n (descendants root)).
    { destruct root as [s o l]. cbn in *. apply in_flat_map. exists n. split; auto. left; auto. }
    specialize (G H). assert (is_named (node_label n) n = true) by (apply is_named_true; auto). congruence.
Qed.
