(** * Proofs about file handlers and scene files (C31-C34). *)
From Coq Require Import String.
From Verif Require Import Base Dbl Dbl_facts Decimal Shadow Spec_shadow Shadow_proofs Streams Spec_text
  Lines_proofs Off_proofs Handlers Spec_io.
Close Scope string_scope.

(** ** Sums of meshes *)
Lemma polygons_empty : polygons mesh_empty = [].
Proof. reflexivity. Qed.
Lemma fold_add l : forall a, mesh_wf a -> (forall m, In m l -> mesh_wf m) ->
  (nsize (m_points a) + sum_points l <= two64)%N ->
  mesh_wf (fold_left mesh_add l a) /\
  polygons (fold_left mesh_add l a) = polygons a ++ concat (map polygons l) /\
  m_points (fold_left mesh_add l a) = m_points a ++ concat (map m_points l).
Proof.
  induction l as [|m l IH]; intros a Ha Hl Hs; cbn [fold_left map concat].
  - rewrite !app_nil_r. auto.
  - cbn [sum_points fold_right] in Hs. fold (sum_points l) in Hs.
    destruct (C04_proof a m) as (W & P & Q & _); auto.
    { apply Hl; left; auto. } { lia. }
    destruct (IH (mesh_add a m)) as (W' & P' & Q'); auto.
    { intros; apply Hl; right; auto. }
    { rewrite Q, nsize_app. lia. }
    rewrite P', P, Q', Q, <- !app_assoc. auto.
Qed.
Lemma mesh_wf_empty : mesh_wf mesh_empty.
Proof. intros f []. Qed.
Lemma sum_meshes_spec l : (forall m, In m l -> mesh_wf m) -> (sum_points l <= two64)%N ->
  mesh_wf (sum_meshes l) /\ polygons (sum_meshes l) = concat (map polygons l) /\
  m_points (sum_meshes l) = concat (map m_points l).
Proof.
  intros H Hs. unfold sum_meshes. destruct (fold_add l mesh_empty) as (A & B & C); auto using mesh_wf_empty.
Qed.
Lemma fold_add_points l : forall a, m_points (fold_left mesh_add l a) = m_points a ++ concat (map m_points l).
Proof.
  induction l as [|m l IH]; intros a; cbn [fold_left map concat].
  - now rewrite app_nil_r.
  - rewrite IH. unfold mesh_add, mesh_add_assign, mesh_copy, mesh_is_empty; cbn [m_points].
    destruct (m_points a) eqn:E; cbn [m_points mesh_assign]; rewrite ?E, ?app_assoc; reflexivity.
Qed.

(** ** C31 *)
Lemma interleave_filter {A} (p : A -> bool) l : interleave (filter (fun x => negb (p x)) l) (filter p l) l.
Proof.
  induction l as [|a l IH]; cbn; [constructor|]. destruct (p a); cbn; constructor; auto.
Qed.
Lemma filter_idem {A} (p : A -> bool) l : filter p (filter p l) = filter p l.
Proof. induction l as [|a l IH]; cbn; auto. destruct (p a) eqn:E; cbn; auto. rewrite E. now f_equal. Qed.
Lemma filter_contra {A} (p : A -> bool) l : filter p (filter (fun x => negb (p x)) l) = [].
Proof. induction l as [|a l IH]; cbn; auto. destruct (p a) eqn:E; cbn; auto. now rewrite E. Qed.
Lemma C31_proof : forall h n h' r, exclude_mesh h n = (h', r) -> exists out,
  interleave (oh_meshes h') out (oh_meshes h) /\
  (forall m, In m (oh_meshes h') -> m_name m <> n) /\ (forall m, In m out -> m_name m = n) /\
  oh_path h' = oh_path h /\ oh_modes h' = oh_modes h /\
  m_name r = n /\ m_points r = concat (map m_points out) /\
  ((forall m, In m out -> mesh_wf m) -> (sum_points out <= two64)%N -> mesh_wf r /\ polygons r = concat (map polygons out)) /\
  exists r', exclude_mesh h' n = (h', r') /\ m_name r' = n /\ m_points r' = [] /\ m_faces r' = [].
Proof.
  intros h n h' r E. unfold exclude_mesh in E. cbn in E. injection E as <- <-.
  exists (filter (fun x => str_eqb (m_name x) n) (oh_meshes h)). cbn [oh_meshes oh_path oh_modes m_name m_points].
  split; [|split; [|split; [|split; [|split; [|split; [|split; [|split]]]]]]]; auto.
  - apply interleave_filter.
  - intros m H. apply filter_In in H as [_ H]. apply negb_true_iff in H. now apply str_eqb_neq.
  - intros m H. apply filter_In in H as [_ H]. now apply str_eqb_eq.
  - unfold sum_meshes. rewrite fold_add_points. reflexivity.
  - intros H1 H2. destruct (sum_meshes_spec _ H1 H2) as (W & P & Q). split; [exact W|exact P].
  - unfold exclude_mesh. cbn.
    rewrite filter_idem, (filter_contra (fun x => str_eqb (m_name x) n)). eexists. split; [reflexivity|]. auto.
Qed.

(** ** C32 *)
Lemma mode_granted m k : is_map m -> (mode_of m (lit k) = true <-> granted m k).
Proof.
  unfold is_map, granted. induction m as [|[a b] m IH]; cbn; intros H; [intuition discriminate|].
  inversion H as [|? ? H1 H2]; subst. destruct (str_eqb a (lit k)) eqn:E.
  - apply str_eqb_eq in E; subst. split; intros G; [subst; auto|]. destruct G as [G|G]; [congruence|].
    exfalso; apply H1. change (lit k) with (fst (lit k, true)). apply in_map; auto.
  - apply str_eqb_neq in E. rewrite IH by auto. split; auto. intros [G|G]; auto. congruence.
Qed.
Lemma mode_granted_false m k : is_map m -> (mode_of m (lit k) = false <-> ~ granted m k).
Proof. intros H. rewrite <- not_true_iff_false. now rewrite mode_granted. Qed.

Lemma is_reg_file f p : is_regular_file f p = true <-> a_file f (os_path p).
Proof.
  unfold is_regular_file, a_file. destruct (f (os_path p)) as [[]|]; split; intros H; try discriminate; eauto.
  - destruct H; discriminate.
  - destruct H; discriminate.
Qed.
Lemma is_reg_file_false f p : is_regular_file f p = false <-> ~ a_file f (os_path p).
Proof. rewrite <- not_true_iff_false. now rewrite is_reg_file. Qed.

Lemma off_filter_throws ls e : off_filter ls = Throw e -> e = OutOfRange.
Proof.
  induction ls as [|l ls IH]; cbn; [discriminate|]. destruct l; cbn; [congruence|].
  destruct (off_filter ls); cbn; auto; try discriminate.
Qed.
Lemma omapM_throws {A B} (g : A -> outcome B) l e : omapM g l = Throw e -> exists a, In a l /\ g a = Throw e.
Proof.
  induction l as [|a l IH]; cbn; [discriminate|]. destruct (g a) eqn:E; cbn; try discriminate.
  - destruct (omapM g l); cbn; try discriminate. intros H. destruct IH as (x & Hx & Hg); [congruence|]. exists x; auto.
  - intros H. exists a. split; auto. congruence.
Qed.
Lemma vidx_not_throw {A} (l : list A) i e : vidx l i <> Throw e.
Proof. unfold vidx. destruct (nth_error l i); discriminate. Qed.
Lemma off_point_not_throw l e : off_point l <> Throw e.
Proof.
  unfold off_point. cbv zeta. destruct (vidx (scan_doubles l) 0) eqn:E0; cbn; try discriminate; [|now apply vidx_not_throw in E0].
  destruct (vidx (scan_doubles l) 1) eqn:E1; cbn; try discriminate; [|now apply vidx_not_throw in E1].
  destruct (vidx (scan_doubles l) 2) eqn:E2; cbn; try discriminate. now apply vidx_not_throw in E2.
Qed.
Lemma off_face_throws l e : off_face l = Throw e -> e = LengthError \/ e = LogicError.
Proof.
  unfold off_face. destruct (scan_size_n l) as [n r]. destruct (max_indexes <? n)%N; [intros H; left; congruence|].
  match goal with |- context [copy_into n ?x] => unfold copy_into; destruct (n <? nsize x)%N end; cbn; [discriminate|].
  unfold face_make. match goal with |- context [if ?b then _ else _] => destruct b end; [intros H; right; congruence|discriminate].
Qed.
Lemma off_read_throws t e : off_read t = Throw e -> e <> FilesystemError /\ e <> RuntimeError.
Proof.
  unfold off_read, off_parse. destruct (off_filter (readlines t)) as [lines|e'|] eqn:E; cbn; try discriminate.
  2:{ intros H. apply off_filter_throws in E. split; congruence. }
  destruct lines as [|l0 rest]; [intros H; split; congruence|].
  destruct (negb (str_eqb l0 s_off)); [intros H; split; congruence|].
  destruct (Datatypes.length (l0 :: rest) <=? 1)%nat; [intros H; split; congruence|].
  destruct (off_counts (l0 :: rest)) as [[p f]|e'|] eqn:C; cbn [bind]; try discriminate.
  - match goal with |- context [omapM off_point ?l] => destruct (omapM off_point l) eqn:EP end; cbn [bind]; try discriminate.
    + match goal with |- context [omapM off_face ?l] => destruct (omapM off_face l) eqn:EF end; cbn [bind]; try discriminate.
      intros H. apply omapM_throws in EF as (x & _ & Hx). apply off_face_throws in Hx. split; intuition congruence.
    + apply omapM_throws in EP as (x & _ & Hx). now apply off_point_not_throw in Hx.
  - intros H. unfold off_counts in C.
    destruct (vidx (l0 :: rest) 1) as [l1| |] eqn:E1; cbn [bind] in C; try discriminate; [|now apply vidx_not_throw in E1].
    destruct (copy_into 3 (scan_sizes l1)) as [sz| |] eqn:E2; cbn [bind] in C; try discriminate.
    2:{ unfold copy_into in E2. destruct (3 <? nsize (scan_sizes l1))%N; discriminate. }
    destruct (vidx sz 0) as [a| |] eqn:E3; cbn [bind] in C; try discriminate; [|now apply vidx_not_throw in E3].
    destruct (vidx sz 1) as [b| |] eqn:E4; cbn [bind] in C; try discriminate; [|now apply vidx_not_throw in E4].
    destruct (vidx sz 2) as [c| |] eqn:E5; cbn [bind] in C; try discriminate; [|now apply vidx_not_throw in E5].
    destruct (negb (c =? 0)%N); [split; congruence|].
    destruct (nsize (l0 :: rest) =? 2 + a + b)%N; [discriminate|].
    destruct (nsize (l0 :: rest) =? wrap64 (2 + a + b))%N; [discriminate|]. split; congruence.
Qed.
Lemma line2pt_throws l e : line2pt l = Throw e -> e = IosFailure.
Proof.
  unfold line2pt, str2pt. repeat match goal with |- context [match ?b with _ => _ end] => destruct b end; try discriminate; try congruence.
Qed.
Lemma obj_read_points_throws ls e : obj_read_points ls = Throw e -> e = IosFailure.
Proof.
  induction ls as [|l ls IH]; cbn; [discriminate|]. destruct (front_is ch_v l); [|discriminate].
  destruct (line2pt (tl l)) eqn:E; cbn; try discriminate.
  - destruct (obj_read_points ls) as [[P r]| |]; cbn; auto; discriminate.
  - apply line2pt_throws in E. congruence.
Qed.
Lemma size_of_dbl_not_throw d e : size_of_dbl d <> Throw e.
Proof. unfold size_of_dbl. repeat match goal with |- context [match ?b with _ => _ end] => destruct b end; discriminate. Qed.
Lemma obj_facets_throws ls : forall m e, obj_facets ls m = Throw e -> e = LogicError.
Proof.
  induction ls as [|l ls IH]; cbn; intros m e; [discriminate|]. unfold obj_facet.
  destruct (omapM size_of_dbl (scan_doubles (tl l))) as [idx| |] eqn:E; cbn; try discriminate.
  2:{ apply omapM_throws in E as (x & _ & Hx). now apply size_of_dbl_not_throw in Hx. }
  unfold face_make. match goal with |- context [if ?b then _ else _] => destruct b end; cbn; [congruence|].
  match goal with |- context [obj_facets ls ?m'] => destruct (obj_facets ls m') as [[]| |] eqn:E' end; cbn; try discriminate.
  intros H. apply IH in E'. congruence.
Qed.
Lemma ofold_not_throw {A B} (g : A -> B -> outcome A) l : (forall a b e, g a b <> Throw e) -> forall a e, ofold g l a <> Throw e.
Proof.
  intros H. induction l as [|b l IH]; cbn; intros a e; [discriminate|]. destruct (g a b) eqn:E; cbn; try discriminate; auto.
  now apply H in E.
Qed.
Lemma vidxN_not_throw {A} (l : list A) i e : vidxN l i <> Throw e.
Proof. unfold vidxN. destruct (i <? nsize l)%N; [apply vidx_not_throw|discriminate]. Qed.
Lemma obj_select_not_throw P m e : obj_select P m <> Throw e.
Proof.
  unfold obj_select. apply ofold_not_throw. intros s [a b] e'. cbn. destruct (vidxN P a) eqn:E; cbn; try discriminate.
  - unfold vset. destruct (b <? nsize s)%N; discriminate.
  - now apply vidxN_not_throw in E.
Qed.
Lemma obj_read_throws t e : obj_read t = Throw e -> e <> FilesystemError /\ e <> RuntimeError.
Proof.
  unfold obj_read. destruct (obj_parse t) as [|l ls]; [intros H; split; congruence|].
  destruct (obj_read_points (l :: ls)) as [[P rest]|e'|] eqn:E; cbn [bind]; try discriminate.
  - intros H. apply omapM_throws in H as (o & _ & Ho). unfold obj_object in Ho.
    destruct (obj_facets (snd o) []) as [[F m]|e'|] eqn:E'; cbn [bind] in Ho; try discriminate.
    + destruct (obj_select (point_default :: P) m) as [Q|e'|] eqn:E''; cbn [bind] in Ho; try discriminate.
      now apply obj_select_not_throw in E''.
    + apply obj_facets_throws in E'. split; congruence.
  - apply obj_read_points_throws in E. intros H; split; congruence.
Qed.

Lemma C32_off_read_proof : forall f p m, is_map m ->
  (off_handler_read f p m = Throw FilesystemError <-> ~ granted m "read" \/ ~ a_file f (os_path p)).
Proof.
  intros f p m Hm. unfold off_handler_read, can_read. change s_read with (lit "read").
  destruct (mode_of m (lit "read")) eqn:E.
  - apply (mode_granted m "read" Hm) in E. destruct (is_regular_file f p) eqn:R.
    + apply is_reg_file in R. split; [|intros [H|H]; contradiction].
      destruct (off_read (fread f p)) eqn:O; cbn; try discriminate. intros H. apply off_read_throws in O as [O _]. exfalso; apply O; congruence.
    + apply is_reg_file_false in R. intuition.
  - apply (mode_granted_false m "read" Hm) in E. intuition.
Qed.
Lemma C32_off_read_value_proof : forall f p m x, off_handler_read f p m = Ok x ->
  exists c r, f (os_path p) = Some (File c) /\ off_read c = Ok r /\ m_points x = m_points r /\ m_faces x = m_faces r /\ m_bbox x = m_bbox r /\ m_name x = stem p.
Proof.
  intros f p m x. unfold off_handler_read. destruct (can_read m); [|discriminate].
  destruct (is_regular_file f p) eqn:R; [|discriminate]. apply is_reg_file in R as [c R].
  unfold fread. rewrite R. destruct (off_read c) eqn:O; cbn; try discriminate. intros H; apply Ok_inj in H; subst.
  exists c, a. cbn. auto 10.
Qed.
Lemma fs_set_other f p e : differ_only_at p f (fs_set f p e).
Proof.
  intros q H. unfold fs_set. destruct (path_eqb q p) eqn:E; auto. exfalso; apply H.
  apply (list_eqb_spec _ str_eqb_eq) in E. auto.
Qed.
Lemma fs_set_same f p e : fs_set f p e p = Some e.
Proof. unfold fs_set. replace (path_eqb p p) with true; auto. symmetry. apply (list_eqb_spec _ str_eqb_eq). auto. Qed.
Lemma fwrite_other f p c : differ_only_at (os_path p) f (fwrite f p c).
Proof. unfold fwrite. destruct (can_create f p); [apply fs_set_other|intros q _; reflexivity]. Qed.
Lemma C32_off_write_proof : forall f p m x, is_map m ->
  (~ granted m "write" -> off_handler_write f p m x = (f, Throw FilesystemError)) /\
  (granted m "write" -> exists f', off_handler_write f p m x = (f', Ok tt) /\ differ_only_at (os_path p) f f' /\
     (can_create f p = true -> f' (os_path p) = Some (File (off_write x))) /\ (can_create f p = false -> f' = f)).
Proof.
  intros f p m x Hm. unfold off_handler_write, can_write. change s_write with (lit "write"). split; intros H.
  - apply (mode_granted_false m "write" Hm) in H. now rewrite H.
  - apply (mode_granted m "write" Hm) in H. rewrite H. eexists. split; [reflexivity|]. split; [apply fwrite_other|].
    unfold fwrite. split; intros ->; [apply fs_set_same|reflexivity].
Qed.
Lemma C32_obj_read_proof : forall f h, is_map (oh_modes h) ->
  (obj_handler_read f h = Throw FilesystemError <-> ~ granted (oh_modes h) "read" \/ ~ a_file f (os_path (oh_path h))).
Proof.
  intros f h Hm. unfold obj_handler_read, can_read. change s_read with (lit "read").
  destruct (mode_of (oh_modes h) (lit "read")) eqn:E.
  - apply (mode_granted _ "read" Hm) in E. destruct (is_regular_file f (oh_path h)) eqn:R.
    + apply is_reg_file in R. split; [|intros [H|H]; contradiction].
      destruct (obj_read (fread f (oh_path h))) eqn:O; cbn; try discriminate. intros H. apply obj_read_throws in O as [O _]. exfalso; apply O; congruence.
    + apply is_reg_file_false in R. intuition.
  - apply (mode_granted_false _ "read" Hm) in E. intuition.
Qed.
Lemma C32_obj_write_proof : forall f h, is_map (oh_modes h) ->
  (~ granted (oh_modes h) "write" -> obj_handler_write f h = (f, Throw FilesystemError)) /\
  (forall f' r, obj_handler_write f h = (f', r) -> r <> Throw FilesystemError -> granted (oh_modes h) "write" /\ differ_only_at (os_path (oh_path h)) f f').
Proof.
  intros f h Hm. unfold obj_handler_write, can_write. change s_write with (lit "write"). split.
  - intros H. apply (mode_granted_false _ "write" Hm) in H. now rewrite H.
  - intros f' r. destruct (mode_of (oh_modes h) (lit "write")) eqn:E.
    + apply (mode_granted _ "write" Hm) in E. intros H _. split; auto.
      destruct (obj_write (oh_meshes h)); injection H as <- <-; apply fwrite_other.
    + intros H G. injection H as <- <-. congruence.
Qed.
Lemma C32_t3ds_proof : forall X f p m, is_map m ->
  ((granted m "read" <-> granted m "write") -> t3ds_make X f p m = Throw FilesystemError) /\
  (granted m "read" -> ~ granted m "write" ->
     (a_file f (os_path p) -> exists h, t3ds_make X f p m = Ok h) /\
     (~ a_file f (os_path p) -> t3ds_make X f p m = Throw FilesystemError)) /\
  (~ granted m "read" -> granted m "write" -> exists h, t3ds_make X f p m = Ok h).
Proof.
  intros X f p m Hm. unfold t3ds_make, can_read, can_write. change s_write with (lit "write"). change s_read with (lit "read").
  pose proof (mode_granted m "read" Hm) as R. pose proof (mode_granted m "write" Hm) as W.
  pose proof (is_reg_file f p) as G.
  destruct (mode_of m (lit "read")), (mode_of m (lit "write")), (is_regular_file f p); cbn;
    assert (false <> true) by discriminate; split; [|split| |split| |split| |split| |split| |split| |split| |split]; intros;
    try (split; intros); try reflexivity; try (eexists; reflexivity); exfalso; intuition congruence.
Qed.
Lemma C32_t3ds_use_proof : forall X f p m h, t3ds_make X f p m = Ok h ->
  (th_modes h = m) /\ (can_read m = false ->
     t3ds_get_meshes h = Throw FilesystemError /\ forall s ty, node_meshes_by_type h s ty = Throw FilesystemError) /\
  (can_write m = false -> forall g ms, write_meshes X g h ms = (g, Throw FilesystemError)).
Proof.
  intros X f p m h. unfold t3ds_make. destruct (can_read m && can_write m); [discriminate|].
  destruct (negb (can_read m) && negb (can_write m)); [discriminate|].
  intros H. assert (E : th_modes h = m).
  { destruct (can_read m); [destruct (is_regular_file f p); [|discriminate]|]; apply Ok_inj in H; subst; reflexivity. }
  split; [exact E|]. unfold t3ds_get_meshes, node_meshes_by_type, write_meshes. rewrite E. split; intros ->; auto.
Qed.
Lemma C32_gdal_read_proof : forall (D P : Type) (open : path -> option D) (make : str -> D -> outcome P) f p m, is_map m ->
  (~ granted m "read" \/ ~ a_file f (os_path p) -> gdal_handler_read open make f p m = Throw FilesystemError) /\
  (granted m "read" -> a_file f (os_path p) ->
     (open p = None -> gdal_handler_read open make f p m = Throw RuntimeError) /\
     (forall d, open p = Some d -> gdal_handler_read open make f p m = make (stem p) d)).
Proof.
  intros D P open make f p m Hm. unfold gdal_handler_read, can_read. change s_read with (lit "read").
  pose proof (mode_granted m "read" Hm) as R. pose proof (is_reg_file f p) as G.
  assert (false <> true) by discriminate. split.
  - intros H1. destruct (mode_of m (lit "read")), (is_regular_file f p); try reflexivity. exfalso; intuition.
  - intros H1 H2. apply R in H1. apply G in H2. rewrite H1, H2. split; [intros ->|intros d ->]; reflexivity.
Qed.
Lemma C32_gdal_write_proof : forall (D P : Type) driver (create : fs -> path -> fs * option D) (export : P -> D -> fs -> fs * outcome unit) f p m x, is_map m ->
  ~ granted m "write" ->
  raster_handler_write driver create export f p m x = (f, Throw FilesystemError) /\
  vector_handler_write driver create export f p m x = (f, Throw FilesystemError).
Proof.
  intros D P driver create export f p m x Hm H. unfold raster_handler_write, vector_handler_write, can_write. change s_write with (lit "write").
  apply (mode_granted_false m "write" Hm) in H. rewrite H. auto.
Qed.
Lemma C32_missing_proof : forall m k, ~ In (lit k) (map fst m) -> mode_of m (lit k) = false.
Proof.
  intros m k. induction m as [|[a b] m IH]; cbn; auto. intros H. destruct (str_eqb a (lit k)) eqn:E.
  - apply str_eqb_eq in E. exfalso; apply H; auto.
  - apply IH. intros G; apply H; auto.
Qed.
