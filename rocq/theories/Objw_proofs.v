(** * Proofs about the OBJ writer and the OBJ round trip (C26, C30). *)
From Verif Require Import Base Dbl Decimal Shadow Spec_shadow Streams Spec_text
  Scan_proofs Lines_proofs Shadow_proofs Off_proofs Obj_proofs.

Definition vline (p : point) : str := ch_v :: ch_sp :: print_point p.
Definition oline (m : mesh) : str := ch_o :: ch_sp :: m_name m.
Definition flines (s : N) (m : mesh) : list str := map (obj_face_line s) (m_faces m).
Definition all_points (ms : list mesh) : list point := concat (map m_points ms).
Fixpoint psums (a : N) (ms : list mesh) : list N :=
  match ms with [] => [] | m :: ms => a :: psums (a + nsize (m_points m)) ms end.
Fixpoint sec_lines (blank : list str) (a : N) (ms : list mesh) : list str :=
  match ms with [] => [] | m :: ms => blank ++ oline m :: flines a m ++ sec_lines blank (a + nsize (m_points m)) ms end.

Lemma psums_shifts ms : forall m acc, (acc + sum_points (m :: ms) < two64)%N ->
  acc :: partial_sums acc (removelast (map (fun m => nsize (m_points m)) (m :: ms))) = psums acc (m :: ms).
Proof.
  induction ms as [|m' ms IH]; intros m acc H; [reflexivity|].
  change (map (fun m => nsize (m_points m)) (m :: m' :: ms)) with (nsize (m_points m) :: nsize (m_points m') :: map (fun m => nsize (m_points m)) ms).
  cbn [removelast]. cbn [sum_points fold_right] in H. fold (sum_points ms) in H.
  cbn [partial_sums]. unfold wrap64. rewrite N.mod_small by lia.
  cbn [psums]. f_equal. apply (IH m' (acc + nsize (m_points m))%N). cbn [sum_points fold_right]. fold (sum_points ms). lia.
Qed.
Lemma obj_shifts_spec ms : ms <> [] -> (sum_points ms < two64)%N -> obj_shifts ms = Ok (psums 0 ms).
Proof.
  destruct ms as [|m ms]; [congruence|]. intros _ H. unfold obj_shifts. f_equal.
  rewrite <- (psums_shifts ms m 0) by lia. reflexivity.
Qed.
Lemma obj_points_lines ms : concat (map obj_points ms) = concat (map print_line (map vline (all_points ms))).
Proof.
  unfold all_points. induction ms as [|m ms IH]; cbn [map concat]; auto. rewrite !map_app, concat_app, IH. f_equal.
  unfold obj_points. rewrite map_map. reflexivity.
Qed.
Lemma obj_secs_lines ms : forall a, concat (map (fun ms => obj_mesh_faces (fst ms) (snd ms)) (combine ms (psums a ms))) =
  concat (map print_line (sec_lines [[]] a ms)).
Proof.
  induction ms as [|m ms IH]; intros a; cbn [psums combine map concat sec_lines fst snd]; auto.
  rewrite IH. cbn [app map concat]. rewrite map_app, concat_app. unfold obj_mesh_faces, flines.
  rewrite concat_lines. unfold print_line at 3 4, oline. cbn [app]. rewrite <- !app_assoc. reflexivity.
Qed.
Lemma obj_write_lines ms : ms <> [] -> (sum_points ms < two64)%N ->
  obj_write ms = Ok (concat (map print_line (map vline (all_points ms) ++ sec_lines [[]] 0 ms))).
Proof.
  intros H1 H2. unfold obj_write. rewrite obj_shifts_spec by auto. cbn [bind].
  rewrite obj_points_lines, obj_secs_lines, map_app, concat_app. reflexivity.
Qed.

(** no newline in these lines *)
Lemma face_line_no_nl s f : ~ In ch_nl (obj_face_line s f).
Proof.
  unfold obj_face_line. intros [H|[H|H]]; try discriminate. apply in_concat in H as (x & Hx & H).
  apply in_map_iff in Hx as (i & <- & _). apply in_app_or in H as [H|[H|[]]]; [|discriminate].
  revert H. apply visible_no_nl, print_N_visible.
Qed.
Lemma vline_no_nl p : pt_real p -> ~ In ch_nl (vline p).
Proof. intros H [E|[E|E]]; try discriminate. revert E. apply print_point_no_nl; auto. Qed.
Lemma sec_lines_no_nl ms : forall a, writable ms -> Forall (fun l => ~ In ch_nl l) (sec_lines [[]] a ms).
Proof.
  induction ms as [|m ms IH]; intros a H; cbn [sec_lines app]; [constructor|]. constructor; [intros []|]. constructor.
  - intros [E|[E|E]]; try discriminate. apply (H m); auto. left; auto.
  - apply Forall_app. split; [|apply IH; intros x Hx; apply H; right; auto].
    apply Forall_map, Forall_forall. intros f _. apply face_line_no_nl.
Qed.
Lemma all_points_real ms : writable ms -> forall p, In p (all_points ms) -> pt_real p.
Proof.
  intros H p Hp. apply in_concat in Hp as (P & HP & Hp). apply in_map_iff in HP as (m & <- & Hm). apply (H m); auto.
Qed.
Lemma obj_write_readlines ms t : writable ms -> (sum_points ms < two64)%N -> obj_write ms = Ok t ->
  ms <> [] /\ readlines t = map vline (all_points ms) ++ sec_lines [[]] 0 ms.
Proof.
  intros Hw Hs E. destruct ms as [|m ms]; [discriminate|]. split; [congruence|]. rewrite obj_write_lines in E by (auto; congruence).
  apply Ok_inj in E. subst t. rewrite <- (app_nil_r (concat _)), readlines_lines; [rewrite app_nil_r; auto|].
  apply Forall_app. split; [|apply sec_lines_no_nl; auto].
  apply Forall_map, Forall_forall. intros p Hp. apply vline_no_nl, (all_points_real _ Hw); auto.
Qed.

(** ** C30 *)
Lemma sec_lines_app b ms1 ms2 : forall a, sec_lines b a (ms1 ++ ms2) = sec_lines b a ms1 ++ sec_lines b (a + sum_points ms1) ms2.
Proof.
  induction ms1 as [|m ms1 IH]; intros a; cbn [app sec_lines sum_points fold_right].
  - rewrite N.add_0_r. reflexivity.
  - rewrite IH. fold (sum_points ms1). rewrite <- !app_assoc. cbn [app]. rewrite <- app_assoc, N.add_assoc. reflexivity.
Qed.
Lemma sum_points_app ms1 ms2 : sum_points (ms1 ++ ms2) = (sum_points ms1 + sum_points ms2)%N.
Proof. induction ms1 as [|m ms1 IH]; cbn [app sum_points fold_right]; auto. fold (sum_points (ms1 ++ ms2)) (sum_points ms1). rewrite IH. lia. Qed.
Lemma all_points_app ms1 ms2 : all_points (ms1 ++ ms2) = all_points ms1 ++ all_points ms2.
Proof. unfold all_points. rewrite map_app, concat_app. reflexivity. Qed.
Lemma nsize_all_points ms : nsize (all_points ms) = sum_points ms.
Proof. induction ms as [|m ms IH]; auto. cbn [sum_points fold_right]. fold (sum_points ms). rewrite <- IH. unfold all_points. cbn [map concat]. apply nsize_app. Qed.
Lemma face_toks {A} (scan : str -> option (A * str)) (g : N -> A) s f :
  (forall i, In i f -> tok scan (print_N (wrap64 (i + s + 1))) (g i)) ->
  toks scan (concat (map (fun i => print_N (wrap64 (i + s + 1)) ++ [ch_sp]) f)) (map g f).
Proof.
  induction f as [|i f IH]; intros H; cbn [map concat]; [apply toks_end|]. rewrite <- app_assoc. cbn [app].
  apply tok_app_cons; [apply H; left; auto|reflexivity|]. apply toks_sp. apply IH. intros j Hj. apply H. right; auto.
Qed.
Lemma face_line_sizes s f : (forall i, In i f -> (i + s + 1 < two64)%N) ->
  scan_sizes (tl (obj_face_line s f)) = map (fun i => (s + i + 1)%N) f.
Proof.
  intros H. unfold obj_face_line. cbn [tl]. apply scan_sizes_toks. apply toks_sp. apply (face_toks scan_size (fun i => (s + i + 1)%N)).
  intros i Hi. specialize (H i Hi). unfold wrap64. rewrite N.mod_small by auto. replace (s + i + 1)%N with (i + s + 1)%N by lia. apply tok_size; auto.
Qed.
Lemma point_at pre m post i p : nth_error (m_points m) i = Some p ->
  nth_error (all_points (pre ++ m :: post)) (N.to_nat (sum_points pre) + i) = Some p.
Proof.
  intros H. rewrite all_points_app, nth_error_app2 by (rewrite <- nsize_all_points; unfold nsize; lia).
  rewrite <- nsize_all_points. unfold nsize at 1. rewrite Nat2N.id.
  replace (length (all_points pre) + i - length (all_points pre))%nat with i by lia.
  unfold all_points. cbn [map concat]. rewrite nth_error_app1; auto. apply nth_error_Some. congruence.
Qed.
Lemma C30_proof pre m post t : writable (pre ++ m :: post) -> mesh_wf m -> (sum_points (pre ++ m :: post) < two64)%N ->
  obj_write (pre ++ m :: post) = Ok t ->
  exists vs A fs B, readlines t = vs ++ A ++ (["o"; " "]%char ++ m_name m) :: fs ++ B /\
    Forall2 (fun l f => scan_sizes (tl l) = map (fun i => (sum_points pre + i + 1)%N) f) fs (m_faces m) /\
    nsize vs = sum_points (pre ++ m :: post) /\
    (forall f i, In f (m_faces m) -> In i f -> exists p, nth_error (m_points m) (N.to_nat i) = Some p /\
       (sum_points pre < sum_points pre + i + 1 <= sum_points pre + nsize (m_points m))%N /\
       nth_error vs (N.to_nat (sum_points pre + i + 1) - 1) = Some (["v"; " "]%char ++ print_point p)).
Proof.
  intros Hw Hwf Hs E. destruct (obj_write_readlines _ _ Hw Hs E) as [_ R].
  exists (map vline (all_points (pre ++ m :: post))), (sec_lines [[]] 0 pre ++ [[]]), (flines (sum_points pre) m), (sec_lines [[]] (sum_points pre + nsize (m_points m)) post).
  rewrite R, sec_lines_app. cbn [sec_lines app]. rewrite N.add_0_l, <- app_assoc. split; [reflexivity|].
  rewrite sum_points_app in Hs. cbn [sum_points fold_right] in Hs. fold (sum_points post) in Hs.
  split; [|split].
  - unfold flines. clear - Hwf Hs. unfold mesh_wf in Hwf. induction (m_faces m) as [|f F IH]; cbn [map]; constructor.
    + apply face_line_sizes. intros i Hi. destruct (Hwf f (or_introl eq_refl)) as [_ H]. specialize (H i Hi). lia.
    + apply IH. intros; apply Hwf; right; auto.
  - rewrite nsize_map, nsize_all_points. auto.
  - intros f i Hf Hi. destruct (Hwf f Hf) as [_ H]. specialize (H i Hi). destruct (nth_error (m_points m) (N.to_nat i)) as [p|] eqn:Ep.
    2:{ apply nth_error_None in Ep. unfold nsize in H. lia. }
    exists p. split; auto. split; [lia|]. replace (N.to_nat (sum_points pre + i + 1) - 1)%nat with (N.to_nat (sum_points pre) + N.to_nat i)%nat by lia.
    apply (map_nth_error vline). apply point_at. auto.
Qed.

(** ** C26 *)
Lemma filter_sec_lines ms : forall a, filter obj_keep (sec_lines [[]] a ms) = sec_lines [] a ms.
Proof.
  induction ms as [|m ms IH]; intros a; cbn [sec_lines app filter obj_keep]; auto.
  change (obj_keep (oline m)) with true. cbn match. f_equal. rewrite filter_app, IH. f_equal.
  unfold flines. induction (m_faces m) as [|f F IHF]; cbn [map filter]; auto. change (obj_keep (obj_face_line a f)) with true. cbn match. f_equal. auto.
Qed.
Lemma filter_vlines P : filter obj_keep (map vline P) = map vline P.
Proof. induction P as [|p P IH]; cbn [map filter]; auto. change (obj_keep (vline p)) with true. cbn match. f_equal. auto. Qed.
Lemma written_file ms t : writable ms -> (sum_points ms < two64)%N -> obj_write ms = Ok t ->
  obj_file t (map vline (all_points ms)) (sec_lines [] 0 ms).
Proof.
  intros Hw Hs E. destruct (obj_write_readlines _ _ Hw Hs E) as [Hne R]. split; [|split].
  - change (obj_lines t) with (filter obj_keep (readlines t)). rewrite R, filter_app, filter_sec_lines, filter_vlines. reflexivity.
  - intros l Hl. apply in_map_iff in Hl as (p & <- & _). reflexivity.
  - destruct ms as [|m ms]; [congruence|]. right. do 2 eexists. split; reflexivity.
Qed.
Fixpoint tagged (a : N) (ms : list mesh) : list (str * list str) :=
  match ms with [] => [] | m :: ms => (m_name m, flines a m) :: tagged (a + nsize (m_points m)) ms end.
Lemma flines_not_o s m : forall l, In l (flines s m) -> starts_with ch_letter_o l = false.
Proof. intros l Hl. apply in_map_iff in Hl as (f & <- & _). reflexivity. Qed.
Lemma obj_name_oline m : no_space (m_name m) -> obj_name (oline m) = m_name m.
Proof.
  intros H. apply line_word_name; [discriminate|]. exists ch_o, [ch_sp], []. rewrite app_nil_r. split; auto. split; [|auto].
  intros x [<-|[]]. reflexivity.
Qed.
Lemma obj_sections_app fs ls : (forall l, In l fs -> starts_with ch_letter_o l = false) -> obj_sections (fs ++ ls) = obj_sections ls.
Proof.
  intros H. induction fs as [|l fs IH]; cbn [app obj_sections]; auto. change (front_is ch_o l) with (starts_with ch_letter_o l).
  rewrite (H l) by (left; auto). apply IH. intros; apply H; right; auto.
Qed.
Lemma sections_tagged ms : forall a, (forall m, In m ms -> no_space (m_name m)) -> obj_sections (sec_lines [] a ms) = tagged a ms.
Proof.
  induction ms as [|m ms IH]; intros a H; cbn [sec_lines app tagged obj_sections]; auto.
  change (front_is ch_o (oline m)) with true. cbn match. rewrite obj_name_oline by (apply H; left; auto).
  rewrite obj_sections_app by apply flines_not_o. rewrite IH by (intros; apply H; right; auto). f_equal. f_equal.
  apply until_o_app; [apply flines_not_o|]. destruct ms as [|m' ms]; [left; auto|right]. cbn [sec_lines app]. do 2 eexists. split; reflexivity.
Qed.
Lemma tagged_names ms : forall a, map fst (tagged a ms) = map m_name ms.
Proof. induction ms as [|m ms IH]; intros a; cbn [tagged map fst]; auto. f_equal. auto. Qed.
Lemma tagged_app ms1 ms2 : forall a, tagged a (ms1 ++ ms2) = tagged a ms1 ++ tagged (a + sum_points ms1) ms2.
Proof.
  induction ms1 as [|m ms1 IH]; intros a; cbn [app tagged sum_points fold_right].
  - rewrite N.add_0_r. reflexivity.
  - rewrite IH. fold (sum_points ms1). rewrite N.add_assoc. reflexivity.
Qed.
Lemma tagged_In ms : forall a k v, In (k, v) (tagged a ms) ->
  exists pre m post, ms = pre ++ m :: post /\ k = m_name m /\ v = flines (a + sum_points pre) m.
Proof.
  induction ms as [|m ms IH]; intros a k v H; [destruct H|]. destruct H as [E|H].
  - injection E as <- <-. exists [], m, ms. cbn. rewrite N.add_0_r. auto.
  - apply IH in H as (pre & m' & post & -> & -> & ->). exists (m :: pre), m', post. split; auto. split; auto.
    cbn [sum_points fold_right]. fold (sum_points pre). rewrite N.add_assoc. auto.
Qed.
Lemma objects_tagged ms k v : (forall m, In m ms -> no_space (m_name m)) -> NoDup (map m_name ms) ->
  (In (k, v) (obj_objects (sec_lines [] 0 ms)) <-> In (k, v) (tagged 0 ms)).
Proof.
  intros Hs Hd. unfold obj_objects. rewrite sections_tagged by auto.
  destruct (emplace_fold (tagged 0 ms) []) as [_ H]; [constructor|]. rewrite H. cbn [map In]. split.
  - intros [[]|(_ & pre & post & E & _)]. rewrite E. apply in_or_app. right; left; auto.
  - intros Hin. right. split; auto. apply in_split in Hin as (pre & post & E). exists pre, post. split; auto.
    rewrite <- (tagged_names ms 0), E, map_app in Hd. cbn [map fst] in Hd. apply NoDup_remove_2 in Hd. intros Hp. apply Hd. apply in_or_app; auto.
Qed.
Lemma face_line_index s f : (forall i, In i f -> (i + s + 1 < 2 ^ 53)%N) -> index_line (obj_face_line s f) (map (fun i => (i + s + 1)%N) f).
Proof.
  intros H. unfold index_line. assert (scan_doubles (tl (obj_face_line s f)) = map (fun i => dbl_of_N (i + s + 1)) f) as ->.
  { unfold obj_face_line. cbn [tl]. apply scan_doubles_toks. apply toks_sp. apply (face_toks scan_double (fun i => dbl_of_N (i + s + 1))).
    intros i Hi. specialize (H i Hi). change (2 ^ 53)%N with 9007199254740992%N in H. unfold wrap64, two64. rewrite N.mod_small by lia. apply tok_index. change (2 ^ 53)%N with 9007199254740992%N. auto. }
  induction f as [|i f IH]; cbn [map]; constructor.
  - apply dbl_of_N_spec. apply H. left; auto.
  - apply IH. intros; apply H; right; auto.
Qed.
Lemma vlines_vertices P : (forall p, In p P -> pt_real p) -> Forall2 vertex_line (map vline P) (map reread P).
Proof.
  induction P as [|p P IH]; intros H; cbn [map]; constructor.
  - unfold vertex_line, vline. cbn [tl]. apply scan_doubles_toks. apply toks_sp. apply print_point_toks. apply H; left; auto.
  - apply IH. intros; apply H; right; auto.
Qed.
Lemma no_space_no_nl s : no_space s -> ~ In newline s.
Proof. intros H Hin. specialize (H _ Hin). discriminate. Qed.
Lemma flines_good s m : mesh_wf m -> (s + nsize (m_points m) < 2 ^ 53)%N ->
  Forall2 good_index_line (flines s m) (map (map (fun i => (i + s + 1)%N)) (m_faces m)).
Proof.
  intros Hw Hs. unfold flines, mesh_wf in *. induction (m_faces m) as [|f F IH]; cbn [map]; constructor.
  - destruct (Hw f (or_introl eq_refl)) as [H3 Hi]. split; [|rewrite map_length; auto]. apply face_line_index.
    intros i Hin. specialize (Hi i Hin). lia.
  - apply IH. intros; apply Hw; right; auto.
Qed.
Lemma shifted_uses s n (F : list face) : (forall f, In f F -> forall i, In i f -> (i < n)%N) ->
  (nsize (first_uses (concat (map (map (fun i => (i + s + 1)%N)) F))) <= n)%N.
Proof.
  intros H. set (U := first_uses _). assert (NoDup U) as HN by (unfold U, first_uses; apply NoDup_rev, NoDup_nodup).
  assert (forall x, In x U -> exists i, (i < n)%N /\ x = (i + s + 1)%N) as HU.
  { intros x Hx. unfold U, first_uses in Hx. apply in_rev in Hx. apply nodup_In in Hx. apply in_rev in Hx. apply in_concat in Hx as (g & Hg & Hx). apply in_map_iff in Hg as (f & <- & Hf). apply in_map_iff in Hx as (i & <- & Hi). eauto. }
  rewrite <- (nsize_map (fun x => (x - (s + 1))%N) U). apply NoDup_bounded.
  - clear - HN HU. induction U as [|x U IH]; cbn [map]; constructor.
    + intros Hin. apply in_map_iff in Hin as (y & Hy & Hyin). inversion HN as [|? ? Hx _]; subst. destruct (HU x (or_introl eq_refl)) as (i & _ & ->). destruct (HU y (or_intror Hyin)) as (j & _ & ->). apply Hx. replace (i + s + 1)%N with (j + s + 1)%N by lia. exact Hyin.
    + inversion HN; subst. apply IH; auto. intros; apply HU; now right.
  - intros x Hx. apply in_map_iff in Hx as (y & <- & Hy). destruct (HU y Hy) as (i & Hi & ->). lia.
Qed.
Lemma C26_proof ms : obj_savable ms -> exists t rs, obj_write ms = Ok t /\ obj_read t = Ok rs /\
  increasing (map m_name rs) /\ length rs = length ms /\
  (forall m, In m ms -> exists r, In r rs /\ m_name r = m_name m /\ poly_reads_back (polygons m) (polygons r) /\ tight_box (m_points r) (m_bbox r) /\ mesh_wf r /\ (nsize (m_points r) <= nsize (m_points m))%N).
Proof.
  intros (Hne & Hm & Hd & Hsum).
  assert (sum_points ms < two64)%N as Hs64. { change (2 ^ 53)%N with 9007199254740992%N in Hsum. unfold two64. lia. }
  assert (writable ms) as Hw. { intros m Hin. destruct (Hm m Hin) as (_ & H1 & H2). split; auto. apply no_space_no_nl; auto. }
  pose proof (obj_write_lines ms Hne Hs64) as Ew. set (t := concat _) in Ew. exists t.
  pose proof (written_file ms t Hw Hs64 Ew) as Hf. set (P := map reread (all_points ms)).
  assert (forall m, In m ms -> no_space (m_name m)) as Hns by (intros m Hin; apply Hm; auto).
  assert (forall pre m post, ms = pre ++ m :: post ->
     exists r, obj_object (point_default :: P) (m_name m, flines (sum_points pre) m) = Ok r /\ m_name r = m_name m /\
               poly_reads_back (polygons m) (polygons r) /\ tight_box (m_points r) (m_bbox r) /\ mesh_wf r /\ (nsize (m_points r) <= nsize (m_points m))%N) as Hobj.
  { intros pre m post E. assert (In m ms) as Hin by (rewrite E; apply in_or_app; right; left; auto).
    destruct (Hm m Hin) as (Hwf & _ & Hreal).
    assert (sum_points pre + nsize (m_points m) <= sum_points ms)%N as Hle.
    { rewrite E, sum_points_app. cbn [sum_points fold_right]. lia. }
    pose proof (flines_good (sum_points pre) m Hwf ltac:(lia)) as G.
    assert (nsize (point_default :: P) = 1 + sum_points ms)%N as HP.
    { unfold P, nsize. cbn [length]. rewrite map_length. pose proof (nsize_all_points ms) as Hn. unfold nsize in Hn. lia. }
    destruct (object_result (point_default :: P) (m_name m) _ _ G) as (r & Er & H1 & HPr & H2 & (HWr & HB) & _).
    { intros x Hx. apply in_concat in Hx as (g & Hg & Hx). apply in_map_iff in Hg as (f & <- & Hf'). apply in_map_iff in Hx as (i & <- & Hi).
      destruct (Hwf f Hf') as [_ H]. specialize (H i Hi). rewrite HP. lia. }
    exists r. split; auto. split; auto. split; [|split; [auto|split; [auto|]]].
    2:{ rewrite HPr, nsize_map. apply shifted_uses. intros f Hf'. apply (Hwf f Hf'). }
    rewrite H2. unfold poly_reads_back, polygons. unfold mesh_wf in Hwf.
    clear - Hwf E Hreal. induction (m_faces m) as [|f F IH]; cbn [map]; constructor; [|apply IH; intros; apply Hwf; right; auto].
    destruct (Hwf f (or_introl eq_refl)) as [_ Hi]. clear - Hi E Hreal.
    induction f as [|i f IH]; cbn [map]; constructor; [|apply IH; intros; apply Hi; right; auto].
    specialize (Hi i (or_introl eq_refl)). destruct (nth_error (m_points m) (N.to_nat i)) as [p|] eqn:Ep.
    2:{ apply nth_error_None in Ep. unfold nsize in Hi. lia. }
    exists p, (reread p). split; auto. split.
    - replace (N.to_nat (i + sum_points pre + 1)) with (S (N.to_nat (sum_points pre) + N.to_nat i)) by lia. cbn [nth_error].
      unfold P. apply (map_nth_error reread). rewrite E. apply point_at. auto.
    - apply reread_rel. apply Hreal. eapply nth_error_In; eauto. }
  assert (exists rs, omapM (obj_object (point_default :: P)) (obj_objects (sec_lines [] 0 ms)) = Ok rs) as [rs Ers].
  { assert (forall os, (forall o, In o os -> exists r, obj_object (point_default :: P) o = Ok r) -> exists rs, omapM (obj_object (point_default :: P)) os = Ok rs) as Hex.
    { induction os as [|o os IH]; intros H; [exists []; auto|]. destruct (H o (or_introl eq_refl)) as [r Er].
      destruct IH as [rs Es]; [intros; apply H; right; auto|]. exists (r :: rs). cbn [omapM]. rewrite Er. cbn [bind]. rewrite Es. reflexivity. }
    apply Hex. intros [k v] Ho. apply objects_tagged in Ho; auto. apply tagged_In in Ho as (pre & m & post & E & -> & ->).
    rewrite N.add_0_l. destruct (Hobj _ _ _ E) as (r & Er & _). eauto. }
  exists rs. split; auto. split.
  { rewrite (obj_read_file _ _ _ Hf). destruct (obj_lines t) as [|l0 ls] eqn:El.
    - exfalso. destruct Hf as (Hf & _). rewrite El in Hf. destruct ms as [|m ms']; [congruence|]. cbn [sec_lines app] in Hf.
      destruct (map vline (all_points (m :: ms'))); discriminate.
    - assert (omapM (fun l => line2pt (tl l)) (map vline (all_points ms)) = Ok P) as ->; [|exact Ers].
      apply vertex_lines, vlines_vertices, all_points_real. auto. }
  pose proof (obj_objects_names _ _ _ Ers) as Hnames. split; [rewrite Hnames; apply objects_spec|]. split.
  - assert (Permutation (map m_name rs) (map m_name ms)) as HPm.
    { rewrite Hnames. apply NoDup_Permutation; auto.
      - apply increasing_NoDup, objects_spec.
      - intros x. rewrite <- (tagged_names ms 0). split; intros H; apply in_map_iff in H as ([k v] & <- & H); apply objects_tagged in H; auto; apply in_map; auto. }
    apply Permutation_length in HPm. rewrite !map_length in HPm. auto.
  - intros m Hin. apply in_split in Hin as (pre & post & E). destruct (Hobj _ _ _ E) as (r & Er & H1 & H2).
    apply omapM_Ok in Ers. assert (In (m_name m, flines (sum_points pre) m) (obj_objects (sec_lines [] 0 ms))) as Ho.
    { apply objects_tagged; auto. rewrite E, tagged_app. apply in_or_app. right. cbn [tagged]. left. rewrite N.add_0_l. auto. }
    clear - Ers Ho Er H1 H2. induction Ers as [|o r' os rs H HF IH]; [destruct Ho|]. destruct Ho as [->|Ho].
    + exists r'. rewrite Er in H. apply Ok_inj in H. subst. split; [left; auto|auto].
    + destruct (IH Ho) as (x & Hx & Hr). exists x. split; [right; auto|auto].
Qed.
