(** * Proofs about the text of doubles, lines and OFF files (C18-C25). *)
From Verif Require Import Base Dbl Decimal Round_proofs Rn_proofs Scan_proofs Shadow Spec_shadow Shadow_proofs Streams Lines_proofs Spec_text.
From Coq Require Import QArith Qabs Qpower Lqa.
Close Scope Q_scope.

(** ** C18 *)
Lemma reads_back_via x y : real_double x -> (reads_back x y <-> y = via_text x).
Proof.
  intros [Hv Hf]. unfold reads_back. rewrite <- (app_nil_r (print_dbl x)), scan_print by (auto; exact I).
  split; intros H; [injection H; auto|subst; reflexivity].
Qed.
Lemma via_text_real x : real_double x -> real_double (via_text x).
Proof.
  intros [Hv Hf]. destruct x as [s|s| |s m e]; try discriminate.
  - split; auto.
  - destruct (via_text_finite s m e Hv). split; auto.
Qed.
Lemma sign_opp (q : Q) : (Qabs ((-1) * q) == Qabs q)%Q.
Proof. setoid_replace ((-1) * q)%Q with (- q)%Q by ring. apply Qabs_opp. Qed.
Lemma dval_abs x : (Qabs (dval x) == qabsv x)%Q.
Proof.
  destruct x as [s|s| |s m e]; try reflexivity. cbn [dval qabsv]. unfold qz, pw.
  assert (0 <= inject_Z (Zpos m) * (2#1) ^ e)%Q as H.
  { pose proof (pw_pos 2 e ltac:(lia)). pose proof (qz_pos (Zpos m) ltac:(lia)). unfold pw, qz in *. change (inject_Z 2) with (2#1)%Q in *. nra. }
  change (inject_Z 2) with (2#1)%Q. destruct s.
  - rewrite <- Qmult_assoc, sign_opp. apply Qabs_pos; auto.
  - rewrite <- Qmult_assoc, Qmult_1_l. apply Qabs_pos; auto.
Qed.
Lemma not_tiny_big x : not_tiny x -> dbig x.
Proof.
  intros H. destruct x as [s|s| |s m e]; cbn [dbig]; auto. destruct H as [H|H].
  - exfalso. pose proof (dval_abs (S754_finite s m e)) as E. rewrite H in E. cbn [qabsv] in E.
    pose proof (pw_pos 2 e ltac:(lia)). pose proof (qz_pos (Zpos m) ltac:(lia)).
    assert (0 < qz (Zpos m) * pw 2 e)%Q by (apply Qmult_lt_0_compat; auto). rewrite <- E in H2. discriminate.
  - rewrite <- dval_abs. exact H.
Qed.
Lemma C18_stable_proof x : real_double x -> exists y, reads_back x y /\ real_double y /\
  (not_tiny x -> print_dbl y = print_dbl x /\ reads_back y y).
Proof.
  intros H. exists (via_text x). split; [apply reads_back_via; auto|]. split; [apply via_text_real; auto|].
  intros Ht. apply not_tiny_big in Ht. destruct H as [Hv Hf]. split; [apply via_text_stable; auto|].
  apply reads_back_via; [apply via_text_real; split; auto|]. symmetry. apply via_text_idem; auto.
Qed.
Lemma C18_exact_proof x D k : real_double x -> (0 <= D < 1000000)%Z ->
  (Qabs (dval x) == inject_Z D * (10#1) ^ k)%Q -> reads_back x x.
Proof.
  intros H HD E. apply reads_back_via; auto. destruct H as [Hv Hf]. destruct x as [s|s| |s m e]; try discriminate; auto.
  symmetry. rewrite dval_abs in E. cbn [qabsv] in E.
  assert (D <> 0)%Z as HD0.
  { intros ->. pose proof (pw_pos 2 e ltac:(lia)). pose proof (qz_pos (Zpos m) ltac:(lia)).
    assert (0 < qz (Zpos m) * pw 2 e)%Q as H1 by (apply Qmult_lt_0_compat; auto). rewrite E in H1.
    change (inject_Z 0) with 0%Q in H1. rewrite Qmult_0_l in H1. discriminate. }
  apply via_text_exact with D k; auto. lia.
Qed.
Lemma C18_error_proof x y : real_double x -> not_tiny x -> reads_back x y ->
  (Qabs (dval x - dval y) <= (6#1000000) * Qabs (dval x))%Q.
Proof.
  intros H Ht Hr. apply reads_back_via in Hr; auto. subst y. destruct H as [Hv Hf].
  destruct x as [s|s| |s m e]; try discriminate.
  - apply not_tiny_big in Ht. destruct (via_text_err s m e Hv Ht) as [He (m' & e' & Ey)]. rewrite dval_abs.
    eapply Qle_trans; [|exact He]. rewrite Ey. cbn [dval qabsv]. unfold qz, pw. change (inject_Z 2) with (2#1)%Q.
    destruct s.
    + setoid_replace ((-1) * inject_Z (Zpos m) * (2#1) ^ e - (-1) * inject_Z (Zpos m') * (2#1) ^ e')%Q
        with ((-1) * (inject_Z (Zpos m) * (2#1) ^ e - inject_Z (Zpos m') * (2#1) ^ e'))%Q by ring.
      rewrite sign_opp. apply Qle_refl.
    + rewrite !Qmult_1_l. apply Qle_refl.
Qed.
Definition tiny_witness : dbl := S754_finite false 202403 (-1074).
Lemma C18_tiny_refuted_proof : exists x y, real_double x /\ reads_back x y /\ print_dbl y <> print_dbl x.
Proof.
  exists tiny_witness, (S754_finite false 202402 (-1074)). split; [split; vm_compute; reflexivity|].
  split; [vm_compute; reflexivity|]. vm_compute. discriminate.
Qed.
Lemma C18_lossy_refuted_proof : exists x y, real_double x /\ not_tiny x /\ reads_back x y /\ ~ (dval x == dval y)%Q.
Proof.
  exists (dofZ 1234567), (dofZ 1234570). split; [split; vm_compute; reflexivity|].
  split; [right; vm_compute; discriminate|]. split; [vm_compute; reflexivity|]. vm_compute. discriminate.
Qed.

(** ** C20 *)
Lemma C20_lines_proof ls last : (forall l, In l (last :: ls) -> ~ In newline l) ->
  readlines (concat (map print_line ls) ++ last) = ls ++ (match last with [] => [] | _ => [last] end).
Proof.
  intros H. rewrite readlines_lines.
  - f_equal. destruct last as [|c l] eqn:E; auto. apply readlines_last; [|discriminate]. apply H. left; auto.
  - apply Forall_forall. intros l Hl. apply H. right; auto.
Qed.
Lemma readlines_acc_inv s : forall cur, ~ In ch_nl cur ->
  concat (map print_line (readlines_acc cur s)) = rev cur ++ s \/
  concat (map print_line (readlines_acc cur s)) = rev cur ++ s ++ [ch_nl].
Proof.
  induction s as [|c s IH]; intros cur H; cbn [readlines_acc].
  - destruct cur; [left; reflexivity|]. right. cbn [map concat]. unfold print_line. rewrite app_nil_r. reflexivity.
  - destruct (Ascii.eqb_spec c ch_nl) as [->|Hc].
    + cbn [map concat]. unfold print_line at 1 3. destruct (IH [] ltac:(auto)) as [E|E]; rewrite E; [left|right]; cbn [rev app];
        rewrite <- !app_assoc; reflexivity.
    + destruct (IH (c :: cur)) as [E|E]; [intros [X|X]; auto| |]; rewrite E; [left|right]; cbn [rev]; rewrite <- app_assoc; reflexivity.
Qed.
Lemma C20_inverse_proof txt :
  (forall l, In l (readlines txt) -> ~ In newline l) /\
  (concat (map print_line (readlines txt)) = txt \/ concat (map print_line (readlines txt)) = txt ++ [newline]).
Proof.
  split.
  - intros l Hl. pose proof (@readlines_acc_no_nl txt [] (fun x => x)) as H. rewrite Forall_forall in H. apply H; auto.
  - apply (@readlines_acc_inv txt []). auto.
Qed.

(** ** lines of an OFF file *)
Definition reread (p : point) : point := mkPoint (via_text (px p)) (via_text (py p)) (via_text (pz p)).
Lemma tok_app_cons {A} (scan : str -> option (A * str)) t a rest l :
  tok scan t a -> sp_end rest -> toks scan rest l -> toks scan (t ++ rest) (a :: l).
Proof. intros. apply (@toks_cons A scan [] t a rest l); auto. constructor. Qed.
Lemma toks_sp {A} (scan : str -> option (A * str)) s l : toks scan s l -> toks scan (ch_sp :: s) l.
Proof.
  intros H. destruct H as [ws H|ws t a rest l H1 H2 H3 H4].
  - constructor. constructor; auto.
  - apply (@toks_cons A scan (ch_sp :: ws)); auto. constructor; auto.
Qed.
Lemma toks_end {A} (scan : str -> option (A * str)) : toks scan [] [].
Proof. constructor. constructor. Qed.
Lemma print_point_toks p : pt_real p ->
  toks scan_double (print_point p) [via_text (px p); via_text (py p); via_text (pz p)].
Proof.
  intros ([H1 H1'] & [H2 H2'] & [H3 H3']). unfold print_point.
  apply tok_app_cons; [apply tok_double; auto|reflexivity|]. apply toks_sp.
  apply tok_app_cons; [apply tok_double; auto|reflexivity|]. apply toks_sp.
  rewrite <- (app_nil_r (print_dbl (pz p))). apply tok_app_cons; [apply tok_double; auto|exact I|apply toks_end].
Qed.
Lemma off_point_print p : pt_real p -> off_point (print_point p) = Ok (reread p).
Proof. intros H. unfold off_point. rewrite (scan_doubles_toks _ _ (print_point_toks p H)). reflexivity. Qed.
Lemma print_indices_toks l : (forall i, In i l -> (i < two64)%N) -> toks scan_size (print_indices l) l.
Proof.
  induction l as [|i l IH]; intros H; [apply toks_end|].
  cbn [print_indices]. destruct l as [|j l].
  - rewrite <- (app_nil_r (print_N i)). apply tok_app_cons; [apply tok_size; apply H; left; auto|exact I|apply toks_end].
  - apply tok_app_cons; [apply tok_size; apply H; left; auto|reflexivity|]. apply toks_sp. apply IH. intros k Hk. apply H. right; auto.
Qed.
Lemma scan_size_n_tok t n rest : tok scan_size t n -> sp_end rest -> scan_size_n (t ++ rest) = (n, Some rest).
Proof.
  intros [(c & t' & -> & Hc) Ht] Hr. unfold scan_size_n. rewrite skip_ws_tok by auto. cbn [app].
  change (c :: t' ++ rest) with ((c :: t') ++ rest). rewrite Ht by auto. reflexivity.
Qed.
Lemma off_face_print f : (3 <= length f)%nat -> (nsize f <= 1152921504606846975)%N -> (forall i, In i f -> (i < two64)%N) ->
  off_face (print_face f) = Ok f.
Proof.
  intros H3 Hn Hi. unfold off_face, print_face.
  rewrite (@scan_size_n_tok (print_N (nsize f)) (nsize f)); [|apply tok_size; unfold two64; lia|reflexivity].
  replace (max_indexes <? nsize f)%N with false by (unfold max_indexes; lia).
  rewrite (@scan_sizes_toks (ch_sp :: print_indices f) f) by (apply toks_sp, print_indices_toks; auto).
  unfold copy_into. rewrite N.ltb_irrefl. unfold nsize. rewrite Nat2N.id, Nat.sub_diag. cbn [repeat bind].
  rewrite app_nil_r. unfold face_make. destruct (Nat.ltb_spec (length f) 3); [lia|reflexivity].
Qed.

Lemma print_point_head p : pt_real p -> exists c r, print_point p = c :: r /\ visible c.
Proof.
  intros ([_ H] & _). destruct (print_dbl_head (px p) H) as (c & r & E & Hc). unfold print_point. rewrite E.
  exists c. eexists. split; [reflexivity|]. destruct Hc as [Hc|Hc]; [apply isdig_visible; auto|subst; apply visible_minus].
Qed.
Lemma print_point_no_nl p : pt_real p -> ~ In ch_nl (print_point p).
Proof.
  intros ([_ H1] & [_ H2] & [_ H3]). unfold print_point. intros H.
  apply in_app_or in H as [H|H]; [revert H; apply visible_no_nl, print_dbl_visible; auto|].
  destruct H as [H|H]; [discriminate|].
  apply in_app_or in H as [H|H]; [revert H; apply visible_no_nl, print_dbl_visible; auto|].
  destruct H as [H|H]; [discriminate|]. revert H. apply visible_no_nl, print_dbl_visible; auto.
Qed.
Lemma print_indices_no_nl l : ~ In ch_nl (print_indices l).
Proof.
  induction l as [|i l IH]; [auto|]. cbn [print_indices]. destruct l as [|j l].
  - apply visible_no_nl, print_N_visible.
  - intros H. apply in_app_or in H as [H|H]; [revert H; apply visible_no_nl, print_N_visible|].
    destruct H as [H|H]; [discriminate|]. auto.
Qed.
Lemma print_face_no_nl f : ~ In ch_nl (print_face f).
Proof.
  unfold print_face. intros H. apply in_app_or in H as [H|H]; [revert H; apply visible_no_nl, print_N_visible|].
  destruct H as [H|H]; [discriminate|]. revert H. apply print_indices_no_nl.
Qed.
Lemma print_face_head f : exists c r, print_face f = c :: r /\ visible c.
Proof.
  unfold print_face, print_N. destruct (print_nat_head (Z.of_N (nsize f)) ltac:(lia)) as (c & r & E & Hc). rewrite E.
  exists c. eexists. split; [reflexivity|]. apply isdig_visible; auto.
Qed.

Definition counts_line (m : mesh) : str :=
  print_N (nsize (m_points m)) ++ [ch_sp] ++ print_N (nsize (m_faces m)) ++ [ch_sp; ch_0].
Definition off_lines (m : mesh) : list str :=
  s_off :: counts_line m :: map print_point (m_points m) ++ map print_face (m_faces m).
Lemma concat_lines {A} (g : A -> str) l : concat (map (fun a => g a ++ [ch_nl]) l) = concat (map print_line (map g l)).
Proof. rewrite map_map. reflexivity. Qed.
Lemma off_write_lines m : off_write m = concat (map print_line ((s_mesh ++ m_name m) :: off_lines m)).
Proof.
  unfold off_write, off_header, off_lines. rewrite !concat_lines. cbn [map concat].
  rewrite map_app, concat_app. unfold print_line at 3 4 5, counts_line. rewrite <- !app_assoc. reflexivity.
Qed.
Lemma counts_line_head m : exists c r, counts_line m = c :: r /\ visible c.
Proof.
  unfold counts_line, print_N. destruct (print_nat_head (Z.of_N (nsize (m_points m))) ltac:(lia)) as (c & r & E & Hc). rewrite E.
  exists c. eexists. split; [reflexivity|]. apply isdig_visible; auto.
Qed.
Lemma counts_line_no_nl m : ~ In ch_nl (counts_line m).
Proof.
  unfold counts_line. intros H. rewrite !in_app_iff in H. destruct H as [H|[H|[H|H]]].
  - revert H. apply visible_no_nl, print_N_visible.
  - destruct H as [H|[]]; discriminate.
  - revert H. apply visible_no_nl, print_N_visible.
  - destruct H as [H|[H|[]]]; discriminate.
Qed.
Lemma counts_line_toks m : (nsize (m_points m) < two64)%N -> (nsize (m_faces m) < two64)%N ->
  scan_sizes (counts_line m) = [nsize (m_points m); nsize (m_faces m); 0]%N.
Proof.
  intros H1 H2. apply scan_sizes_toks. unfold counts_line.
  apply tok_app_cons; [apply tok_size; auto|reflexivity|]. apply toks_sp.
  apply tok_app_cons; [apply tok_size; auto|reflexivity|]. apply toks_sp.
  change [ch_0] with (print_N 0 ++ []). apply tok_app_cons; [apply tok_size; reflexivity|exact I|apply toks_end].
Qed.

Definition head_visible (l : str) : Prop := exists c r, l = c :: r /\ visible c.
Lemma off_filter_visible ls : Forall head_visible ls -> off_filter ls = Ok ls.
Proof.
  induction ls as [|l ls IH]; intros H; cbn [off_filter]; auto. inversion H as [|? ? (c & r & -> & Hc) Hls]; subst.
  cbn [off_keep bind]. rewrite IH by auto. cbn [bind]. destruct Hc as [_ Hc].
  destruct (Ascii.eqb_spec c ch_hash); [contradiction|]. reflexivity.
Qed.
Lemma off_lines_visible m : (forall p, In p (m_points m) -> pt_real p) -> Forall head_visible (off_lines m).
Proof.
  intros H. unfold off_lines. constructor. { exists "O"%char. eexists. split; [reflexivity|]. split; cbn; [lia|discriminate]. }
  constructor; [apply counts_line_head|]. apply Forall_app. split; apply Forall_map, Forall_forall; intros a Ha.
  - apply print_point_head; auto.
  - apply print_face_head.
Qed.
Lemma off_lines_no_nl m : (forall p, In p (m_points m) -> pt_real p) -> Forall (fun l => ~ In ch_nl l) (off_lines m).
Proof.
  intros H. unfold off_lines. constructor. { intros [E|[E|[E|[]]]]; discriminate. }
  constructor; [apply counts_line_no_nl|]. apply Forall_app. split; apply Forall_map, Forall_forall; intros a Ha.
  - apply print_point_no_nl; auto.
  - apply print_face_no_nl.
Qed.
Lemma off_parse_write m : (forall p, In p (m_points m) -> pt_real p) -> ~ In ch_nl (m_name m) ->
  off_parse (off_write m) = Ok (off_lines m).
Proof.
  intros H Hn. unfold off_parse. rewrite off_write_lines. rewrite <- (app_nil_r (concat _)).
  rewrite readlines_lines.
  - rewrite app_nil_r. cbn [off_filter off_keep s_mesh app]. rewrite Ascii.eqb_refl. cbn [bind].
    rewrite off_filter_visible by (apply off_lines_visible; auto). reflexivity.
  - constructor; [|apply off_lines_no_nl; auto]. intros Hin. apply in_app_or in Hin as [Hin|Hin]; auto.
    cbn in Hin. repeat (destruct Hin as [E|Hin]; [discriminate|]). destruct Hin.
Qed.

Lemma omapM_Forall2 {A B} (f : A -> outcome B) g l : (forall a, In a l -> f a = Ok (g a)) -> omapM f l = Ok (map g l).
Proof. intros H. rewrite <- omapM_pure. apply omapM_ext. auto. Qed.
Lemma firstn_app_len {A} (a b : list A) n : n = length a -> firstn n (a ++ b) = a.
Proof. intros ->. rewrite firstn_app, firstn_all, Nat.sub_diag. cbn. apply app_nil_r. Qed.
Lemma skipn_app_len {A} (a b : list A) n : n = length a -> skipn n (a ++ b) = b.
Proof. intros ->. rewrite skipn_app, skipn_all, Nat.sub_diag. reflexivity. Qed.

(** reading back a written mesh *)
Lemma off_roundtrip m : (forall p, In p (m_points m) -> pt_real p) -> faces_ok m -> ~ In ch_nl (m_name m) ->
  (nsize (m_points m) < two64)%N -> (nsize (m_faces m) < two64)%N ->
  off_read (off_write m) = Ok (mesh_make [] (map reread (m_points m)) (m_faces m)).
Proof.
  intros HP HF Hn Hp Hf. unfold off_read. rewrite off_parse_write by auto. cbn [bind].
  unfold off_lines. cbn [str_eqb list_eqb]. rewrite str_eqb_refl. cbn [negb].
  fold (off_lines m). set (L := off_lines m).
  assert (length L = 2 + length (m_points m) + length (m_faces m))%nat as HL.
  { unfold L, off_lines. cbn [length]. rewrite app_length, !map_length. lia. }
  destruct (Nat.leb_spec (length L) 1); [lia|].
  assert (off_counts L = Ok (nsize (m_points m), nsize (m_faces m))) as ->.
  { unfold off_counts. change (vidx L 1) with (@Ok str (counts_line m)). cbn [bind]. rewrite counts_line_toks by auto.
    cbn [copy_into nsize length N.of_nat Pos.of_succ_nat Pos.succ N.ltb N.compare Pos.compare Pos.compare_cont app bind vidx nth_error N.eqb negb N.to_nat repeat].
    change (3 <? 3)%N with false. cbn [app bind vidx nth_error N.to_nat Nat.sub repeat Pos.to_nat Pos.iter_op Nat.add N.eqb negb].
    unfold nsize in *. rewrite HL. replace (_ =? _)%N with true by lia. reflexivity. }
  cbn [bind].
  assert (skipn 2 L = map print_point (m_points m) ++ map print_face (m_faces m)) as E2 by reflexivity.
  rewrite E2, firstn_app_len by (rewrite map_length; unfold nsize; lia).
  rewrite omapM_map, (@omapM_Forall2 _ _ _ reread) by (intros; apply off_point_print; auto). cbn [bind].
  assert (skipn (2 + N.to_nat (nsize (m_points m))) L = map print_face (m_faces m)) as ->.
  { change (skipn (2 + ?k) L) with (skipn k (skipn 2 L)). rewrite E2. apply skipn_app_len. rewrite map_length. unfold nsize; lia. }
  rewrite firstn_all2 by (rewrite map_length; unfold nsize; lia).
  rewrite omapM_map, (@omapM_Forall2 _ _ _ (fun f => f)).
  - rewrite map_id. reflexivity.
  - intros f Hin. destruct (HF f Hin) as (A1 & A2 & A3). apply off_face_print; auto.
Qed.


Lemma reread_rel p : pt_real p -> pt_reads_back p (reread p).
Proof. intros (H1 & H2 & H3). repeat split; apply reads_back_via; auto. Qed.
Lemma Forall2_map_r {A B} (R : A -> B -> Prop) (g : A -> B) l : (forall a, In a l -> R a (g a)) -> Forall2 R l (map g l).
Proof.
  induction l as [|a l IH]; intros H; cbn; constructor; auto.
  - apply H; left; auto.
  - apply IH. intros; apply H; right; auto.
Qed.
Lemma tight_compute P : tight_box P (compute_bbox P).
Proof. apply compute_bbox_tight. Qed.
Lemma C21_proof m : off_savable m -> exists m', off_read (off_write m) = Ok m' /\
  m_faces m' = m_faces m /\ Forall2 pt_reads_back (m_points m) (m_points m') /\ tight_box (m_points m') (m_bbox m') /\ m_name m' = [].
Proof.
  intros (H1 & H2 & H3 & H4 & H5). eexists. split; [apply off_roundtrip; auto|]. cbn [m_faces m_points m_bbox m_name mesh_make].
  split; auto. split; [|split; [apply tight_compute|reflexivity]]. apply Forall2_map_r. intros p Hp. apply reread_rel; auto.
Qed.

(** ** C22 *)
Lemma print_point_reread p : pt_real p -> pt_not_tiny p -> print_point (reread p) = print_point p.
Proof.
  intros ([A1 A2] & [B1 B2] & [C1 C2]) (T1 & T2 & T3). unfold print_point, reread; cbn [px py pz].
  rewrite !via_text_stable by auto using not_tiny_big. reflexivity.
Qed.
Lemma C22_proof m m' n : off_savable m -> (forall p, In p (m_points m) -> pt_not_tiny p) ->
  off_read (off_write m) = Ok m' ->
  exists body, off_write m = s_mesh ++ m_name m ++ newline :: body /\
               off_write (fst (mesh_set_name m' n)) = s_mesh ++ n ++ newline :: body.
Proof.
  intros (H1 & H2 & H3 & H4 & H5) Ht E. rewrite off_roundtrip in E by auto. apply Ok_inj in E. subst m'.
  set (m' := fst (mesh_set_name _ n)).
  assert (off_lines m' = off_lines m) as EL.
  { unfold m', off_lines, counts_line. cbn [mesh_set_name fst m_points m_faces mesh_make]. rewrite nsize_map, map_map.
    rewrite (map_ext_in (fun x => print_point (reread x)) print_point); [reflexivity|].
    intros p Hp. apply print_point_reread; auto. }
  exists (concat (map print_line (off_lines m))). rewrite !off_write_lines, EL. cbn [map concat].
  change (m_name m') with n. change newline with ch_nl.
  assert (forall a c : str, print_line (s_mesh ++ a) ++ c = s_mesh ++ a ++ ch_nl :: c) as R.
  { intros a c. unfold print_line. rewrite <- !app_assoc. reflexivity. }
  split; apply R.
Qed.

(** ** C23-C25: what the reader accepts *)
Lemma off_filter_spec ls :
  off_filter ls = if existsb (fun l => match l with [] => true | _ => false end) ls then Throw OutOfRange else Ok (significant ls).
Proof.
  induction ls as [|l ls IH]; auto. cbn [off_filter existsb]. destruct l as [|c l]; cbn [off_keep bind orb]; auto.
  rewrite IH. match goal with |- context [existsb ?f ls] => destruct (existsb f ls) end; auto.
Qed.
Lemma exists_empty ls : existsb (fun l : str => match l with [] => true | _ => false end) ls = true <-> In [] ls.
Proof.
  rewrite existsb_exists. split.
  - intros ([|c l] & H1 & H2); auto; discriminate.
  - intros H. exists []. auto.
Qed.
Lemma off_parse_cases txt :
  (In [] (readlines txt) /\ off_parse txt = Throw OutOfRange) \/
  (~ In [] (readlines txt) /\ off_parse txt = Ok (significant (readlines txt))).
Proof.
  unfold off_parse. rewrite off_filter_spec. match goal with |- context [existsb ?f ?l] => destruct (existsb f l) eqn:E end.
  - left. apply exists_empty in E. auto.
  - right. split; auto. intros H. apply exists_empty in H. exact (eq_true_false_abs _ H E).
Qed.

Lemma copy_into_cases n l :
  (n < nsize l /\ copy_into n l = UB)%N \/ (nsize l <= n /\ copy_into n l = Ok (l ++ repeat 0%N (N.to_nat n - length l)))%N.
Proof. unfold copy_into. destruct (N.ltb_spec n (nsize l)); auto. Qed.
Lemma nth_error_pad (l : list N) n k : (k < n)%nat -> nth_error (l ++ repeat 0%N (n - length l)) k = Some (item l k).
Proof.
  intros H. unfold item. destruct (Nat.lt_ge_cases k (length l)) as [Hk|Hk].
  - rewrite nth_error_app1 by auto. apply nth_error_nth'; auto.
  - rewrite nth_error_app2 by auto. rewrite nth_overflow by auto.
    assert (forall a j, (j < a)%nat -> nth_error (repeat 0%N a) j = Some 0%N) as R.
    { induction a as [|a IH]; intros [|j] Hj; cbn; try lia; auto. apply IH. lia. }
    apply R. lia.
Qed.
(** off_counts, in terms of the items of the second line *)
Lemma off_counts_spec l0 l1 rest : let lines := l0 :: l1 :: rest in let s := scan_sizes l1 in
  off_counts lines =
    if (3 <? nsize s)%N then UB
    else if negb (item s 2 =? 0)%N then Throw RangeError
    else if (nsize lines =? 2 + item s 0 + item s 1)%N then Ok (item s 0, item s 1)
    else if (nsize lines =? wrap64 (2 + item s 0 + item s 1))%N then UB else Throw RangeError.
Proof.
  cbn zeta. unfold off_counts. change (vidx (l0 :: l1 :: rest) 1) with (@Ok str l1). cbn [bind].
  unfold copy_into. destruct (3 <? nsize (scan_sizes l1))%N; [reflexivity|]. cbn [bind]. unfold vidx.
  change (N.to_nat 3) with 3%nat. rewrite !nth_error_pad by lia. reflexivity.
Qed.

Lemma off_face_spec l : let '(n, items) := face_items l in
  off_face l = if (1152921504606846975 <? n)%N then Throw LengthError
               else if (n <? nsize items)%N then UB
               else if (n <? 3)%N then Throw LogicError
               else Ok (items ++ repeat 0%N (N.to_nat n - length items)).
Proof.
  unfold face_items, off_face. destruct (scan_size_n l) as [n r]. unfold max_indexes.
  destruct (1152921504606846975 <? n)%N; auto. unfold copy_into.
  set (items := match r with Some r => scan_sizes r | None => [] end).
  destruct (N.ltb_spec n (nsize items)) as [H|H]; auto. cbn [bind]. unfold face_make.
  rewrite app_length, repeat_length. unfold nsize in H.
  destruct (N.ltb_spec n 3), (Nat.ltb_spec (length items + (N.to_nat n - length items)) 3); try lia; reflexivity.
Qed.
Lemma off_face_ok l f : off_face l = Ok f -> (3 <= length f)%nat /\ good_face_line l /\
  f = snd (face_items l) ++ repeat 0%N (N.to_nat (fst (face_items l)) - length (snd (face_items l))).
Proof.
  pose proof (off_face_spec l) as H. unfold good_face_line. destruct (face_items l) as [n items]; cbn [fst snd] in *. rewrite H. clear H.
  destruct (N.ltb_spec 1152921504606846975 n); [discriminate|]. destruct (N.ltb_spec n (nsize items)); [discriminate|].
  destruct (N.ltb_spec n 3); [discriminate|]. intros E. apply Ok_inj in E. subst f.
  rewrite app_length, repeat_length. unfold nsize in *. split; [lia|]. split; [lia|reflexivity].
Qed.
Lemma off_face_UB l : off_face l = UB <-> overfull l.
Proof.
  pose proof (off_face_spec l) as H. unfold overfull. destruct (face_items l) as [n items]; cbn [fst snd] in *. rewrite H. clear H.
  destruct (N.ltb_spec 1152921504606846975 n), (N.ltb_spec n (nsize items)), (N.ltb_spec n 3); split; intros H'; try easy; lia.
Qed.
Lemma off_face_good l : (exists f, off_face l = Ok f) <-> good_face_line l.
Proof.
  split; [intros [f H]; apply off_face_ok in H; tauto|].
  pose proof (off_face_spec l) as H. unfold good_face_line. destruct (face_items l) as [n items]; cbn [fst snd] in *. rewrite H. clear H.
  destruct (N.ltb_spec 1152921504606846975 n), (N.ltb_spec n (nsize items)), (N.ltb_spec n 3); try lia. eauto.
Qed.
Lemma off_point_cases l : ((length (scan_doubles l) < 3)%nat /\ off_point l = UB) \/
  ((3 <= length (scan_doubles l))%nat /\ exists p, off_point l = Ok p).
Proof.
  unfold off_point. destruct (scan_doubles l) as [|a [|b [|c r]]]; cbn; [left|left|left|right]; split; try lia; auto. eauto.
Qed.
Lemma omapM_UB_iff {A B} (f : A -> outcome B) l :
  omapM f l = UB <-> exists pre a post, l = pre ++ a :: post /\ f a = UB /\ forall b, In b pre -> exists c, f b = Ok c.
Proof.
  induction l as [|x l IH]; cbn [omapM].
  - split; [discriminate|]. intros ([|? ?] & ? & ? & E & _); discriminate.
  - split.
    + intros H. destruct (f x) as [c| |] eqn:E; cbn [bind] in H; try discriminate.
      * destruct (omapM f l) eqn:E2; cbn [bind] in H; try discriminate. destruct (proj1 IH eq_refl) as (pre & a & post & -> & Ha & Hp).
        exists (x :: pre), a, post. split; auto. split; auto. intros b [<-|Hb]; eauto.
      * exists [], x, l. split; auto. split; auto. intros b [].
    + intros (pre & a & post & E & Ha & Hp). destruct pre as [|y pre]; cbn in E; injection E as <- E.
      * rewrite Ha. reflexivity.
      * destruct (Hp x) as [c Hc]; [left; auto|]. rewrite Hc. cbn [bind].
        assert (omapM f l = UB) as ->; [|reflexivity]. apply IH. exists pre, a, post. split; auto. split; auto.
        intros b Hb. apply Hp. right; auto.
Qed.
Lemma off_points_cases ls : (exists l, In l ls /\ (length (scan_doubles l) < 3)%nat) /\ omapM off_point ls = UB \/
  (forall l, In l ls -> 3 <= length (scan_doubles l))%nat /\ exists P, omapM off_point ls = Ok P /\ length P = length ls.
Proof.
  induction ls as [|l ls IH]; cbn [omapM].
  - right. split; [intros ? []|]. eauto.
  - destruct (off_point_cases l) as [[H1 H2]|[H1 [p Hp]]].
    + left. split; [exists l; split; [left|]; auto|]. rewrite H2. reflexivity.
    + rewrite Hp. cbn [bind]. destruct IH as [[(l' & H3 & H4) E]|[H3 (P & E & HL)]]; rewrite E.
      * left. split; [exists l'; split; [right|]; auto|reflexivity].
      * right. split; [intros x [<-|Hx]; auto|]. eexists. split; [reflexivity|]. cbn. lia.
Qed.

(** the reader as a decision over the significant lines *)
Lemma off_read_header txt l1 rest : ~ In [] (readlines txt) -> significant (readlines txt) = s_off :: l1 :: rest ->
  off_read txt = (let* (p, f) := off_counts (s_off :: l1 :: rest) in
                  let* P := omapM off_point (firstn (N.to_nat p) rest) in
                  let* F := omapM off_face (firstn (N.to_nat f) (skipn (N.to_nat p) rest)) in
                  Ok (mesh_make [] P F)).
Proof.
  intros Hne Es. unfold off_read. destruct (off_parse_cases txt) as [[H _]|[_ E]]; [contradiction|]. rewrite E, Es. cbn [bind].
  rewrite str_eqb_refl. reflexivity.
Qed.
Lemma C23_rejects_empty_proof txt : In [] (readlines txt) -> off_read txt = Throw OutOfRange.
Proof. intros H. unfold off_read. destruct (off_parse_cases txt) as [[_ E]|[H' _]]; [|contradiction]. rewrite E. reflexivity. Qed.
Lemma off_read_shape txt : off_read txt <> Throw OutOfRange -> off_read txt <> Throw IosFailure ->
  ~ In [] (readlines txt) /\ exists l1 rest, significant (readlines txt) = s_off :: l1 :: rest.
Proof.
  intros H1 H2. destruct (off_parse_cases txt) as [[H E]|[H E]].
  { exfalso. apply H1. apply C23_rejects_empty_proof; auto. }
  split; auto. unfold off_read in H1, H2. rewrite E in H1, H2. cbn [bind] in H1, H2.
  destruct (significant (readlines txt)) as [|l0 [|l1 rest]].
  - contradiction.
  - destruct (negb (str_eqb l0 s_off)); contradiction.
  - destruct (str_eqb l0 s_off) eqn:E0; [|contradiction]. apply str_eqb_eq in E0. subst. eauto.
Qed.
Lemma C23_accepts_proof txt m : off_read txt = Ok m ->
  let sig := significant (readlines txt) in
  ~ In [] (readlines txt) /\ nth_error sig 0 = Some s_off /\
  (exists l1, nth_error sig 1 = Some l1 /\ (length (scan_sizes l1) <= 3)%nat /\
     item (scan_sizes l1) 0 = nsize (m_points m) /\ item (scan_sizes l1) 1 = nsize (m_faces m) /\ item (scan_sizes l1) 2 = 0%N) /\
  length sig = (2 + length (m_points m) + length (m_faces m))%nat /\
  (forall f, In f (m_faces m) -> 3 <= length f)%nat.
Proof.
  intros E. cbn zeta. destruct (@off_read_shape txt) as (Hne & l1 & rest & Es); try congruence.
  rewrite (off_read_header txt l1 rest Hne Es), off_counts_spec in E. rewrite Es. set (s := scan_sizes l1) in *.
  destruct (N.ltb_spec 3 (nsize s)); [discriminate|]. destruct (N.eqb_spec (item s 2) 0) as [Ez|Ez]; [|discriminate]. cbn [negb] in E.
  destruct (N.eqb_spec (nsize (s_off :: l1 :: rest)) (2 + item s 0 + item s 1)) as [En|En].
  2:{ destruct (_ =? wrap64 _)%N; discriminate. }
  cbn [bind] in E. unfold nsize in En. cbn [length] in En.
  apply bind_Ok in E as (P & EP & E). apply bind_Ok in E as (F & EF & E). apply Ok_inj in E. subst m. cbn [m_points m_faces mesh_make].
  apply omapM_Ok in EP, EF. pose proof (Forall2_len EP) as LP. pose proof (Forall2_len EF) as LF.
  rewrite firstn_length in LP, LF. rewrite skipn_length in LF. unfold nsize in *.
  split; auto. split; [reflexivity|]. split; [exists l1; fold s; repeat split; auto; try lia|]. split; [cbn [length]; lia|].
  intros f Hf. clear - EF Hf. induction EF as [|a b la lb H HF IH]; [destruct Hf|]. destruct Hf as [<-|Hf]; auto.
  apply off_face_ok in H. tauto.
Qed.
(** undefined behaviour of the reader, exactly *)
Lemma C24_ub_proof txt : off_read txt = UB <->
  ~ In [] (readlines txt) /\ exists l1 rest, significant (readlines txt) = s_off :: l1 :: rest /\
  let s := scan_sizes l1 in let p := item s 0 in let f := item s 1 in
  ((3 < length s)%nat \/
   ((length s <= 3)%nat /\ item s 2 = 0%N /\
    ((nsize rest <> p + f /\ (2 + nsize rest) = (2 + p + f) mod two64)%N \/
     ((nsize rest = p + f)%N /\
      ((exists l, In l (firstn (N.to_nat p) rest) /\ (length (scan_doubles l) < 3)%nat) \/
       ((forall l, In l (firstn (N.to_nat p) rest) -> (3 <= length (scan_doubles l))%nat) /\
        exists pre l post, skipn (N.to_nat p) rest = pre ++ l :: post /\ overfull l /\ Forall good_face_line pre)))))).
Proof.
  split.
  - intros E. destruct (@off_read_shape txt) as (Hne & l1 & rest & Es); try congruence. split; auto. exists l1, rest. split; auto.
    rewrite (off_read_header txt l1 rest Hne Es), off_counts_spec in E. cbn zeta. set (s := scan_sizes l1) in *.
    unfold nsize in E at 1. destruct (N.ltb_spec 3 (N.of_nat (length s))); [left; lia|]. right. split; [lia|].
    destruct (N.eqb_spec (item s 2) 0) as [Ez|Ez]; [|discriminate]. cbn [negb] in E. split; auto.
    assert (nsize (s_off :: l1 :: rest) = 2 + nsize rest)%N as Enn by (unfold nsize; cbn [length]; lia). rewrite Enn in E.
    destruct (N.eqb_spec (2 + nsize rest) (2 + item s 0 + item s 1)) as [En|En].
    + right. assert (nsize rest = item s 0 + item s 1)%N as En' by lia. split; auto. cbn [bind] in E.
      destruct (off_points_cases (firstn (N.to_nat (item s 0)) rest)) as [[H1 _]|[H1 (P & EP & _)]]; [left; auto|right; split; auto].
      rewrite EP in E. cbn [bind] in E. destruct (omapM off_face _) eqn:EF; cbn [bind] in E; try discriminate.
      apply omapM_UB_iff in EF as (pre & a & post & Ef & Ha & Hp). exists pre, a, post.
      rewrite firstn_all2 in Ef by (rewrite skipn_length; unfold nsize in En'; lia). split; auto.
      split; [apply off_face_UB; auto|]. apply Forall_forall. intros b Hb. apply off_face_good. auto.
    + left. unfold wrap64 in E. destruct (N.eqb_spec (2 + nsize rest) ((2 + item s 0 + item s 1) mod two64)) as [Ew|Ew]; [|discriminate].
      split; [lia|auto].
  - intros (Hne & l1 & rest & Es & H). rewrite (off_read_header txt l1 rest Hne Es), off_counts_spec. cbn zeta in H. set (s := scan_sizes l1) in *.
    unfold nsize at 1. destruct H as [H|(H1 & H2 & H)].
    { replace (3 <? N.of_nat (length s))%N with true by lia. reflexivity. }
    replace (3 <? N.of_nat (length s))%N with false by lia. rewrite H2. cbn [N.eqb negb].
    assert (nsize (s_off :: l1 :: rest) = 2 + nsize rest)%N as Enn by (unfold nsize; cbn [length]; lia). rewrite Enn.
    destruct H as [[H3 H4]|[H3 H]].
    { replace (2 + nsize rest =? 2 + item s 0 + item s 1)%N with false by lia. unfold wrap64. rewrite H4, N.eqb_refl. reflexivity. }
    replace (2 + nsize rest =? 2 + item s 0 + item s 1)%N with true by lia. cbn [bind].
    destruct (off_points_cases (firstn (N.to_nat (item s 0)) rest)) as [[G1 ->]|[G1 (P & -> & _)]]; [reflexivity|]. cbn [bind].
    destruct H as [(l & Hl & Hs)|[_ (pre & l & post & El & Ho & Hg)]].
    { specialize (G1 l Hl). lia. }
    rewrite firstn_all2 by (rewrite skipn_length; unfold nsize in H3; lia).
    assert (omapM off_face (skipn (N.to_nat (item s 0)) rest) = UB) as ->; [|reflexivity].
    apply omapM_UB_iff. exists pre, l, post. split; auto. split; [apply off_face_UB; auto|].
    intros b Hb. apply off_face_good. rewrite Forall_forall in Hg. auto.
Qed.
(** a face line announcing more indices than it holds is padded with index 0 *)
Lemma C24_padding_proof l : good_face_line l ->
  off_face l = Ok (snd (face_items l) ++ repeat 0%N (N.to_nat (fst (face_items l)) - length (snd (face_items l)))).
Proof. intros H. apply off_face_good in H as [f H]. rewrite H. apply off_face_ok in H as (_ & _ & ->). reflexivity. Qed.


(** ** C19 *)
Lemma C19_size_proof n rest : (n < two64)%N -> (forall c r, rest = c :: r -> is_digit c = false) ->
  scan_size (print_N n ++ rest) = Some (n, rest).
Proof.
  intros H Hr. apply scan_size_print; auto. destruct rest as [|c r]; cbn; auto. specialize (Hr c r eq_refl).
  unfold char_digit. unfold is_digit in Hr. rewrite Hr. reflexivity.
Qed.
Lemma rn64_sign s a b : match rn64 s a b with S754_finite s' _ _ => s' = s | _ => True end.
Proof.
  unfold rn64. set (ex := Z.max _ _). destruct (scale 2 a b ex) as [n d]. destruct (rhe n d =? 2 ^ 53)%Z.
  - change (2 ^ 52)%Z with 4503599627370496%Z. destruct (ex + 1 <=? 971)%Z; auto.
  - destruct (rhe n d); auto. destruct (ex <=? 971)%Z; auto.
Qed.
Lemma C19_double_proof n : (n < 2 ^ 53)%N -> exists d,
  scan_double (print_N n) = Some (d, []) /\ (dval d == inject_Z (Z.of_N n))%Q /\ size_of_dbl d = Ok n.
Proof.
  intros H. exists (dbl_of_N n). destruct (dbl_of_N_spec n H) as (Hf & Hv & Hs & Hq). split; [|split; auto].
  - destruct (tok_index n H) as [_ Ht]. specialize (Ht [] I). rewrite app_nil_r in Ht. exact Ht.
  - rewrite <- Hq. unfold dbl_of_N, dec_to_dbl in *. destruct (Z.of_N n =? 0)%Z; [reflexivity|].
    cbn [Z.leb Z.compare] in *. pose proof (rn64_sign false (Z.of_N n * 10 ^ 0) 1) as S.
    destruct (rn64 false (Z.of_N n * 10 ^ 0) 1) as [| | |s m e]; try reflexivity. subst s.
    cbn [dval qabsv]. unfold qz, pw. change (inject_Z 2) with (2#1)%Q. rewrite Qmult_1_l. reflexivity.
Qed.

(** ** C24, C25 *)
Lemma C24_padded_proof txt m : off_read txt = Ok m ->
  Forall2 (fun l f => let '(n, items) := face_items l in
             good_face_line l /\ f = items ++ repeat 0%N (N.to_nat n - length items))
          (skipn (2 + length (m_points m)) (significant (readlines txt))) (m_faces m).
Proof.
  intros E. destruct (@off_read_shape txt) as (Hne & l1 & rest & Es); try congruence.
  pose proof (C23_accepts_proof _ _ E) as (_ & _ & (l1' & Hl1 & _ & Hp & Hf & _) & Hlen & _).
  rewrite Es in Hl1. cbn in Hl1. injection Hl1 as <-.
  rewrite (off_read_header txt l1 rest Hne Es), off_counts_spec in E. rewrite Es in *. set (s := scan_sizes l1) in *.
  destruct (N.ltb_spec 3 (nsize s)); [discriminate|]. destruct (N.eqb_spec (item s 2) 0) as [Ez|Ez]; [|discriminate]. cbn [negb] in E.
  destruct (N.eqb_spec (nsize (s_off :: l1 :: rest)) (2 + item s 0 + item s 1)) as [En|En].
  2:{ destruct (_ =? wrap64 _)%N; discriminate. }
  cbn [bind] in E. apply bind_Ok in E as (P & EP & E). apply bind_Ok in E as (F & EF & E). apply Ok_inj in E. subst m.
  cbn [m_points m_faces mesh_make] in *. apply omapM_Ok in EF.
  unfold nsize in *. cbn [length] in En, Hlen.
  rewrite firstn_all2 in EF by (rewrite skipn_length; lia). rewrite Hp, Nat2N.id in EF.
  cbn [Nat.add skipn]. clear - EF. induction EF as [|l f ls F H HF IH]; constructor; auto.
  apply off_face_ok in H as (_ & H1 & H2). destruct (face_items l). auto.
Qed.
Lemma C25_proof n k : (n < two64)%N -> (k < two64)%N -> exists t m,
  off_read t = Ok m /\ nsize (m_points m) = n /\ m_faces m = [[k; k; k]].
Proof.
  intros Hn Hk. set (m := mesh_make [] (repeat point_default (N.to_nat n)) [[k; k; k]]).
  assert (nsize (repeat point_default (N.to_nat n)) = n) as E by (unfold nsize; rewrite repeat_length; lia).
  exists (off_write m). eexists. split; [apply off_roundtrip|].
  - cbn. intros p Hp. apply repeat_spec in Hp. subst p. repeat split; reflexivity.
  - intros f [<-|[]]. split; [cbn; lia|]. split; [vm_compute; discriminate|]. intros i [<-|[<-|[<-|[]]]]; auto.
  - intros [].
  - cbn [m m_points mesh_make]. rewrite E. auto.
  - reflexivity.
  - cbn [m m_points m_faces mesh_make]. rewrite nsize_map. auto.
Qed.

(** ** The reader's outcomes, completely *)
Lemma omapM_Throw_iff {A B} (f : A -> outcome B) l e :
  omapM f l = Throw e <-> exists pre a post, l = pre ++ a :: post /\ f a = Throw e /\ forall b, In b pre -> exists c, f b = Ok c.
Proof.
  induction l as [|x l IH]; cbn [omapM].
  - split; [discriminate|]. intros ([|? ?] & ? & ? & E & _); discriminate.
  - split.
    + intros H. destruct (f x) as [c| |] eqn:E; cbn [bind] in H; try discriminate.
      * destruct (omapM f l) eqn:El; cbn [bind] in H; try discriminate. assert (Throw e0 = Throw e :> outcome (list B)) as Ee by (injection H as ->; auto). apply IH in Ee as (pre & a & post & -> & Ha & Hp).
        exists (x :: pre), a, post. split; auto. split; auto. intros b [<-|Hb]; eauto.
      * injection H as ->. exists [], x, l. split; auto. split; auto. intros b [].
    + intros ([|y pre] & a & post & El & Ha & Hp); cbn in El; injection El as -> ->.
      * rewrite Ha. reflexivity.
      * destruct (Hp y (or_introl eq_refl)) as [c ->]. cbn [bind].
        replace (omapM f (pre ++ a :: post)) with (Throw e : outcome (list B)); auto. symmetry. apply IH. exists pre, a, post. split; auto. split; auto. intros; apply Hp; now right.
Qed.
Lemma off_face_throw l e : off_face l = Throw e <-> (e = LogicError /\ few l) \/ (e = LengthError /\ huge l).
Proof.
  pose proof (off_face_spec l) as H. unfold few, huge. destruct (face_items l) as [n items]; cbn [fst snd] in *. rewrite H. clear H.
  destruct (N.ltb_spec 1152921504606846975 n), (N.ltb_spec n (nsize items)), (N.ltb_spec n 3); split; intros H';
  repeat match goal with H : _ \/ _ |- _ => destruct H | H : _ /\ _ |- _ => destruct H end; subst; try easy; try lia;
  injection H' as <-; (left; split; [reflexivity|lia]) || (right; split; [reflexivity|lia]).
Qed.
Lemma off_read_body t counts rest p f : off_file t counts rest -> announces counts p f -> (nsize rest = p + f)%N ->
  off_read t = let* P := omapM off_point (firstn (N.to_nat p) rest) in let* F := omapM off_face (skipn (N.to_nat p) rest) in Ok (mesh_make [] P F).
Proof.
  intros [H1 H2] (H3 & H4 & H5 & H6) H7. rewrite (off_read_header t counts rest H1 H2), off_counts_spec, H4, H5, H6. cbn [N.eqb negb].
  replace (3 <? nsize (scan_sizes counts))%N with false by (unfold nsize; lia).
  replace (nsize (s_off :: counts :: rest) =? 2 + p + f)%N with true by (unfold nsize in *; cbn [length]; lia). cbn [bind].
  rewrite firstn_all2 with (l := skipn _ rest); [reflexivity|]. rewrite skipn_length. unfold nsize in H7. lia.
Qed.
Lemma omapM_exists {A B} (f : A -> outcome B) l : (exists r, omapM f l = Ok r) <-> forall a, In a l -> exists b, f a = Ok b.
Proof.
  split.
  - intros [r H] a Ha. apply omapM_Ok in H. clear - H Ha. induction H as [|x y l k Hx H IH]; [destruct Ha|]. destruct Ha as [<-|Ha]; eauto.
  - induction l as [|a l IH]; intros H; [exists []; reflexivity|]. destruct (H a (or_introl eq_refl)) as [b Hb]. destruct IH as [r Hr]; [intros; apply H; now right|].
    exists (b :: r). cbn [omapM]. rewrite Hb. cbn [bind]. rewrite Hr. reflexivity.
Qed.
Lemma C23_accepts_iff_proof t : (exists m, off_read t = Ok m) <->
  exists counts rest p f, off_file t counts rest /\ announces counts p f /\ (nsize rest = p + f)%N /\
    (forall l, In l (firstn (N.to_nat p) rest) -> good_point_line l) /\ (forall l, In l (skipn (N.to_nat p) rest) -> good_face_line l).
Proof.
  split.
  - intros [m E]. pose proof (C23_accepts_proof t m E) as (H1 & H2 & (l1 & H3 & H4 & H5 & H6 & H7) & H8 & H9). cbn zeta in *.
    destruct (significant (readlines t)) as [|l0 [|l1' rest]] eqn:Es; try discriminate. cbn in H2, H3. injection H2 as ->. injection H3 as ->.
    exists l1, rest, (nsize (m_points m)), (nsize (m_faces m)). assert (off_file t l1 rest) as F by (split; auto). assert (announces l1 (nsize (m_points m)) (nsize (m_faces m))) as A by (repeat split; auto).
    assert (nsize rest = nsize (m_points m) + nsize (m_faces m))%N as L by (cbn [length] in H8; unfold nsize; lia).
    split; auto. split; auto. split; auto. rewrite (off_read_body _ _ _ _ _ F A L) in E. apply bind_Ok in E as (P & EP & E). apply bind_Ok in E as (G & EG & _). split.
    + intros l Hl. destruct (off_point_cases l) as [[_ B]|[B _]]; [|exact B]. destruct (proj1 (omapM_exists off_point _) (ex_intro _ P EP) l Hl); congruence.
    + intros l Hl. apply off_face_good. apply (proj1 (omapM_exists off_face _) (ex_intro _ G EG) l Hl).
  - intros (c & rest & p & f & F & A & L & HP & HF). rewrite (off_read_body _ _ _ _ _ F A L).
    destruct (proj2 (omapM_exists off_point (firstn (N.to_nat p) rest))) as [P ->].
    { intros l Hl. destruct (off_point_cases l) as [[B _]|[_ B]]; auto. apply HP in Hl. unfold good_point_line in Hl. lia. }
    cbn [bind]. destruct (proj2 (omapM_exists off_face (skipn (N.to_nat p) rest))) as [G ->]; [intros l Hl; apply off_face_good; auto|]. cbn [bind]. eauto.
Qed.
Lemma C23_content_proof t m : off_read t = Ok m -> exists counts rest, off_file t counts rest /\ announces counts (nsize (m_points m)) (nsize (m_faces m)) /\
  exists pl fl, rest = pl ++ fl /\ Forall2 point_line pl (m_points m) /\ Forall2 face_line fl (m_faces m) /\ m_name m = [] /\ tight_box (m_points m) (m_bbox m).
Proof.
  intros E. pose proof (C23_accepts_proof t m E) as (H1 & H2 & (l1 & H3 & H4 & H5 & H6 & H7) & H8 & H9). cbn zeta in *.
  destruct (significant (readlines t)) as [|l0 [|l1' rest]] eqn:Es; try discriminate. cbn in H2, H3. injection H2 as ->. injection H3 as ->.
  exists l1, rest. assert (off_file t l1 rest) as F by (split; auto). assert (announces l1 (nsize (m_points m)) (nsize (m_faces m))) as A by (repeat split; auto).
  assert (nsize rest = nsize (m_points m) + nsize (m_faces m))%N as L by (cbn [length] in H8; unfold nsize; lia).
  split; auto. split; auto. rewrite (off_read_body _ _ _ _ _ F A L) in E. apply bind_Ok in E as (P & EP & E). apply bind_Ok in E as (G & EG & E). apply Ok_inj in E.
  exists (firstn (N.to_nat (nsize (m_points m))) rest), (skipn (N.to_nat (nsize (m_points m))) rest). split; [symmetry; apply firstn_skipn|].
  apply omapM_Ok in EP, EG. subst m. cbn [m_points m_faces m_name m_bbox mesh_make] in *.
  split; [|split; [|split; [reflexivity|apply tight_compute]]].
  - clear - EP. induction EP as [|l p ls Q H HF IH]; constructor; auto. unfold off_point in H. unfold point_line. destruct (scan_doubles l) as [|x [|y [|z r]]]; cbn in H; try discriminate. apply Ok_inj in H. subst p. exists r. reflexivity.
  - clear - EG. induction EG as [|l p ls Q H HF IH]; constructor; auto. apply off_face_ok in H. split; tauto.
Qed.
Lemma C23_exceptions_proof t e : off_read t = Throw e <->
  (e = OutOfRange /\ (In [] (readlines t) \/ significant (readlines t) = [] \/ significant (readlines t) = [off_keyword])) \/
  (e = IosFailure /\ ~ In [] (readlines t) /\ exists l rest, significant (readlines t) = l :: rest /\ l <> off_keyword) \/
  (e = RangeError /\ exists counts rest, off_file t counts rest /\ (length (scan_sizes counts) <= 3)%nat /\
     (item (scan_sizes counts) 2 <> 0 \/ (2 + item (scan_sizes counts) 0 + item (scan_sizes counts) 1) mod two64 <> 2 + nsize rest /\ nsize rest <> item (scan_sizes counts) 0 + item (scan_sizes counts) 1)%N) \/
  (exists counts rest p f pre l post, off_file t counts rest /\ announces counts p f /\ (nsize rest = p + f)%N /\
     (forall l, In l (firstn (N.to_nat p) rest) -> good_point_line l) /\ skipn (N.to_nat p) rest = pre ++ l :: post /\
     (forall l', In l' pre -> good_face_line l') /\ (e = LogicError /\ few l \/ e = LengthError /\ huge l)).
Proof.
  destruct (off_parse_cases t) as [[H E]|[H E]].
  { rewrite C23_rejects_empty_proof by auto. split.
    - intros K. injection K as <-. left. auto.
    - intros [(-> & _)|[(_ & K & _)|[(_ & c & r & [K _] & _)|(c & r & p & f & a & b & d & [K _] & _)]]]; auto; contradiction. }
  destruct (significant (readlines t)) as [|l0 [|l1 rest]] eqn:Es.
  - assert (off_read t = Throw OutOfRange) as -> by (unfold off_read; rewrite E; reflexivity). split.
    + intros K. injection K as <-. left. auto.
    + intros [(-> & _)|[(_ & K & l & r & Q & _)|[(_ & c & r & [_ K] & _)|(c & r & p & f & a & b & d & [_ K] & _)]]]; auto; try discriminate; rewrite Es in K; discriminate.
  - assert (off_read t = if negb (str_eqb l0 s_off) then Throw IosFailure else Throw OutOfRange) as -> by (unfold off_read; rewrite E; reflexivity).
    destruct (str_eqb l0 s_off) eqn:E0; cbn [negb].
    + apply str_eqb_eq in E0. subst l0. split.
      * intros K. injection K as <-. left. auto.
      * intros [(-> & _)|[(_ & K & l & r & Q & N)|[(_ & c & r & [_ K] & _)|(c & r & p & f & a & b & d & [_ K] & _)]]]; auto; try (rewrite Es in K; discriminate). injection Q as <- <-. now contradiction N.
    + assert (l0 <> off_keyword) as N. { intros ->. change off_keyword with s_off in E0. rewrite str_eqb_refl in E0. discriminate. } split.
      * intros K. injection K as <-. right. left. eauto 6.
      * intros [(-> & [K|[K|K]])|[(-> & _)|[(_ & c & r & [_ K] & _)|(c & r & p & f & a & b & d & [_ K] & _)]]]; auto; try contradiction; try discriminate; try (rewrite Es in K; discriminate). injection K as ->. now contradiction N.
  - destruct (str_eqb l0 s_off) eqn:E0.
    2:{ assert (off_read t = Throw IosFailure) as -> by (unfold off_read; rewrite E; cbn [bind]; rewrite E0; reflexivity).
        assert (l0 <> off_keyword) as N. { intros ->. change off_keyword with s_off in E0. rewrite str_eqb_refl in E0. discriminate. } split.
        - intros K. injection K as <-. right. left. eauto 6.
        - intros [(-> & [K|[K|K]])|[(-> & _)|[(_ & c & r & [_ K] & _)|(c & r & p & f & a & b & d & [_ K] & _)]]]; auto; try contradiction; try discriminate; rewrite Es in K; injection K as K; subst; now contradiction N. }
    apply str_eqb_eq in E0. subst l0. assert (off_file t l1 rest) as F by (split; auto).
    assert (forall c r, off_file t c r -> c = l1 /\ r = rest) as U by (intros c r [_ K]; rewrite Es in K; now injection K).
    rewrite (off_read_header t l1 rest H Es), off_counts_spec. set (s := scan_sizes l1) in *.
    destruct (N.ltb_spec 3 (nsize s)) as [L|L].
    { cbn [bind]. split; [discriminate|]. unfold nsize in L.
      intros [(_ & [K|[K|K]])|[(_ & K & l & r & Q & N)|[(_ & c & r & K & LL & _)|(c & r & p & f & a & b & d & K & (LL & _) & _)]]]; try contradiction; try discriminate.
      - injection Q as <- <-. now contradiction N.
      - apply U in K as [-> ->]. fold s in LL. lia.
      - apply U in K as [-> ->]. fold s in LL. lia. }
    assert (length s <= 3)%nat as L3 by (unfold nsize in L; lia).
    destruct (N.eqb_spec (item s 2) 0) as [Z|Z]; cbn [negb].
    2:{ cbn [bind]. split.
        - intros K. injection K as <-. right. right. left. split; auto. exists l1, rest. fold s. auto.
        - intros [(-> & [K|[K|K]])|[(_ & K & l & r & Q & N)|[(-> & _)|(c & r & p & f & a & b & d & K & (_ & _ & _ & LL) & _)]]]; auto; try contradiction; try discriminate.
          + injection Q as <- <-. now contradiction N.
          + apply U in K as [-> ->]. fold s in LL. contradiction. }
    assert (nsize (s_off :: l1 :: rest) = 2 + nsize rest)%N as Enn by (unfold nsize; cbn [length]; lia). rewrite Enn.
    destruct (N.eqb_spec (2 + nsize rest) (2 + item s 0 + item s 1)) as [En|En].
    + cbn [bind]. assert (announces l1 (item s 0) (item s 1)) as A by (repeat split; auto).
      assert (nsize rest = item s 0 + item s 1)%N as L' by lia.
      rewrite firstn_all2 with (l := skipn _ rest) by (rewrite skipn_length; unfold nsize in L'; lia). split.
      * intros K. right. right. right. exists l1, rest, (item s 0), (item s 1). destruct (off_points_cases (firstn (N.to_nat (item s 0)) rest)) as [[_ K']|[K' (P & EP & _)]]; [rewrite K' in K; discriminate|].
        rewrite EP in K. cbn [bind] in K. destruct (omapM off_face _) as [G|e'|] eqn:EG; cbn [bind] in K; try discriminate. injection K as ->.
        apply omapM_Throw_iff in EG as (pre & l & post & El & Hl & Hp). exists pre, l, post. split; auto. split; auto. split; auto. split; auto. split; auto. split; [intros; apply off_face_good; auto|]. now apply off_face_throw.
      * intros [(-> & [K|[K|K]])|[(_ & K & l & r & Q & N)|[(-> & c & r & K & _ & [LL|[_ LL]])|(c & r & p & f & pre & l & post & K & (_ & Ep & Ef & _) & _ & HP & Hs & Hg & Ht)]]]; auto; try contradiction; try discriminate.
        -- injection Q as <- <-. now contradiction N.
        -- apply U in K as [-> ->]. fold s in LL. contradiction.
        -- apply U in K as [-> ->]. fold s in LL. contradiction.
        -- apply U in K as [-> ->]. fold s in Ep, Ef. subst p f. destruct (off_points_cases (firstn (N.to_nat (item s 0)) rest)) as [[(x & Hx & Hx') _]|[_ (P & -> & _)]]; [apply HP in Hx; unfold good_point_line in Hx; lia|].
           cbn [bind]. rewrite (proj2 (omapM_Throw_iff off_face _ e)); [reflexivity|]. exists pre, l, post. split; auto. split; [now apply off_face_throw|]. intros; apply off_face_good; auto.
    + assert (nsize rest <> item s 0 + item s 1)%N as En' by lia. unfold wrap64.
      destruct (N.eqb_spec (2 + nsize rest) ((2 + item s 0 + item s 1) mod two64)) as [Ew|Ew]; cbn [bind]; split.
      * discriminate.
      * intros [(-> & [K|[K|K]])|[(_ & K & l & r & Q & N)|[(-> & c & r & K & _ & [LL|[LL _]])|(c & r & p & f & pre & l & post & K & (_ & Ep & Ef & _) & LL & _)]]]; auto; try contradiction; try discriminate.
        -- injection Q as <- <-. now contradiction N.
        -- apply U in K as [-> ->]. fold s in LL. contradiction.
        -- apply U in K as [-> ->]. fold s in LL. congruence.
        -- apply U in K as [-> ->]. fold s in Ep, Ef. subst p f. contradiction.
      * intros K. injection K as <-. right. right. left. split; auto. exists l1, rest. fold s. split; auto.
      * intros [(-> & [K|[K|K]])|[(_ & K & l & r & Q & N)|[(-> & _)|(c & r & p & f & pre & l & post & K & (_ & Ep & Ef & _) & LL & _)]]]; auto; try contradiction; try discriminate.
        -- injection Q as <- <-. now contradiction N.
        -- apply U in K as [-> ->]. fold s in Ep, Ef. subst p f. contradiction.
Qed.
