(** * Theorem C89: what is inserted into streams. *)
From Coq Require Strings.String.
Import Coq.Strings.String.StringSyntax.
From Coq Require Import ZArith Lia.
From Verif Require Import Base Dbl Geom Decimal Round_proofs Scan_proofs Shadow Streams Lines_proofs Spec_shadow Spec_text Off_proofs Handlers Surface Projection Textout.
Open Scope nat_scope.

Lemma print_dbl_no_nl x : ~ In ch_nl (print_dbl x).
Proof.
  destruct (dfinite x) eqn:F; [now apply visible_no_nl, print_dbl_visible|]. destruct x as [s|s| |s m e]; try discriminate; cbn; [destruct s; cbn|]; intuition discriminate.
Qed.
Lemma print_dbl_first x : exists c r, print_dbl x = c :: r /\ visible c.
Proof.
  destruct (dfinite x) eqn:F.
  - destruct (print_dbl_head x F) as (c & r & E & Hc). exists c, r. split; auto. destruct Hc as [Hc|Hc]; [apply isdig_visible; auto|subst; apply visible_minus].
  - destruct x as [s|s| |s m e]; try discriminate; cbn; [destruct s; cbn|]; eexists; eexists; (split; [reflexivity|]); split; cbn; try lia; discriminate.
Qed.
Lemma point_no_nl p : ~ In ch_nl (print_point p).
Proof.
  unfold print_point. rewrite !in_app_iff. cbn [In]. rewrite !in_app_iff. cbn [In]. intros [H|[H|[H|[H|H]]]]; try discriminate; now apply print_dbl_no_nl in H.
Qed.
Lemma bbox_no_nl b : ~ In ch_nl (bbox_text b).
Proof.
  unfold bbox_text. repeat (rewrite in_app_iff; cbn [In]). intros H. repeat (destruct H as [H|H]; try discriminate; try (now apply print_dbl_no_nl in H)).
Qed.
Lemma mesh_text_lines m : mesh_text m = concat (map print_line ((say "#Name: "%string ++ m_name m) :: (say "#Bounding box: "%string ++ bbox_text (m_bbox m)) :: off_lines m)).
Proof.
  unfold mesh_text, off_lines. rewrite !concat_lines. cbn [map concat]. rewrite map_app, concat_app.
  unfold print_line at 3 4 5 6, counts_line. rewrite <- !app_assoc. reflexivity.
Qed.
Lemma off_lines_clean m : Forall (fun l => ~ In ch_nl l) (off_lines m).
Proof.
  unfold off_lines. constructor. { intros [E|[E|[E|[]]]]; discriminate. }
  constructor; [apply counts_line_no_nl|]. apply Forall_app. split; apply Forall_map, Forall_forall; intros a _; [apply point_no_nl|apply print_face_no_nl].
Qed.
Lemma readlines_text ls : Forall (fun l => ~ In ch_nl l) ls -> readlines (concat (map print_line ls)) = ls.
Proof. intros H. rewrite <- (app_nil_r (concat _)), (readlines_lines ls [] H). apply app_nil_r. Qed.
Lemma no_nl_after t s : ~ In ch_nl t -> ~ In ch_nl s -> ~ In ch_nl (t ++ s).
Proof. rewrite in_app_iff. tauto. Qed.

(** ** C89 *)
(** the text of a mesh is an OFF file: it reads as what writing the mesh as OFF reads as *)
Theorem C89_mesh_is_off : forall m, ~ In newline (m_name m) -> off_read (mesh_text m) = off_read (off_write m).
Proof.
  intros m H. assert (P : off_parse (mesh_text m) = off_parse (off_write m)).
  { unfold off_parse. rewrite mesh_text_lines, off_write_lines. rewrite !readlines_text.
    - cbn [off_filter off_keep say String.list_ascii_of_string s_mesh app]. change (Ascii.eqb "#" ch_hash) with true. cbn [negb bind]. now destruct (off_filter (off_lines m)).
    - constructor; [|apply off_lines_clean]. apply no_nl_after; auto. cbn. intuition discriminate.
    - constructor; [|constructor; [|apply off_lines_clean]]; apply no_nl_after; auto using bbox_no_nl; cbn; intuition discriminate. }
  unfold off_read. now rewrite P.
Qed.
(** so it gives the mesh back, up to the six digits of its coordinates *)
Theorem C89_mesh_reads : forall m, off_savable m -> exists m', off_read (mesh_text m) = Ok m' /\
  m_faces m' = m_faces m /\ Forall2 pt_reads_back (m_points m) (m_points m') /\ tight_box (m_points m') (m_bbox m').
Proof.
  intros m H. destruct (C21_proof m H) as (m' & E & F & P & B & _). exists m'. rewrite C89_mesh_is_off by apply H. auto.
Qed.
(** vectors and boxes: their numbers in order, in six digits *)
Theorem C89_vector : forall v, real_double (vx v) -> real_double (vy v) -> real_double (vz v) -> exists x y z,
  scan_doubles (vector_text v) = [x; y; z] /\ reads_back (vx v) x /\ reads_back (vy v) y /\ reads_back (vz v) z.
Proof.
  intros v X Y Z. exists (via_text (vx v)), (via_text (vy v)), (via_text (vz v)). split.
  - apply scan_doubles_toks. apply (print_point_toks (mkPoint (vx v) (vy v) (vz v))). repeat split; apply X || apply Y || apply Z.
  - repeat split; apply reads_back_via; auto.
Qed.
Definition box_numbers (b : bbox) : list dbl := [Shadow.xmin b; Shadow.xmax b; Shadow.ymin b; Shadow.ymax b; Shadow.zmin b; Shadow.zmax b].
Theorem C89_bbox : forall b, Forall real_double (box_numbers b) -> Forall2 reads_back (box_numbers b) (scan_doubles (bbox_text b)).
Proof.
  intros b H. unfold box_numbers in *. repeat (match goal with H : Forall _ (_ :: _) |- _ => inversion H; subst; clear H end).
  assert (E : scan_doubles (bbox_text b) = map via_text (box_numbers b)).
  { apply scan_doubles_toks. unfold bbox_text, box_numbers. cbn [map].
    repeat (apply tok_app_cons; [apply tok_double; match goal with H : real_double ?x |- dvalid ?x = true => apply H | H : real_double ?x |- dfinite ?x = true => apply H end|reflexivity|]; apply toks_sp).
    rewrite <- (app_nil_r (print_dbl _)). apply tok_app_cons; [apply tok_double; match goal with H : real_double ?x |- dvalid ?x = true => apply H | H : real_double ?x |- dfinite ?x = true => apply H end|exact I|apply toks_end]. }
  rewrite E. unfold box_numbers. cbn [map]. repeat constructor; apply reads_back_via; auto.
Qed.
(** the lines of the text of a footprint *)
Definition face_lines (sp : poly -> str) (sq : plane -> str) (f : face2) : list str :=
  [say "Id: "%string ++ print_N (N.of_nat (f_id f)); say "The Polygon describing borders :"%string ++ sp (f_border f); say "The supporting plane coefficients : "%string ++ sq (f_plane f); []].
Definition foot_lines (sp : poly -> str) (sq : plane -> str) (sb : option box2 -> str) (f : footprint) : list str :=
  [say "Name: "%string ++ fp_name f; say "Reference Point: "%string ++ print_point (fp_ref f); say "EPSG index: "%string ++ print_N (fp_epsg f);
   say "Bounding box: "%string ++ sb (br_box (fp_proj f)); say "Face Projections: "%string ++ print_N (nsize (br_facets (fp_proj f)))] ++
  concat (map (face_lines sp sq) (br_facets (fp_proj f))).
Definition one_line {A} (show : A -> str) : Prop := forall a, ~ In newline (show a).
Lemma concat_concat_lines {A} (g : A -> list str) l : concat (map print_line (concat (map g l))) = concat (map (fun a => concat (map print_line (g a))) l).
Proof. induction l as [|a l IH]; cbn [map concat]; auto. now rewrite map_app, concat_app, IH. Qed.
Lemma print_N_no_nl n : ~ In ch_nl (print_N n). Proof. apply visible_no_nl, print_N_visible. Qed.
Lemma foot_text_lines sp sq sb f : foot_text sp sq sb f = concat (map print_line (foot_lines sp sq sb f)).
Proof.
  unfold foot_text, brick_text, foot_lines. cbn [app map concat]. rewrite concat_concat_lines.
  assert (map (fun a => concat (map print_line (face_lines sp sq a))) (br_facets (fp_proj f)) = map (fun a => face_text sp sq a ++ [ch_nl]) (br_facets (fp_proj f))) as ->.
  { apply map_ext. intros a. unfold face_text, face_lines. cbn [map concat]. unfold print_line. rewrite <- !app_assoc. cbn [app]. reflexivity. }
  unfold print_line. rewrite <- !app_assoc. reflexivity.
Qed.
Theorem C89_foot_lines : forall sp sq sb f, one_line sp -> one_line sq -> one_line sb -> ~ In newline (fp_name f) ->
  readlines (foot_text sp sq sb f) = foot_lines sp sq sb f.
Proof.
  intros sp sq sb f P Q B N. rewrite foot_text_lines. apply readlines_text. unfold foot_lines. apply Forall_app. split.
  - repeat (apply Forall_cons); try apply Forall_nil; apply no_nl_after; auto using point_no_nl, print_N_no_nl; try apply B; cbn; intuition discriminate.
  - apply Forall_concat. apply Forall_map, Forall_forall. intros a _. unfold face_lines.
    repeat (apply Forall_cons); try apply Forall_nil; try (apply no_nl_after; auto using point_no_nl, print_N_no_nl; try apply P; try apply Q; cbn; intuition discriminate). intros [].
Qed.
(** the text tells the name, the reference system, the number of faces, their numbers and
    everything CGAL's texts tell of them *)
Theorem C89_foot : forall sp sq sb f g, one_line sp -> one_line sq -> one_line sb -> ~ In newline (fp_name f) -> ~ In newline (fp_name g) ->
  foot_text sp sq sb f = foot_text sp sq sb g ->
  fp_name f = fp_name g /\ fp_epsg f = fp_epsg g /\ print_point (fp_ref f) = print_point (fp_ref g) /\ sb (br_box (fp_proj f)) = sb (br_box (fp_proj g)) /\
  Forall2 (fun a b => f_id a = f_id b /\ sp (f_border a) = sp (f_border b) /\ sq (f_plane a) = sq (f_plane b)) (br_facets (fp_proj f)) (br_facets (fp_proj g)).
Proof.
  assert (I : forall a b, print_N a = print_N b -> a = b).
  { intros a b E. unfold print_N in E. destruct (print_nat_spec (Z.of_N a)) as (_ & A & _); [lia|]. destruct (print_nat_spec (Z.of_N b)) as (_ & B & _); [lia|]. rewrite E in A. lia. }
  intros sp sq sb f g P Q B Nf Ng E. apply (f_equal readlines) in E. rewrite !C89_foot_lines in E by auto. unfold foot_lines in E. cbn [app] in E.
  injection E as E1 E2 E3 E4 E5 E6. split; [auto|]. split; [apply I; auto|]. split; [auto|]. split; [auto|].
  clear E1 E2 E3 E4 E5 Nf Ng. revert E6. generalize (br_facets (fp_proj f)) (br_facets (fp_proj g)). induction l as [|a l IH]; intros [|b l'] E; try discriminate; [constructor|].
  cbn [map concat face_lines app] in E. injection E as E1 E2 E3 E4. constructor; [|auto]. split; [|auto]. apply I in E1. lia.
Qed.
(** examples *)
Definition flag : mesh := mesh_make (say "flag"%string) [mkPoint (dofZ 1) (dofZ 2) (dofZ 3); mkPoint (dofZ 1234567) (dofZ (-4)) (dofZ 0); mkPoint (dofZ 0) (dofZ 0) (dofZ 0)] [[0; 2; 1]%N].
Definition nl : String.string := String.String ch_nl String.EmptyString.
Example C89_example : off_savable flag /\
  mesh_text flag = say (String.concat nl ["#Name: flag"; "#Bounding box: 0 1.23457e+06 -4 2 0 3"; "OFF"; "3 1 0"; "1 2 3"; "1.23457e+06 -4 0"; "0 0 0"; "3 0 2 1"; ""]%string).
Proof.
  split; [|vm_compute; reflexivity]. split; [|split; [|split; [|split]]].
  - intros p [<-|[<-|[<-|[]]]]; repeat split; vm_compute; reflexivity.
  - intros f [<-|[]]; (split; [cbn; lia|]; split; [vm_compute; discriminate|]); intros i Hi; cbn in Hi; repeat (destruct Hi as [<-|Hi]; [vm_compute; reflexivity|]); destruct Hi.
  - cbn. intuition discriminate.
  - vm_compute; reflexivity.
  - vm_compute; reflexivity.
Qed.
(** a newline in the name spoils the file *)
Theorem C89_newline_refuted : off_read (mesh_text (fst (mesh_set_name flag (say (String.append "fl" (String.append nl "ag"))%string)))) = Throw IosFailure.
Proof. vm_compute. reflexivity. Qed.
(** an empty mesh shows its empty box as infinities; the text still reads as the empty mesh *)
Example C89_empty : mesh_text mesh_empty = say (String.concat nl ["#Name: "; "#Bounding box: inf -inf inf -inf inf -inf"; "OFF"; "0 0 0"; ""]%string) /\ off_read (mesh_text mesh_empty) = Ok mesh_empty.
Proof. split; vm_compute; reflexivity. Qed.
Example C89_foot_example : foot_text (fun _ => say "P"%string) (fun _ => say "H"%string) (fun _ => say "B"%string)
  (mkFoot (say "hall"%string) (mkPoint (dofZ 5) (dofZ 6) (dofZ 0)) 2154 (mkBrick None [mkFace2 7 (mkPoly [] []) (mkPlane 0 0 1 0)%Qc])) =
  say (String.concat nl ["Name: hall"; "Reference Point: 5 6 0"; "EPSG index: 2154"; "Bounding box: B"; "Face Projections: 1"; "Id: 7"; "The Polygon describing borders :P"; "The supporting plane coefficients : H"; ""; ""]%string).
Proof. vm_compute. reflexivity. Qed.
