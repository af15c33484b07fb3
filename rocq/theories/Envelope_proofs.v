(** * Proofs about adding facets to a print: it never throws on proper facets, coverage,
    upper envelope (C53-C55) *)
From Verif Require Import Base Geom Decimal Shadow Handlers Surface Projection Spec_projection Strip Projection_proofs.
Open Scope nat_scope.

(** ** Boxes *)
Lemma qmin_assoc a b c : qmin a (qmin b c) = qmin (qmin a b) c.
Proof. qcases; auto; apply Qcle_antisym; qo. Qed.
Lemma qmax_assoc a b c : qmax a (qmax b c) = qmax (qmax a b) c.
Proof. qcases; auto; apply Qcle_antisym; qo. Qed.
Lemma box_add_assoc a b c : box_add a (box_add b c) = box_add (box_add a b) c.
Proof. destruct a as [a|], b as [b|], c as [c|]; cbn [box_add]; auto. cbn [xmin ymin xmax ymax]. now rewrite !qmin_assoc, !qmax_assoc. Qed.
Lemma box_add_None a : box_add a None = a.
Proof. destruct a; auto. Qed.
Lemma boxes_app l m : boxes (l ++ m) = box_add (boxes l) (boxes m).
Proof. induction l as [|f l IH]; cbn [boxes app fold_right]; auto. unfold boxes in IH. rewrite IH. apply box_add_assoc. Qed.
Lemma in_box_l a b p : in_box a p -> in_box (box_add a b) p.
Proof. destruct a as [a|], b as [b|]; cbn; try tauto. intros (? & ? & ? & ?). qcases; repeat split; qo. Qed.
Lemma in_box_r a b p : in_box b p -> in_box (box_add a b) p.
Proof. destruct a as [a|], b as [b|]; cbn; try tauto. intros (? & ? & ? & ?). qcases; repeat split; qo. Qed.
Lemma boxes_In f l : In f l -> box_le (face_box f) (boxes l).
Proof. induction l as [|g l IH]; cbn; [intros []|]. intros [<-|H] p Hp; [now apply in_box_l|apply in_box_r]. now apply IH. Qed.
(** a ring whose vertices lie in a box has its own box inside *)
Definition sub_box (a B : box2) : Prop := (xmin B <= xmin a /\ ymin B <= ymin a /\ xmax a <= xmax B /\ ymax a <= ymax B)%Qc.
Lemma ring_box_sub B l : Forall (in_box (Some B)) l -> forall acc, match acc with Some a => sub_box a B | None => True end ->
  match fold_left (fun b p => box_add b (point_box p)) l acc with Some a => sub_box a B | None => True end.
Proof.
  induction 1 as [|p l Hp F IH]; intros acc Ha; cbn [fold_left]; auto. apply IH. cbn [in_box] in Hp. destruct acc as [a|]; unfold sub_box in *; cbn [box_add point_box xmin ymin xmax ymax] in *.
  - destruct Hp as (? & ? & ? & ?), Ha as (? & ? & ? & ?). qcases; repeat split; qo.
  - destruct Hp as (? & ? & ? & ?). repeat split; qo.
Qed.
Lemma ring_box_in b l : (forall v, In v l -> in_box b v) -> box_le (ring_box l) b.
Proof.
  intros H p Hp. destruct b as [B|].
  - pose proof (ring_box_sub B l) as R. assert (F : Forall (in_box (Some B)) l) by (apply Forall_forall; auto). specialize (R F None I).
    unfold ring_box in Hp. destruct (fold_left _ l None) as [a|]; [|destruct Hp]. cbn [in_box] in *. unfold sub_box in R. destruct Hp as (? & ? & ? & ?), R as (? & ? & ? & ?). repeat split; qo.
  - destruct l as [|v l]; [destruct Hp|]. exfalso. apply (H v). left; auto.
Qed.

Section PROOFS.
Context (K : kernel) (good : poly -> Prop) (sgood : k_set K -> Prop) (OK : kernel_ok K good sgood).
Local Notation fin f p := (inside K (f_border f) p).
Local Notation fclear f p := (clear K (f_border f) p).
Local Notation fcov f p := (covered K (f_border f) p).
Local Notation shows p := (fun f => face_contains K f p).

Lemma add_face_box b f b' : add_face K b f = Ok b' -> br_box b' = box_add (br_box b) (face_box f).
Proof. unfold add_face. intros H. apply bind_Ok in H as (fs & _ & H). apply Ok_inj in H. subst. reflexivity. Qed.
Lemma add_all_box b' l : forall b, ofold (fun b f => if face_empty f || is_degenerate K f then Ok b else add_face K b f) l b = Ok b' ->
  br_box b' = box_add (br_box b) (boxes (filter (fun f => negb (face_empty f || is_degenerate K f)) l)).
Proof.
  induction l as [|f l IH]; intros b H; cbn [ofold filter] in *.
  - apply Ok_inj in H. subst. now rewrite box_add_None.
  - apply bind_Ok in H as (b1 & E & H). apply IH in H. destruct (face_empty f || is_degenerate K f); cbn [negb].
    + apply Ok_inj in E. subst b1. auto.
    + apply add_face_box in E. rewrite E in H. rewrite H. symmetry. apply box_add_assoc.
Qed.
Lemma built_box b l : built K b l -> br_box b = boxes l.
Proof.
  induction 1 as [|f|b l f b' B IH A|b l c m b' B IH C IHc A|b l B IH].
  - reflexivity.
  - cbn. now rewrite box_add_None.
  - apply add_face_box in A. rewrite A, IH, boxes_app. cbn [boxes fold_right]. now rewrite box_add_None.
  - unfold add_brick in A. apply bind_Ok in A as (r & E & A). apply Ok_inj in A. subst b'. cbn [br_box brick_filter]. apply add_all_box in E. rewrite E. cbn [br_box brick_filter].
    now rewrite IH, boxes_app.
  - exact IH.
Qed.
Lemma built_encloses b l : built K b l -> fgood good l -> forall x, In x (br_facets b) -> box_le (face_box x) (br_box b).
Proof.
  intros B G x Hx. rewrite (built_box _ _ B). destruct (built_from K good sgood OK b l B G x Hx) as [Gx (f & Hf & _ & C)].
  apply ring_box_in. intros v Hv. apply boxes_In with (f := f); auto. unfold face_box. apply (side_box _ _ _ OK); auto.
  apply C. now apply (vertex_in _ _ _ OK).
Qed.

(** ** Nothing is thrown on proper facets *)
Context (SI : sampled_inside K good).
Lemma height_ok f p : is_perpendicular f = false -> exists z, height_is K f p z.
Proof. unfold height_is, plane_height, is_perpendicular. intros ->. eauto. Qed.
Lemma height_part f x p : part_of f x -> plane_height K x p = plane_height K f p.
Proof. intros [_ P]. unfold plane_height. now rewrite P. Qed.
Lemma perp_part f x : part_of f x -> is_perpendicular x = is_perpendicular f.
Proof. intros [_ P]. unfold is_perpendicular. now rewrite P. Qed.
Lemma degenerate_perp f : is_degenerate K f = false -> is_perpendicular f = false.
Proof. unfold is_degenerate. intros H. apply orb_false_iff in H. tauto. Qed.
Lemma ofold_ok {A B} (f : A -> B -> outcome A) l : (forall a b, In b l -> exists a', f a b = Ok a') -> forall a, exists a', ofold f l a = Ok a'.
Proof.
  induction l as [|b l IH]; intros H a; cbn [ofold]; eauto. destruct (H a b) as (a' & E); [left; auto|]. rewrite E. cbn [bind]. apply IH. intros; apply H; right; auto.
Qed.
Definition fine (l : list face2) : Prop := forall f, In f l -> good (f_border f) /\ is_perpendicular f = false.
Lemma fine_good l : fine l -> fgood good l.
Proof. intros F f Hf. now apply F. Qed.
Lemma fine_from l m : fine l -> (forall x, In x m -> from K good l x) -> fine m.
Proof. intros F H x Hx. apply H in Hx as [G (f & Hf & P & _)]. split; auto. rewrite (perp_part f x P). now apply F. Qed.
Lemma pair_ok l r A B : good (f_border l) -> good (f_border r) -> is_perpendicular l = false -> is_perpendicular r = false -> exists XY, occlude_pair K l r (A, B) = Ok XY.
Proof.
  intros Gl Gr Pl Pr. unfold occlude_pair. destruct (ok_inter2 _ _ _ OK _ _ Gl Gr) as [Gi _].
  assert (E : exists st, ofold (cut_one K l r) (k_inter2 K (f_border l) (f_border r)) (k_of K (f_border l), k_of K (f_border r)) = Ok st).
  { apply ofold_ok. intros st i Hi. unfold cut_one. rewrite Forall_forall in Gi. destruct (SI i (Gi i Hi)) as (s & E & _). rewrite E. cbn [bind].
    destruct (height_ok l s Pl) as (zl & Zl). destruct (height_ok r s Pr) as (zr & Zr). unfold height_is in *. rewrite Zl, Zr. cbn [bind]. eauto. }
  destruct E as ([sl sr] & E). destruct (k_inter2 K (f_border l) (f_border r)) as [|i is]; eauto. rewrite E. cbn [bind]. eauto.
Qed.
Lemma occlusion_ok cs l : fine cs -> fine [l] -> exists LC, occlusion K cs l = Ok LC.
Proof.
  intros Fc Fl. unfold occlusion. apply ofold_ok. intros [A B] c Hc. apply filter_facets_In in Hc. destruct (Fc c Hc), (Fl l); [left; auto|]. now apply pair_ok.
Qed.
Lemma occlude_all_ok rs : forall cs, fine cs -> fine rs -> exists RC, occlude_all K cs rs = Ok RC.
Proof.
  induction rs as [|r rs IH]; intros cs Fc Fr; cbn [occlude_all]; eauto.
  assert (F1 : fine [r]) by (intros y [<-|[]]; apply Fr; left; auto).
  destruct (occlusion_ok cs r Fc F1) as ([L C] & E). rewrite E. cbn [bind].
  assert (Fd : fgood good [r]) by (now apply fine_good). apply (occlusion_from K good sgood OK) in E as [_ E]; [|now apply fine_good|apply Fd; left; auto].
  destruct (IH C) as ([R C'] & E'); [apply (fine_from cs); auto|intros y Hy; apply Fr; right; auto|]. rewrite E'. cbn [bind]. eauto.
Qed.
Lemma face_height_ok f p : is_perpendicular f = false -> exists z, face_height K f p = Ok z.
Proof. intros P. unfold face_height. destruct (height_ok f p P) as (z & E). unfold height_is in E. rewrite E. cbn [bind]. eauto. Qed.
Lemma brick_height_ok b p : (forall f, In f (br_facets b) -> is_perpendicular f = false) -> exists z, brick_height K b p = Ok z.
Proof.
  intros P. unfold brick_height. destruct (brick_contains K b p); eauto. apply ofold_ok. intros a f Hf. destruct (face_height_ok f p (P f Hf)) as (z & E). rewrite E. cbn [bind]. eauto.
Qed.
Lemma is_under_ok b f : fine (br_facets b) -> good (f_border f) -> exists u, is_under K b f = Ok u.
Proof.
  intros Fb Gf. unfold is_under. destruct (is_perpendicular f) eqn:P; cbn [orb]; eauto. destruct (is_degenerate K f); eauto.
  destruct (SI _ Gf) as (s & E & _). rewrite E. cbn [bind]. destruct (contains_face K b f); eauto.
  destruct (face_height_ok f s P) as (z & Ez). rewrite Ez. cbn [bind]. destruct (brick_height_ok b s) as (t & Et); [intros g Hg; now apply Fb|]. rewrite Et. cbn [bind]. eauto.
Qed.
Lemma add_face_ok b f : fine (br_facets b) -> fine [f] -> exists b', add_face K b f = Ok b'.
Proof.
  intros Fb Ff. destruct (is_under_ok b f) as (u & Eu); auto; [apply Ff; left; auto|]. destruct (occlude_all_ok (br_facets b) [f] Ff Fb) as ([R C] & E').
  unfold add_face. rewrite Eu, E'. cbn [bind]. destruct (br_facets b); cbn [bind]; eauto. destruct (negb (overlaps K b (f_border f))); cbn [bind]; eauto.
  destruct u; cbn [bind]; eauto.
Qed.

(** ** Coverage (C55) *)
Lemma brick_contains_in b p : (forall f, In f (br_facets b) -> fclear f p) -> (brick_contains K b p = true <-> exists f, In f (br_facets b) /\ fin f p).
Proof.
  intros C. unfold brick_contains. rewrite existsb_exists. split; intros (f & Hf & H); exists f; (split; [auto|]); apply shows_in in H || (apply shows_in); auto.
Qed.
Lemma brick_contains_cov b p : brick_contains K b p = true <-> exists f, In f (br_facets b) /\ fcov f p.
Proof. unfold brick_contains. rewrite existsb_exists. split; intros (f & Hf & H); exists f; (split; [auto|]); now apply contains_covered. Qed.
Lemma cover_proof b f b' p : fgood good (br_facets b) -> proper K good f -> add_face K b f = Ok b' ->
  (overlaps K b (f_border f) = false \/ is_under K b f = Ok true \/ never_hidden K f (br_facets b)) ->
  (forall g, In g (br_facets b) -> fclear g p) -> fclear f p ->
  brick_contains K b p = true \/ face_contains K f p = true -> brick_contains K b' p = true.
Proof.
  intros Gb (Gf & Df & Nf) H Cond Cb Cf Ex. rewrite (brick_contains_in b p Cb), (shows_in K f p Cf) in Ex.
  rewrite brick_contains_cov.
  unfold add_face in H. apply bind_Ok in H as (fs & H & E). apply Ok_inj in E. subst b'. cbn [br_facets].
  assert (Keep : fs = br_facets b ++ [f] -> exists x, In x fs /\ fcov x p).
  { intros ->. destruct Ex as [(g & Hg & Ig)|If].
    - exists g. split; [apply in_or_app; auto|now apply inside_covered].
    - exists f. split; [apply in_or_app; cbn; auto|now apply inside_covered]. }
  destruct (br_facets b) as [|g gs] eqn:Eb. { apply Ok_inj in H. auto. }
  destruct (overlaps K b (f_border f)) eqn:Eo; cbn [negb] in H; [|apply Ok_inj in H; auto].
  apply bind_Ok in H as (u & Eu & H). destruct u.
  - apply Ok_inj in H. subst fs. destruct Ex as [(x & Hx & Ix)|If]; [exists x; split; auto; now apply inside_covered|].
    unfold is_under in Eu. rewrite Df, (degenerate_perp f Df) in Eu. cbn [orb] in Eu. apply bind_Ok in Eu as (s & _ & Eu).
    destruct (contains_face K b f) eqn:Ec; [|apply Ok_inj in Eu; discriminate]. rewrite <- Eb in *.
    apply (contains_face_cov K good sgood OK b f p); auto. now apply inside_covered.
  - destruct Cond as [Cond|[Cond|Cond]]; [discriminate|rewrite Eu in Cond; apply Ok_inj in Cond; discriminate|].
    apply bind_Ok in H as ((R & C) & E & H). apply Ok_inj in H. subst fs. rewrite <- Eb in *.
    destruct (occlude_all_cover K good sgood OK p (br_facets b) [f] R C) as (x & Hx & Ix); auto.
    + intros y [<-|[]]; auto.
    + now apply never_hidden_alive.
    + intros y [<-|[]]; auto.
    + destruct Ex as [(x & Hx & Ix)|If]; [exists x|exists f]; (split; [apply in_or_app; cbn; auto|auto]).
    + exists x. split; auto. now apply inside_covered.
Qed.

(** ** Upper envelope (C54) *)
Lemma up_spec R l c i p zl zc : good i -> is_perpendicular l = false -> is_perpendicular c = false -> uncrossed K R l c -> (forall q, inside K i q -> R q) -> inside K i p ->
  height_is K l p zl -> height_is K c p zc -> if up K l c i then (zc < zl)%Qc else (zl <= zc)%Qc.
Proof.
  intros Gi Pl Pc U Ri Ip Hl Hc. unfold up. destruct (SI i Gi) as (s & Es & Is). rewrite Es.
  destruct (height_ok l s Pl) as (sl & Sl). destruct (height_ok c s Pc) as (sc & Sc). unfold height_is in Sl, Sc. rewrite Sl, Sc.
  destruct (Qcltb sc sl) eqn:E; [apply Qcltb_lt in E|apply Qcltb_ge in E].
  - destruct U as [U|[U|U]].
    + exact (U p zl zc (Ri p Ip) Hl Hc).
    + exfalso. pose proof (U s sc sl (Ri s Is) Sc Sl). qo.
    + exfalso. pose proof (U s sl sc (Ri s Is) Sl Sc). subst. qo.
  - destruct U as [U|[U|U]].
    + exfalso. pose proof (U s sl sc (Ri s Is) Sl Sc). qo.
    + apply Qclt_le_weak. exact (U p zc zl (Ri p Ip) Hc Hl).
    + rewrite (U p zl zc (Ri p Ip) Hl Hc). qo.
Qed.
Lemma lost_spec u R l c p zl zc : good (f_border l) -> good (f_border c) -> is_perpendicular l = false -> is_perpendicular c = false ->
  (forall i, In i (k_inter2 K (f_border l) (f_border c)) -> uncrossed K R l c /\ (forall q, inside K i q -> R q)) ->
  height_is K l p zl -> height_is K c p zc -> lost K u l c p -> if u then (zc < zl)%Qc else (zl <= zc)%Qc.
Proof.
  intros Gl Gc Pl Pc U Hl Hc (i & Hi & Eu & Ip). destruct (ok_inter2 _ _ _ OK _ _ Gl Gc) as [Gi _]. rewrite Forall_forall in Gi.
  destruct (U i Hi) as [U1 U2]. pose proof (up_spec R l c i p zl zc (Gi i Hi) Pl Pc U1 U2 Ip Hl Hc) as X. now rewrite Eu in X.
Qed.

(** one pair, seen from [p] *)
Lemma pair_seen l c X Y p : good (f_border l) -> good (f_border c) -> occlude_pair K l c ([], []) = Ok (X, Y) -> fclear l p -> fclear c p ->
  (forall x, In x X -> fclear x p) /\ (forall x, In x Y -> fclear x p) /\ parts K good l X /\ parts K good c Y /\
  (~ fin l p -> filter (shows p) X = []) /\ (~ fin c p -> filter (shows p) Y = []) /\
  (fin l p -> ~ fin c p -> exists x, filter (shows p) X = [x] /\ part_of l x) /\
  (fin c p -> ~ fin l p -> exists x, filter (shows p) Y = [x] /\ part_of c x) /\
  (fin l p -> fin c p -> exists x, (lost K true l c p /\ filter (shows p) X = [x] /\ part_of l x /\ filter (shows p) Y = []) \/
                                   (lost K false l c p /\ filter (shows p) X = [] /\ filter (shows p) Y = [x] /\ part_of c x)).
Proof.
  intros Gl Gc E Cl Cc. apply (pair_spec K good sgood OK) in E as (PX & PY & At); auto. destruct (At p Cl Cc) as (KX & KY & A & B).
  destruct (parts_seen K good l X p PX KX) as [X1 X0]. destruct (parts_seen K good c Y p PY KY) as [Y1 Y0].
  split; [auto|]. split; [auto|]. split; [auto|]. split; [auto|]. split; [|split; [|split; [|split]]].
  - intros N. apply X0. rewrite A. tauto.
  - intros N. apply Y0. rewrite B. tauto.
  - intros I N. apply X1. rewrite A. split; auto. intros L. apply (lost_both K good sgood OK) in L; auto. tauto.
  - intros I N. apply Y1. rewrite B. split; auto. intros L. apply (lost_both K good sgood OK) in L; auto. tauto.
  - intros Il Ic. destruct (both_lost K good sgood OK l c p) as [L|L]; auto.
    + destruct X1 as (x & E1 & E2). { rewrite A. split; auto. intros L'. exact (lost_excl K good sgood OK l c p Gl Gc L L'). }
      exists x. left. repeat (split; auto). apply Y0. rewrite B. tauto.
    + destruct Y1 as (x & E1 & E2). { rewrite B. split; auto. intros L'. exact (lost_excl K good sgood OK l c p Gl Gc L' L). }
      exists x. right. repeat (split; auto). apply X0. rewrite A. tauto.
Qed.

Definition one_list (cs rs : list face2) : Prop :=
  forall k res C, k < length rs -> occlude_all K cs (firstn k rs) = Ok (res, C) -> exists c, C = [c] /\ filter_facets K [c] = [c].
Lemma one_piece_list f rs : one_piece K f rs -> one_list [f] rs.
Proof.
  intros H k res C Hk E. destruct (H k res C Hk E) as (c & -> & D & N). exists c. split; auto. apply filter_all. constructor; [|constructor].
  rewrite D, orb_false_r. unfold face_empty. destruct (outer (f_border c)); auto.
Qed.
Lemma one_list_tail cs r rs L C : one_list cs (r :: rs) -> occlusion K cs r = Ok (L, C) -> one_list C rs.
Proof.
  intros H E k res C' Hk E2. apply (H (S k) (L ++ res) C'); [cbn; lia|]. cbn [firstn occlude_all]. rewrite E. cbn [bind]. rewrite E2. reflexivity.
Qed.
Lemma apart_map_tail r rs : apart K (map f_border (r :: rs)) -> apart K (map f_border rs) /\ forall x p, In x rs -> fin r p -> ~ fin x p.
Proof.
  intros A. inversion A as [|? ? A1 A2]; subst. split; auto. intros x p Hx Ir Ix. rewrite Forall_map, Forall_forall in A1. eapply A1; eauto.
Qed.
(** the facets of a pass, seen from [p] *)
Lemma pass_seen p f rs : forall cs res C,
  (forall c, In c cs -> good (f_border c) /\ part_of f c /\ forall q, fin c q -> fin f q) -> is_perpendicular f = false -> fine rs -> one_list cs rs ->
  apart K (map f_border rs) -> (forall r, In r rs -> uncrossed K (fun q => fin r q /\ fin f q) r f) ->
  (forall c, In c cs -> fclear c p) -> (forall r, In r rs -> fclear r p) -> occlude_all K cs rs = Ok (res, C) ->
  (filter (shows p) cs = [] -> (forall r, In r rs -> ~ fin r p) -> filter (shows p) res = [] /\ filter (shows p) C = []) /\
  (filter (shows p) cs = [] -> forall r, In r rs -> fin r p -> exists x, filter (shows p) res = [x] /\ part_of r x /\ filter (shows p) C = []) /\
  (forall y, filter (shows p) cs = [y] -> (forall r, In r rs -> ~ fin r p) -> filter (shows p) res = [] /\ exists x, filter (shows p) C = [x] /\ part_of f x) /\
  (forall y, filter (shows p) cs = [y] -> forall r, In r rs -> fin r p -> exists x zr zf, height_is K r p zr /\ height_is K f p zf /\
     ((filter (shows p) res = [x] /\ part_of r x /\ filter (shows p) C = [] /\ (zf <= zr)%Qc) \/ (filter (shows p) res = [] /\ filter (shows p) C = [x] /\ part_of f x /\ (zr <= zf)%Qc))).
Proof.
  induction rs as [|r rs IH]; intros cs res C Fc Pf Fr One Ap Un Cc Cr H; cbn [occlude_all] in H.
  - apply Ok_inj in H. injection H as <- <-. split; [|split; [|split]].
    + auto.
    + intros _ r [].
    + intros y E _. split; auto. exists y. split; auto. assert (I : In y cs) by (eapply proj1; apply filter_In; rewrite E; left; auto). apply Fc in I. tauto.
    + intros y _ r [].
  - destruct (One 0 [] cs) as (c & -> & Ef); [cbn; lia|reflexivity|].
    destruct (occlusion K [c] r) as [[L C1]|e|] eqn:E; cbn [bind] in H; try discriminate.
    destruct (occlude_all K C1 rs) as [[res' C']|e|] eqn:E2; cbn [bind] in H; try discriminate. apply Ok_inj in H. injection H as <- <-.
    pose proof (one_list_tail _ _ _ _ _ One E) as One1. unfold occlusion in E. rewrite Ef in E. cbn [ofold] in E. rewrite occlude_pair_acc in E.
    destruct (occlude_pair K r c ([], [])) as [[X Y]|e|] eqn:EP; cbn [bind app] in E; try discriminate. apply Ok_inj in E. injection E as <- <-.
    destruct (Fc c) as (Gc & Pc & Ic); [left; auto|]. destruct (Fr r) as (Gr & Pr); [left; auto|].
    assert (Kc : fclear c p) by (apply Cc; left; auto). assert (Kr : fclear r p) by (apply Cr; left; auto).
    destruct (pair_seen r c X Y p Gr Gc EP Kr Kc) as (KX & KY & PX & PY & S1 & S2 & S3 & S4 & S5).
    destruct (apart_map_tail r rs Ap) as [Ap1 Ex].
    assert (Pcp : is_perpendicular c = false) by (rewrite (perp_part f c); auto).
    destruct (IH Y res' C') as (I1 & I2 & I3 & I4); auto.
    { intros y Hy. destruct PY as [F _]. rewrite Forall_forall in F. apply F in Hy as (P1 & P2 & _ & P4). split; auto. split; [|auto].
      destruct P1 as [Pa Pb], Pc as [Pd Pe]. split; congruence. }
    { intros y Hy. apply Fr. right; auto. }
    { intros y Hy. apply Un. right; auto. }
    { intros y Hy. apply Cr. right; auto. }
    assert (Sc : filter (shows p) [c] = [] -> ~ fin c p).
    { cbn [filter]. destruct (face_contains K c p) eqn:S; try discriminate. intros _ I. apply (shows_in K c p Kc) in I. congruence. }
    assert (Sc' : forall y, filter (shows p) [c] = [y] -> fin c p).
    { intros y. cbn [filter]. destruct (face_contains K c p) eqn:S; try discriminate. intros _. now apply (shows_in K c p Kc) in S. }
    rewrite filter_app.
    assert (None : forall x, In x rs -> fin r p -> ~ fin x p) by (intros; eapply Ex; eauto).
    destruct (inside_dec K (f_border r) p) as [Ir|Nr].
    + assert (Nrs : forall x, In x rs -> ~ fin x p) by (intros; eapply Ex; eauto).
      split; [|split; [|split]].
      * intros _ Nall. exfalso. apply (Nall r); auto. left; auto.
      * intros Ecs r0 Hr0 Ir0. apply Sc in Ecs. destruct Hr0 as [<-|Hr0]; [|exfalso; apply (Nrs r0); auto].
        destruct (S3 Ir Ecs) as (x & Ex1 & Px). specialize (S2 Ecs). destruct (I1 S2 Nrs) as [R1 R2]. exists x. rewrite Ex1, R1, R2. auto.
      * intros y _ Nall. exfalso. apply (Nall r); auto. left; auto.
      * intros y Ecs r0 Hr0 Ir0. apply Sc' in Ecs. destruct Hr0 as [<-|Hr0]; [|exfalso; apply (Nrs r0); auto].
        destruct (height_ok r p Pr) as (zr & Zr). destruct (height_ok f p Pf) as (zf & Zf).
        assert (Zc : height_is K c p zf) by (unfold height_is; rewrite (height_part f c p Pc); exact Zf).
        assert (LS : forall u, lost K u r c p -> if u then (zf < zr)%Qc else (zr <= zf)%Qc).
        { intros u Lu. apply (lost_spec u (fun q => fin r q /\ fin f q) r c p); auto.
          intros i Hi. split.
          - assert (U : uncrossed K (fun q => fin r q /\ fin f q) r f) by (apply Un; left; auto).
            destruct U as [U|[U|U]]; [left|right; left|right; right]; intros q a b Rq Ha Hb; unfold height_is in *; rewrite (height_part f c q Pc) in *; eapply U; eauto.
          - intros q Iq. destruct (inside_inter2 _ _ _ OK (f_border r) (f_border c) q) as [Q1 Q2]; auto. exists i; auto. }
        destruct (S5 Ir Ecs) as (x & [(L & F1 & Px & F2)|(L & F1 & F2 & Px)]).
        -- destruct (I1 F2 Nrs) as [R1 R2]. exists x, zr, zf. split; auto. split; auto. left. rewrite F1, R1, R2. cbn [app]. repeat (split; auto). apply Qclt_le_weak. exact (LS true L).
        -- destruct (I3 x F2 Nrs) as [R1 (x' & R2 & Px')]. exists x', zr, zf. split; auto. split; auto. right. rewrite F1, R1, R2. cbn [app]. repeat (split; auto); try apply Px'. exact (LS false L).
    + specialize (S1 Nr). rewrite S1. cbn [app]. split; [|split; [|split]].
      * intros Ecs Nall. apply Sc in Ecs. apply I1; auto. intros y Hy; apply Nall; right; auto.
      * intros Ecs r0 Hr0 Ir0. apply Sc in Ecs. destruct Hr0 as [<-|Hr0]; [contradiction|]. apply I2; auto.
      * intros y Ecs Nall. apply Sc' in Ecs. destruct (S4 Ecs Nr) as (x & Ex1 & Px). apply (I3 x); auto. intros z Hz; apply Nall; right; auto.
      * intros y Ecs r0 Hr0 Ir0. apply Sc' in Ecs. destruct Hr0 as [<-|Hr0]; [contradiction|]. destruct (S4 Ecs Nr) as (x & Ex1 & Px). apply (I4 x); auto.
Qed.
Lemma seen_list box fs p : seen K (mkBrick box fs) p = filter (shows p) fs.
Proof. reflexivity. Qed.
Lemma shows_not f p : fclear f p -> ~ fin f p -> face_contains K f p = false.
Proof. intros C N. apply not_true_iff_false. now rewrite shows_in. Qed.
Lemma shows_yes f p : fclear f p -> fin f p -> face_contains K f p = true.
Proof. intros C N. now rewrite shows_in. Qed.
(** the facets of an apart list seen from [p] *)
Lemma apart_seen rs p : apart K (map f_border rs) -> (forall r, In r rs -> fclear r p) ->
  ((forall r, In r rs -> ~ fin r p) -> filter (shows p) rs = []) /\ (forall r, In r rs -> fin r p -> exists x, filter (shows p) rs = [x] /\ part_of r x).
Proof.
  intros A C. split.
  - intros N. apply filter_none. intros r Hr. apply shows_not; auto.
  - induction rs as [|x rs IH]; [intros r []|]. apply apart_map_tail in A as [A Ex]. intros r Hr Ir. cbn [filter]. destruct Hr as [<-|Hr].
    + rewrite shows_yes by (auto; apply C; left; auto). exists x. split; [|split; auto]. f_equal. apply filter_none. intros y Hy. apply shows_not; [apply C; right; auto|]. eapply Ex; eauto.
    + rewrite shows_not.
      * apply IH; auto. intros y Hy; apply C; right; auto.
      * apply C; left; auto.
      * intros Ix. eapply Ex; eauto.
Qed.
Lemma part_refl f : part_of f f. Proof. split; auto. Qed.
(** adding a facet that does not overlap the print *)
Lemma envelope_disjoint b f box : fgood good (br_facets b) -> good (f_border f) -> apart K (map f_border (br_facets b)) -> overlaps K b (f_border f) = false ->
  upper_envelope K (br_facets b) f (mkBrick box (br_facets b ++ [f])).
Proof.
  intros Gb Gf A O p Cb Cf. rewrite seen_list, filter_app. cbn [filter]. destruct (apart_seen (br_facets b) p A Cb) as [S0 S1].
  split; [|split; [|split]].
  - intros N Nf. rewrite S0 by auto. now rewrite shows_not.
  - intros N If. rewrite S0 by auto. rewrite shows_yes by auto. exists f. split; auto. apply part_refl.
  - intros g Hg Ig Nf. rewrite (shows_not f p Cf Nf), app_nil_r. auto.
  - intros g Hg Ig If. exfalso. eapply (no_overlap K good sgood OK b (f_border f) p); eauto.
Qed.
Lemma upper_envelope_pass b f box R C : fine (br_facets b) -> fine [f] -> apart K (map f_border (br_facets b)) -> one_piece K f (br_facets b) ->
  (forall r, In r (br_facets b) -> uncrossed K (fun q => fin r q /\ fin f q) r f) ->
  occlude_all K [f] (br_facets b) = Ok (R, C) -> upper_envelope K (br_facets b) f (mkBrick box (R ++ C)).
Proof.
  intros Fb Ff A One Un E p Cb Cf. rewrite seen_list, filter_app. destruct (Ff f) as [Gf Pf]; [left; auto|].
  destruct (pass_seen p f (br_facets b) [f] R C) as (S1 & S2 & S3 & S4); auto.
  { intros c [<-|[]]. split; auto. split; [apply part_refl|auto]. }
  { now apply one_piece_list. }
  { intros c [<-|[]]; auto. }
  assert (N : ~ fin f p -> filter (shows p) [f] = []) by (intros X; cbn [filter]; now rewrite shows_not).
  assert (Y : fin f p -> filter (shows p) [f] = [f]) by (intros X; cbn [filter]; now rewrite shows_yes).
  split; [|split; [|split]].
  - intros Nb Nf. destruct (S1 (N Nf) Nb) as [-> ->]. reflexivity.
  - intros Nb If. destruct (S3 f (Y If) Nb) as [-> (x & -> & Px)]. exists x. auto.
  - intros g Hg Ig Nf. destruct (S2 (N Nf) g Hg Ig) as (x & -> & Px & ->). exists x. auto.
  - intros g Hg Ig If. destruct (S4 f (Y If) g Hg Ig) as (x & zr & zf & Zr & Zf & [(-> & Px & -> & L)|(-> & -> & Px & L)]); exists x, zr, zf; repeat (split; auto).
Qed.
Lemma add_face_nonempty b f : br_facets b <> [] -> add_face K b f =
  (let* fs := (if negb (overlaps K b (f_border f)) then Ok (br_facets b ++ [f])
    else let* u := is_under K b f in if u then Ok (br_facets b) else let* (res, cs) := occlude_all K [f] (br_facets b) in Ok (res ++ cs)) in
   Ok (mkBrick (box_add (br_box b) (face_box f)) fs)).
Proof. unfold add_face. destruct (br_facets b); [congruence|reflexivity]. Qed.
Lemma envelope_many b f : fine (br_facets b) -> proper K good f -> apart K (map f_border (br_facets b)) -> contains_face K b f = false -> one_piece K f (br_facets b) ->
  (forall r, In r (br_facets b) -> uncrossed K (fun q => fin r q /\ fin f q) r f) ->
  exists b', add_face K b f = Ok b' /\ upper_envelope K (br_facets b) f b'.
Proof.
  intros Fb (Gf & Df & Nf) A Nc One Un. pose proof (degenerate_perp f Df) as Pf.
  assert (Ff : fine [f]) by (intros y [<-|[]]; auto).
  destruct (br_facets b) as [|g gs] eqn:Eb.
  { exists (mkBrick (box_add (br_box b) (face_box f)) [f]). unfold add_face. rewrite Eb. split; [reflexivity|]. intros p Cb Cf. split; [|split; [|split; intros g Hg; destruct Hg]].
    - intros _ N. unfold seen. cbn [br_facets filter]. now rewrite shows_not.
    - intros _ I. unfold seen. cbn [br_facets filter]. rewrite shows_yes by auto. exists f. split; auto. apply part_refl. }
  assert (Ne : br_facets b <> []) by congruence. rewrite <- Eb in *. clear Eb g gs. rewrite (add_face_nonempty b f Ne).
  destruct (overlaps K b (f_border f)) eqn:O; cbn [negb].
  - unfold is_under. rewrite Pf, Df. cbn [orb]. destruct (SI _ Gf) as (s & Es & _). rewrite Es. cbn [bind]. rewrite Nc. cbn [bind].
    destruct (occlude_all_ok (br_facets b) [f] Ff Fb) as ([R C] & E). rewrite E. cbn [bind]. eexists. split; [reflexivity|]. now apply upper_envelope_pass.
  - cbn [bind]. eexists. split; [reflexivity|]. apply envelope_disjoint; auto. now apply fine_good.
Qed.
Lemma envelope_two g f : proper K good g -> proper K good f -> no_crossing K g f ->
  exists b', add_face K (brick_of g) f = Ok b' /\ upper_envelope K [g] f b'.
Proof.
  intros (Gg & Dg & Ng) (Gf & Df & Nf) [U1 U2]. pose proof (degenerate_perp f Df) as Pf. pose proof (degenerate_perp g Dg) as Pg.
  assert (Ff : fine [f]) by (intros y [<-|[]]; auto). assert (Fg : fine [g]) by (intros y [<-|[]]; auto).
  destruct (add_face_ok (brick_of g) f Fg Ff) as (b' & E). exists b'. split; auto.
  unfold add_face in E. apply bind_Ok in E as (fs & E & Eb). apply Ok_inj in Eb. subst b'. cbn [brick_of br_facets] in E.
  fold (brick_of g) in E.
  assert (Ag : apart K (map f_border (br_facets (brick_of g)))) by (repeat constructor).
  destruct (overlaps K (brick_of g) (f_border f)) eqn:O; cbn [negb] in E.
  2:{ apply Ok_inj in E. subst fs. apply (envelope_disjoint (brick_of g) f); auto. now apply fine_good. }
  apply bind_Ok in E as (u & Eu & E). destruct u.
  - apply Ok_inj in E. subst fs. unfold is_under in Eu. rewrite Df, Pf in Eu. cbn [orb] in Eu. apply bind_Ok in Eu as (s & Es & Eu).
    destruct (contains_face K (brick_of g) f) eqn:Ec; [|apply Ok_inj in Eu; discriminate].
    assert (Sub : forall p, fcov f p -> fcov g p).
    { intros p Hp. destruct (contains_face_cov K good sgood OK (brick_of g) f p) as (x & [<-|[]] & Hx); auto. now apply fine_good. }
    destruct (SI _ Gf) as (s' & Es' & Is). rewrite Es in Es'. apply Ok_inj in Es'. subst s'.
    destruct (height_ok f s Pf) as (zf & Zf). destruct (height_ok g s Pg) as (zg & Zg). unfold height_is in Zf, Zg.
    assert (Cf : face_contains K f s = true) by (apply contains_covered; now apply inside_covered).
    assert (Cg : face_contains K g s = true) by (apply contains_covered, Sub; now apply inside_covered).
    unfold face_height at 1 in Eu. rewrite Zf, Df, Cf in Eu. cbn [bind negb andb] in Eu.
    assert (Hb : brick_height K (brick_of g) s = Ok (k_rnd K (0 + zg)%Qc)).
    { unfold brick_height, brick_contains. cbn [brick_of br_facets existsb ofold]. rewrite Cg. cbn [orb]. unfold face_height. rewrite Zg, Dg, Cg. cbn [bind negb andb]. reflexivity. }
    rewrite Hb in Eu. cbn [bind] in Eu. apply Ok_inj in Eu. apply Qcleb_le in Eu. rewrite Qcplus_0_l, (height_fixed K (ok_rnd _ _ _ OK) _ _ _ Zg) in Eu.
    assert (Le : forall p a b, fin f p -> height_is K g p a -> height_is K f p b -> (b <= a)%Qc).
    { intros p a b Ip Ha Hb'. destruct (U2 Sub) as [U|[U|U]].
      - apply Qclt_le_weak. exact (U p a b Ip Ha Hb').
      - exfalso. pose proof (U s zf zg Is Zf Zg). qo.
      - rewrite (U p a b Ip Ha Hb'). qo. }
    intros p Cb Kf. rewrite seen_list. assert (Kg : fclear g p) by (apply Cb; left; auto).
    assert (IncF : fin f p -> fin g p). { intros I. apply (clear_covered K (f_border g) p Kg). apply Sub. now apply inside_covered. }
    split; [|split; [|split]]; cbn [filter].
    + intros N _. rewrite shows_not; auto. apply N; left; auto.
    + intros N I. exfalso. apply (N g); [left; auto|auto].
    + intros g0 [<-|[]] I _. rewrite shows_yes by auto. exists g. split; auto. apply part_refl.
    + intros g0 [<-|[]] I I2. rewrite shows_yes by auto. destruct (height_ok g p Pg) as (a & Ha). destruct (height_ok f p Pf) as (b & Hb'). exists g, a, b.
      repeat (split; auto). left. split; [apply part_refl|]. eapply Le; eauto.
  - apply bind_Ok in E as ((R & C) & E & Efs). apply Ok_inj in Efs. subst fs. cbn [occlude_all] in E.
    apply bind_Ok in E as ((L & C1) & E & Er). cbn [bind] in Er. apply Ok_inj in Er. injection Er as <- <-. rewrite app_nil_r.
    unfold occlusion in E. assert (Ef : filter_facets K [f] = [f]).
    { apply filter_all. constructor; [|constructor]. rewrite Df, orb_false_r. unfold face_empty. destruct (outer (f_border f)); auto. }
    rewrite Ef in E. cbn [ofold] in E. apply bind_Ok in E as ((X & Y) & EP & E). apply Ok_inj in E. injection E as <- <-.
    intros p Cb Kf. assert (Kg : fclear g p) by (apply Cb; left; auto). rewrite seen_list, filter_app.
    destruct (pair_seen g f X Y p Gg Gf EP Kg Kf) as (KX & KY & PX & PY & S1 & S2 & S3 & S4 & S5).
    split; [|split; [|split]].
    + intros N Nf'. rewrite S1, S2; auto. apply N; left; auto.
    + intros N I. assert (Ng' : ~ fin g p) by (apply N; left; auto). rewrite S1 by auto. destruct (S4 I Ng') as (x & -> & Px). exists x; auto.
    + intros g0 [<-|[]] I N. rewrite (S2 N). destruct (S3 I N) as (x & -> & Px). exists x; auto.
    + intros g0 [<-|[]] I I2. destruct (height_ok g p Pg) as (a & Ha). destruct (height_ok f p Pf) as (b & Hb').
      assert (LS : forall u, lost K u g f p -> if u then (b < a)%Qc else (a <= b)%Qc).
      { intros u (i & Hi & Eu' & Ip). destruct (ok_inter2 _ _ _ OK _ _ Gg Gf) as [Gi _]. rewrite Forall_forall in Gi.
        pose proof (up_spec (inside K i) g f i p a b (Gi i Hi) Pg Pf (U1 i Hi) (fun q H => H) Ip Ha Hb') as W. now rewrite Eu' in W. }
      destruct (S5 I I2) as (x & [(Lo & F1 & Px & F2)|(Lo & F1 & F2 & Px)]); exists x, a, b; rewrite F1, F2; repeat (split; auto).
      * left. split; auto. apply Qclt_le_weak. exact (LS true Lo).
      * right. split; auto. exact (LS false Lo).
Qed.
End PROOFS.
