(** * Theorems C83, C84: values, and the lifetime of 3DS handlers. *)
From Verif Require Import Base Dbl Geom Decimal Shadow Streams Handlers Surface Projection Raster Unode_proofs Values Spec_values.
From Coq Require Import Permutation.
From Coq Require Import ZArith Lia.
Open Scope nat_scope.

(** ** C83 *)
Record lawful {T} (C : special T) : Prop := mkLawful {
  law_copy : forall v, sp_copy C v = v; law_move : forall v, fst (sp_move C v) = v; law_assign : forall v w, sp_assign C v w = w;
  law_massign : forall v w, fst (sp_massign C v w) = w; law_swap : forall v w, sp_swap C v w = (w, v) }.
Lemma Forall_one {A} (P : A -> Prop) a : Forall P [a] <-> P a.
Proof. split; [intros H; now inversion H | intros H; constructor; auto]. Qed.
Lemma Forall_two {A} (P : A -> Prop) a b : Forall P [a; b] <-> P a /\ P b.
Proof. split; [intros H; inversion H as [|? ? ? F]; inversion F; auto | intros [H H']; constructor; auto]. Qed.
Lemma step_expected {T} (C : special T) (LC : lawful C) : forall r s o, as_expected r s ->
  (Forall (fun x => r x <> None) (needs o) /\ Forall (fun x => r x = None) (defines o) -> exists s', vstep C s o = Some s' /\ as_expected (expected_after r o) s') /\
  (forall s', vstep C s o = Some s' -> Forall (fun x => r x <> None) (needs o) /\ Forall (fun x => r x = None) (defines o)).
Proof.
  intros r s o E.
  assert (P : forall x, (r x = None <-> s x = None)).
  { intros x. specialize (E x). destruct (r x) as [[v|]|]; split; intros H; try congruence. }
  assert (Q : forall x, r x <> None -> exists v, s x = Some v).
  { intros x H. destruct (s x) eqn:F; eauto. exfalso. apply H. apply P; auto. }
  split.
  - destruct o as [x v|x g|x y|x y|x y|x y|x y|x]; cbn [needs defines]; rewrite ?Forall_two, ?Forall_one; intros [N F]; cbn [vstep].
    + apply P in F. rewrite F. eexists; split; [reflexivity|]. intros z. cbn [expected_after]. unfold vset. destruct (z =? x); [auto|apply E].
    + destruct (Q _ N) as (v & Ev). rewrite Ev. eexists; split; [reflexivity|]. intros z. cbn [expected_after]. unfold vset. destruct (z =? x); [|apply E].
      specialize (E x). destruct (r x) as [[w|]|]; cbn [option_map after_change]; congruence.
    + apply P in F. destruct (Q _ N) as (v & Ev). rewrite F, Ev. eexists; split; [reflexivity|]. intros z. cbn [expected_after]. unfold vset. destruct (z =? x); [|apply E].
      rewrite (law_copy C LC). specialize (E y). rewrite Ev in E. auto.
    + apply P in F. destruct (Q _ N) as (v & Ev). rewrite F, Ev. pose proof (law_move C LC v) as M. destruct (sp_move C v) as [n l]. cbn [fst] in M. subst n.
      eexists; split; [reflexivity|]. intros z. cbn [expected_after]. unfold vset. destruct (z =? x); [specialize (E y); rewrite Ev in E; auto|].
      destruct (z =? y); [congruence|apply E].
    + destruct N as [N1 N2]. destruct (Q _ N1) as (v & Ev). destruct (Q _ N2) as (w & Ew). rewrite Ev, Ew. eexists; split; [reflexivity|].
      intros z. cbn [expected_after]. unfold vset. destruct (z =? x); [|apply E]. rewrite (law_assign C LC). specialize (E y). rewrite Ew in E. auto.
    + destruct N as [N1 N2]. destruct (Q _ N1) as (v & Ev). destruct (Q _ N2) as (w & Ew). rewrite Ev, Ew. destruct (Nat.eqb_spec x y) as [X|X].
      * subst y. eexists; split; [reflexivity|]. intros z. cbn [expected_after]. unfold vset. destruct (z =? x); [congruence|apply E].
      * pose proof (law_massign C LC v w) as M. destruct (sp_massign C v w) as [n l]. cbn [fst] in M. subst n. eexists; split; [reflexivity|].
        intros z. cbn [expected_after]. unfold vset. destruct (Nat.eqb_spec z y) as [Y|Y].
        -- subst z. destruct (Nat.eqb_spec y x); [congruence|]. congruence.
        -- destruct (z =? x); [specialize (E y); rewrite Ew in E; auto|apply E].
    + destruct N as [N1 N2]. destruct (Q _ N1) as (v & Ev). destruct (Q _ N2) as (w & Ew). rewrite Ev, Ew. rewrite (law_swap C LC). eexists; split; [reflexivity|].
      intros z. cbn [expected_after]. unfold vset. destruct (Nat.eqb_spec z x) as [X|X].
      * subst z. destruct (Nat.eqb_spec x y) as [Y|Y]; [subst y; specialize (E x); rewrite Ev in E; auto|]. specialize (E y). rewrite Ew in E. auto.
      * destruct (z =? y); [specialize (E x); rewrite Ev in E; auto|apply E].
    + destruct (Q _ N) as (v & Ev). rewrite Ev. eexists; split; [reflexivity|]. intros z. cbn [expected_after]. unfold vset. destruct (z =? x); [auto|apply E].
  - assert (R : forall x v, s x = Some v -> r x <> None) by (intros x v H H'; apply P in H'; congruence).
    assert (R' : forall x, s x = None -> r x = None) by (intros x; apply P).
    intros s'. destruct o as [x v|x g|x y|x y|x y|x y|x y|x]; cbn [needs defines vstep]; rewrite ?Forall_two, ?Forall_one; destruct (s x) eqn:Ex; try discriminate; try (destruct (s y) eqn:Ey; try discriminate); intros _; eauto 7.
Qed.
Theorem lawful_value {T} (C : special T) : lawful C -> value_semantics C.
Proof.
  intros LC os.
  assert (G : forall os r s, as_expected r s -> (forall r', leads r os r' -> exists s', vrun C s os = Some s' /\ as_expected r' s') /\ (forall s', vrun C s os = Some s' -> exists r', leads r os r')).
  { clear os. induction os as [|o os IH]; intros r s E; split.
    - intros r' H. inversion H; subst. exists s. auto.
    - intros s' _. exists r. constructor.
    - intros r' H. inversion H as [|? ? ? ? N D H']; subst. destruct (proj1 (step_expected C LC r s o E) (conj N D)) as (s1 & S1 & E1). cbn [vrun]. rewrite S1. now apply (IH _ s1 E1).
    - intros s' H. cbn [vrun] in H. destruct (vstep C s o) as [s1|] eqn:S1; [|discriminate]. destruct (proj2 (step_expected C LC r s o E) _ S1) as [N D].
      destruct (proj1 (step_expected C LC r s o E) (conj N D)) as (s2 & S2 & E2). rewrite S1 in S2. injection S2 as <-. destruct (proj2 (IH _ s1 E2) s' H) as (r' & L). exists r'. constructor; auto. }
  apply G. intros x. reflexivity.
Qed.

Lemma copies {T} (C : special T) : (forall v, sp_move C v = (v, v)) -> (forall v w, sp_massign C v w = (w, w)) -> (forall v, sp_mself C v = v) -> moves_are_copies C.
Proof.
  intros M A F s x y v H. split; intros s'.
  - intros E. cbn [vstep]. rewrite E, H, M. intros G. injection G as <-. unfold vset. rewrite !Nat.eqb_refl. destruct (Nat.eqb_spec y x); auto.
  - cbn [vstep]. destruct (s x) as [w|] eqn:E; [|discriminate]. rewrite H. destruct (Nat.eqb_spec x y) as [X|X].
    + subst y. rewrite F. intros G. injection G as <-. unfold vset. rewrite Nat.eqb_refl. split; congruence.
    + rewrite A. intros G. injection G as <-. unfold vset. rewrite !Nat.eqb_refl. destruct (Nat.eqb_spec y x); [congruence|]. auto.
Qed.
(** boxes: values, and moving one leaves it as it was *)
Theorem C83_bbox : value_semantics bbox_special /\ moves_are_copies bbox_special.
Proof. split; [apply lawful_value; constructor; intros; reflexivity|]. apply copies; reflexivity. Qed.
(** points and vectors: values, but moving one takes its coordinates *)
Theorem C83_point : forall A S (L : left_over (num A) S), value_semantics (point_special A L).
Proof. intros. apply lawful_value; constructor; intros; reflexivity. Qed.
Theorem C83_vector : forall A S (L : left_over (num A) S), value_semantics (vect_special A L).
Proof. intros. apply lawful_value; constructor; intros; reflexivity. Qed.
(** constructed points have three coordinates, and any other array is refused *)
Theorem C83_point_made : forall l, (length l = 3 -> of_valarray l = Ok l) /\ (length l <> 3 -> of_valarray l = Throw LogicError) /\
  (forall p : point, of_valarray (array3 (px p) (py p) (pz p)) = Ok (array3 (px p) (py p) (pz p)) /\
     coordinate (array3 (px p) (py p) (pz p)) 0 = Ok (px p) /\ coordinate (array3 (px p) (py p) (pz p)) 1 = Ok (py p) /\ coordinate (array3 (px p) (py p) (pz p)) 2 = Ok (pz p)).
Proof.
  intros l. unfold of_valarray. destruct (Nat.eqb_spec (length l) 3); (split; [|split]); try tauto; intros; try tauto; (split; [reflexivity|]); repeat split.
Qed.
(** on three coordinates, sums and comparisons are those of the triples of the other properties *)
Theorem C83_point_triples : forall (p q : point) (v : vect),
  array_plus (array3 (px p) (py p) (pz p)) (array3 (vx v) (vy v) (vz v)) = Ok (let r := pt_add p v in array3 (px r) (py r) (pz r)) /\
  array_eqb (array3 (px p) (py p) (pz p)) (array3 (px q) (py q) (pz q)) = Ok (pt_eqb p q).
Proof. intros. split; [reflexivity|]. unfold array_eqb, array3, pt_eqb. cbn [length Nat.eqb combine forallb fst snd]. now rewrite andb_true_r. Qed.
(** when the library leaves moved-from arrays empty, as libstdc++ does: a moved-from point or vector has no
    coordinates; reading one, adding to it, comparing it are undefined until it is assigned *)
Theorem C83_point_moved : forall A S (L : left_over (num A) S) C s s' x y v, C = point_special A L \/ C = vect_special A L -> (forall l, lo_array L l = []) -> s y = Some v ->
  vstep C s (VMove x y) = Some s' \/ vstep C s (VMoveAssign x y) = Some s' ->
  (x <> y -> s' x = Some v) /\ exists w, s' y = Some w /\ (forall i, coordinate w i = UB) /\
    (forall t : vect, array_plus w (array3 (vx t) (vy t) (vz t)) = UB) /\ (forall p, array_eqb w p = UB /\ array_eqb p w = UB).
Proof.
  intros A S L C s s' x y v HC Z H E. assert (C = point_special A L) as -> by (destruct HC as [->| ->]; reflexivity). clear HC.
  assert ((x <> y -> s' x = Some v) /\ s' y = Some []) as [G ->].
  { destruct E as [E|E]; cbn [vstep] in E; rewrite H in E; destruct (s x) eqn:D; try discriminate; try (destruct (Nat.eqb_spec x y) as [X|X]);
      cbn [point_special sp_move sp_massign sp_mself] in E; rewrite ?Z in E; injection E as <-; unfold vset; rewrite ?Nat.eqb_refl.
    all: try (destruct (Nat.eqb_spec y x); [congruence|auto]).
    all: try (subst y; congruence).
    all: subst y; rewrite ?Nat.eqb_refl; split; [tauto|reflexivity]. }
  split; [exact G|]. exists []. split; [reflexivity|]. split; [intros []; reflexivity|]. split; [reflexivity|]. intros [|a p]; split; reflexivity.
Qed.
(** the other classes are values, whatever the library leaves in moved-from strings, vectors,
    polygons and surfaces *)
Theorem C83_face : forall A S (L : left_over (num A) S), value_semantics (face_special A L).
Proof. intros. apply lawful_value; constructor; intros; reflexivity. Qed.
Theorem C83_face_print : forall A S (L : left_over (num A) S), value_semantics (face2_special A L).
Proof. intros. apply lawful_value; constructor; intros; repeat (match goal with v : face2 |- _ => destruct v end); reflexivity. Qed.
Theorem C83_brick_print : forall A S (L : left_over (num A) S), value_semantics (brick_special A L).
Proof. intros. apply lawful_value; constructor; intros; repeat (match goal with v : brick |- _ => destruct v end); reflexivity. Qed.
Theorem C83_foot_print : forall A S (L : left_over (num A) S), value_semantics (foot_special A L).
Proof. intros. apply lawful_value; constructor; intros; repeat (match goal with v : footprint |- _ => destruct v as [? ? ? []] end); reflexivity. Qed.
Theorem C83_raster_print : forall A S (L : left_over (num A) S), value_semantics (raster_special A L).
Proof. intros. apply lawful_value; constructor; intros; repeat (match goal with v : raster A |- _ => destruct v end); reflexivity. Qed.
Theorem C83_camera : forall A S (L : left_over (num A) S), value_semantics (camera_special A L).
Proof. intros. apply lawful_value; constructor; intros; repeat (match goal with v : camera |- _ => destruct v end); reflexivity. Qed.
Theorem C83_unode : forall A S (L : left_over (num A) S), value_semantics (unode_special A L).
Proof. intros. apply lawful_value; constructor; intros; repeat (match goal with v : unode _ |- _ => destruct v as [? ? ? []] end); reflexivity. Qed.
Theorem C83_scene : forall A S (L : left_over (num A) S), value_semantics (scene_special A L).
Proof. intros. apply lawful_value; constructor; intros; repeat (match goal with v : scene _ |- _ => destruct v as [? ? ? [? ? ? []]] end); reflexivity. Qed.
(** a moved-from raster keeps its size, though its pixels are gone: reading any of them throws *)
Theorem C83_raster_moved : forall A S (L : left_over (num A) S) s s' x y v, s y = Some v -> x <> y ->
  vstep (raster_special A L) s (VMove x y) = Some s' \/ vstep (raster_special A L) s (VMoveAssign x y) = Some s' ->
  s' x = Some v /\ exists w, s' y = Some w /\ r_height A w = r_height A v /\ r_width A w = r_width A v /\ r_px A w = r_px A v /\
    r_epsg A w = r_epsg A v /\ r_offset A w = r_offset A v /\
    ((forall l, lo_image L l = []) -> forall i j, raster_at A (r_image A) w i j = Throw OutOfRange) /\
    ((forall l, lo_hits L l = []) -> forall i j, raster_at A (r_hits A) w i j = Throw OutOfRange).
Proof.
  intros A S L s s' x y v H X [E|E]; cbn [vstep] in E; rewrite H in E; destruct (s x); try discriminate; try (destruct (Nat.eqb_spec x y); [congruence|]).
  all: cbn [raster_special sp_move sp_massign] in E; injection E as <-; unfold vset; rewrite !Nat.eqb_refl; destruct (Nat.eqb_spec y x); [congruence|].
  all: split; [destruct v; reflexivity|]; exists (raster_left A L v); split; [reflexivity|]; cbn; repeat (split; [reflexivity|]).
  all: split; intros Z i j; unfold raster_at, raster_left; cbn [r_height r_width r_image r_hits]; destruct ((_ <? i) && _)%N; auto; rewrite Z; unfold vatN, nsize; cbn [length]; now destruct (wrap64 _).
Qed.
(** a moved-from print keeps its box, though its faces are gone *)
Theorem C83_print_moved : forall A S (L : left_over (num A) S) s s' x y v, s y = Some v -> x <> y ->
  vstep (brick_special A L) s (VMove x y) = Some s' \/ vstep (brick_special A L) s (VMoveAssign x y) = Some s' ->
  s' x = Some v /\ exists w, s' y = Some w /\ br_box w = br_box v /\ br_facets w = lo_facets L (br_facets v).
Proof.
  intros A S L s s' x y v H X [E|E]; cbn [vstep] in E; rewrite H in E; destruct (s x); try discriminate; try (destruct (Nat.eqb_spec x y); [congruence|]).
  all: cbn [brick_special sp_move sp_massign] in E; injection E as <-; unfold vset; rewrite !Nat.eqb_refl; destruct (Nat.eqb_spec y x); [congruence|].
  all: split; [destruct v; reflexivity|]; exists (brick_left A L v); auto.
Qed.
(** a camera can only be made without rotations: any rotation is undefined behaviour *)
Theorem C83_camera_rotations : forall matrix n cal pos rotations,
  (rotations = [] -> camera_make matrix n cal pos rotations = Ok (mkCamera n cal pos aff_id)) /\
  (rotations <> [] -> camera_make matrix n cal pos rotations = UB).
Proof. intros matrix n cal pos [|r l]; split; intros H; congruence || reflexivity. Qed.

(** without rotations, a camera's calibration sends (u, v) to (f sx u + cx, f sy v + cy) *)
Definition calibrate (c : camera) (u v : Qc) : Qc * Qc :=
  let '((a, b, t), (d, e, t')) := cam_calibration c in (a * u + b * v + t, d * u + e * v + t')%Qc.
Theorem C83_camera_calibration : forall matrix tod n f sx sy pp pos, exists c, camera_calibrated matrix tod n f sx sy pp pos [] = Ok c /\
  cam_name c = n /\ cam_position c = pos /\ (forall p, aff_apply (cam_orientation c) p = p) /\
  (forall u v, calibrate c u v = (qd (dmul f sx) * u + qd (tod (x2 pp)), qd (dmul f sy) * v + qd (tod (y2 pp)))%Qc).
Proof.
  intros. eexists. split; [reflexivity|]. cbn [cam_name cam_position cam_orientation]. split; [auto|]. split; [auto|]. split; [apply aff_id_apply|].
  intros u v. unfold calibrate. cbn [cam_calibration]. f_equal; ring.
Qed.
Theorem C83_camera_square : forall matrix tod n f pp pos, exists c, camera_square matrix tod n f pp pos [] = Ok c /\
  cam_name c = n /\ cam_position c = pos /\ (forall p, aff_apply (cam_orientation c) p = p) /\
  (forall u v, calibrate c u v = (qd f * u + qd (tod (x2 pp)), qd f * v + qd (tod (y2 pp)))%Qc).
Proof.
  intros. eexists. split; [reflexivity|]. cbn [cam_name cam_position cam_orientation]. split; [auto|]. split; [auto|]. split; [apply aff_id_apply|].
  intros u v. unfold calibrate. cbn [cam_calibration]. f_equal; ring.
Qed.

(** examples: a program whose variables are copied, changed, moved and swapped *)
Definition program {T} (a b : T) (g : T -> T) : list (vop T) :=
  [VMake 0 a; VMake 1 b; VCopy 2 0; VChange 2 g; VSwap 0 1; VMove 3 0; VAssign 0 2; VMoveAssign 1 2; VSwap 1 1; VDestroy 2].
Example C83_example : forall T (a b : T) (g : T -> T), exists r, leads nothing (program a b g) r /\
  r 0 = Some (Holds (g a)) /\ r 1 = Some (Holds (g a)) /\ r 2 = None /\ r 3 = Some (Holds b).
Proof. intros. eexists. split; [|split; [|split; [|split]]]. 1: unfold program; repeat (apply Leads_cons; [repeat constructor; discriminate|repeat constructor|]); apply Leads_nil. all: reflexivity. Qed.
(** a class whose copy constructor forgets a member is not a value *)
Example C83_wrong : ~ value_semantics (mkSpecial (fun o : nat * nat => (fst o, 0)) (fun o => (o, o)) (fun _ o => o) (fun _ o => (o, o)) (fun v => v) (fun a b => (b, a))).
Proof.
  intros H. destruct (H [VMake 0 (1, 1); VCopy 1 0]) as [F _]. destruct (F (expected_after (expected_after nothing (VMake 0 (1, 1))) (VCopy 1 0))) as (s & E & W).
  - repeat (apply Leads_cons; [repeat constructor; discriminate|repeat constructor|]); apply Leads_nil.
  - cbn in E. injection E as <-. specialize (W 1). cbn in W. discriminate.
Qed.

(** ** C84 *)
Definition names (h : handles) : list nat := map fst (hd_alive h).
(** every name once, pointers allocated *)
Definition sane (h : handles) : Prop := NoDup (names h) /\ (forall x k, In (x, Some k) (hd_alive h) -> k < hd_next h) /\ (forall k, In k (hd_freed h) -> k < hd_next h).
(** a handler with a null or released file, or two handlers of the same file *)
Definition broken (h : handles) : Prop :=
  (exists x p, In (x, p) (hd_alive h) /\ hd_readable h p = false) \/ (exists x y p, x <> y /\ In (x, p) (hd_alive h) /\ In (y, p) (hd_alive h)).
(** the files that are open and those released are all the files *)
Definition kept (h : handles) : Prop := Permutation (map snd (hd_alive h) ++ map Some (hd_freed h)) (map Some (files h)).

Lemma find_in (l : list (nat * option nat)) x p : option_map snd (find (fun e => fst e =? x) l) = Some p -> In (x, p) l.
Proof.
  destruct (find _ l) as [[y q]|] eqn:F; [|discriminate]. cbn. intros E. injection E as <-. apply find_some in F as [F G]. cbn in G. apply Nat.eqb_eq in G. now subst y.
Qed.
Lemma find_none (l : list (nat * option nat)) x : option_map snd (find (fun e => fst e =? x) l) = None -> ~ In x (map fst l).
Proof.
  destruct (find _ l) as [e|] eqn:F; [discriminate|]. intros _ H. apply in_map_iff in H as ((y & q) & E & H). cbn in E. subst y. apply (find_none _ _ F) in H. cbn in H. now rewrite Nat.eqb_refl in H.
Qed.
Lemma in_find (l : list (nat * option nat)) x p : NoDup (map fst l) -> In (x, p) l -> option_map snd (find (fun e => fst e =? x) l) = Some p.
Proof.
  induction l as [|(y & q) l IH]; intros N H; [easy|]. cbn [map fst] in N. inversion N as [|? ? N1 N2]; subst. cbn [find fst]. destruct H as [H|H].
  - injection H as -> ->. now rewrite Nat.eqb_refl.
  - destruct (Nat.eqb_spec y x) as [->|_]; [|auto]. exfalso. apply N1. apply in_map_iff. exists (x, p). auto.
Qed.
Lemma same_pointer (l : list (nat * option nat)) x p q : NoDup (map fst l) -> In (x, p) l -> In (x, q) l -> p = q.
Proof. intros N H K. apply (in_find _ _ _ N) in H. apply (in_find _ _ _ N) in K. congruence. Qed.
Definition assigned (x : nat) (p : option nat) (l : list (nat * option nat)) := map (fun e : nat * option nat => if fst e =? x then (x, p) else e) l.
Lemma assigned_names x p l : map fst (assigned x p l) = map fst l.
Proof. unfold assigned. rewrite map_map. apply map_ext. intros (y & q). cbn. destruct (Nat.eqb_spec y x); cbn; congruence. Qed.
Lemma in_assigned x p l y q : In (y, q) (assigned x p l) <-> (y = x /\ q = p /\ In x (map fst l)) \/ (y <> x /\ In (y, q) l).
Proof.
  unfold assigned. rewrite in_map_iff. split.
  - intros ((z & r) & E & H). cbn in E. destruct (Nat.eqb_spec z x) as [Z|Z]; injection E as <- <-; [left|right]; auto. subst z. split; [auto|]. split; [auto|]. apply in_map_iff. exists (x, r). auto.
  - intros [(-> & -> & H)|(N & H)].
    + apply in_map_iff in H as ((z & r) & E & H). cbn in E. subst z. exists (x, r). cbn. now rewrite Nat.eqb_refl.
    + exists (y, q). cbn. destruct (Nat.eqb_spec y x); [congruence|]. auto.
Qed.
Lemma assigned_self x p l : NoDup (map fst l) -> In (x, p) l -> assigned x p l = l.
Proof.
  intros N H. unfold assigned. transitivity (map (fun e => e) l); [|apply map_id]. apply map_ext_in. intros (y & q) K. cbn. destruct (Nat.eqb_spec y x) as [->|]; [|auto]. f_equal. apply (same_pointer l x); auto.
Qed.
Definition removed (x : nat) (l : list (nat * option nat)) := filter (fun e : nat * option nat => negb (fst e =? x)) l.
Lemma in_removed x l y q : In (y, q) (removed x l) <-> y <> x /\ In (y, q) l.
Proof. unfold removed. rewrite filter_In. cbn. rewrite negb_true_iff, Nat.eqb_neq. tauto. Qed.
Lemma removed_names x l : NoDup (map fst l) -> NoDup (map fst (removed x l)).
Proof.
  induction l as [|(y & q) l IH]; intros N; [constructor|]. inversion N as [|? ? N1 N2]; subst. cbn. destruct (y =? x); cbn; auto. constructor; auto.
  intros H. apply N1. apply in_map_iff in H as ((z & r) & E & H). cbn in E. subst z. apply in_removed in H as [_ H]. apply in_map_iff. exists (y, r). auto.
Qed.
Lemma removed_perm x p l : NoDup (map fst l) -> In (x, p) l -> Permutation l ((x, p) :: removed x l).
Proof.
  induction l as [|(y & q) l IH]; intros N H; [easy|]. inversion N as [|? ? N1 N2]; subst. cbn [removed filter fst]. destruct H as [H|H].
  - injection H as -> ->. rewrite Nat.eqb_refl. cbn [negb]. constructor. rewrite (proj2 (filter_ext_in_iff _ (fun _ => true) l)).
    + clear. induction l; cbn; auto.
    + intros (z & r) K. cbn. destruct (Nat.eqb_spec z x); auto. subst z. exfalso. apply N1. apply in_map_iff. exists (x, r). auto.
  - destruct (Nat.eqb_spec y x) as [->|Y]; cbn [negb]; [exfalso; apply N1; apply in_map_iff; exists (x, p); auto|]. rewrite (IH N2 H) at 1. fold (removed x l). apply perm_swap.
Qed.
Lemma readable_some h p : hd_readable h p = true -> exists k, p = Some k /\ ~ In k (hd_freed h).
Proof.
  destruct p as [k|]; cbn; [|discriminate]. rewrite negb_true_iff. intros E. exists k. split; auto. intros H. assert (existsb (Nat.eqb k) (hd_freed h) = true); [|congruence]. apply existsb_exists. exists k. split; auto. apply Nat.eqb_refl.
Qed.
Lemma unreadable h p : hd_readable h p = false <-> match p with None => True | Some k => In k (hd_freed h) end.
Proof.
  destruct p as [k|]; cbn; [|tauto]. rewrite negb_false_iff, existsb_exists. split.
  - intros (j & H & E). apply Nat.eqb_eq in E. now subst j.
  - intros H. exists k. split; auto. apply Nat.eqb_refl.
Qed.
Lemma step_sane h o h' : sane h -> hstep h o = Some (Ok h') -> sane h'.
Proof.
  intros (N & P & F) E. destruct o as [x ok|x|x y|x y|x|x]; cbn [hstep] in E.
  - destruct (hd_find h x) eqn:D; [discriminate|]. apply find_none in D. injection E as <-. destruct ok; (split; [|split]); cbn [names hd_alive hd_next hd_freed map fst] in *.
    + constructor; auto.
    + intros z k [Z|Z]; [injection Z as <- <-; lia|]. apply P in Z. lia.
    + intros k K. apply F in K. lia.
    + constructor; auto.
    + intros z k [Z|Z]; [discriminate|]. now apply P in Z.
    + auto.
  - destruct (hd_find h x) eqn:D; [discriminate|]. apply find_none in D. injection E as <-. (split; [|split]); cbn [names hd_alive hd_next hd_freed map fst] in *.
    + constructor; auto.
    + intros z k [Z|Z]; [injection Z as <- <-; lia|]. apply P in Z. lia.
    + intros k K. apply F in K. lia.
  - destruct (hd_find h x) eqn:D; [discriminate|]. apply find_none in D. destruct (hd_find h y) as [p|] eqn:D'; [|discriminate]. apply find_in in D'. injection E as <-. (split; [|split]); cbn [names hd_alive hd_next hd_freed map fst] in *.
    + constructor; auto.
    + intros z k [Z|Z]; [injection Z as <- ->; eauto|]. now apply P in Z.
    + auto.
  - destruct (hd_find h x) as [q|] eqn:D; [|discriminate]. destruct (hd_find h y) as [p|] eqn:D'; [|discriminate]. apply find_in in D'. injection E as <-. fold (assigned x p (hd_alive h)). (split; [|split]); cbn [hd_alive hd_next hd_freed].
    + unfold names. cbn [hd_alive]. now rewrite assigned_names.
    + intros z k Z. apply in_assigned in Z as [(_ & <- & _)|(_ & Z)]; eauto.
    + auto.
  - destruct (hd_find h x) as [p|]; [|discriminate]. destruct (hd_readable h p); [|discriminate]. injection E as <-. repeat split; auto.
  - destruct (hd_find h x) as [p|] eqn:D; [|discriminate]. apply find_in in D. destruct (hd_readable h p) eqn:R; [|discriminate]. injection E as <-. fold (removed x (hd_alive h)). (split; [|split]); cbn [hd_alive hd_next hd_freed].
    + now apply removed_names.
    + intros z k Z. apply in_removed in Z as [_ Z]. eauto.
    + apply readable_some in R as (k & -> & R). intros j [<-|J]; eauto.
Qed.
(** a broken state stays broken until something undefined happens *)
Lemma step_broken h o h' : sane h -> broken h -> hstep h o = Some (Ok h') -> broken h'.
Proof.
  intros (N & P & F) B E. destruct o as [x ok|x|x y|x y|x|x]; cbn [hstep] in E.
  - destruct (hd_find h x) eqn:D; [discriminate|]. injection E as <-. destruct B as [(z & p & Z & R)|(z & w & p & Z & W & V)].
    + left. exists z, p. destruct ok; cbn [hd_alive]; split; auto; right; auto.
    + right. exists z, w, p. destruct ok; cbn [hd_alive]; repeat split; auto; right; auto.
  - destruct (hd_find h x) eqn:D; [discriminate|]. injection E as <-. destruct B as [(z & p & Z & R)|(z & w & p & Z & W & V)].
    + left. exists z, p. cbn [hd_alive]; split; auto; right; auto.
    + right. exists z, w, p. cbn [hd_alive]; repeat split; auto; right; auto.
  - destruct (hd_find h x) eqn:D; [discriminate|]. destruct (hd_find h y) as [q|] eqn:D'; [|discriminate]. injection E as <-. destruct B as [(z & p & Z & R)|(z & w & p & Z & W & V)].
    + left. exists z, p. cbn [hd_alive]; split; auto; right; auto.
    + right. exists z, w, p. cbn [hd_alive]; repeat split; auto; right; auto.
  - destruct (hd_find h x) as [q|] eqn:D; [|discriminate]. destruct (hd_find h y) as [p|] eqn:D'; [|discriminate]. apply find_in in D'. apply find_in in D. injection E as <-. fold (assigned x p (hd_alive h)).
    destruct (Nat.eq_dec x y) as [->|X].
    + rewrite assigned_self by auto. destruct h; auto.
    + right. exists x, y, p. cbn [hd_alive]. split; [auto|]. split; apply in_assigned; [left|right]; auto. split; auto. split; auto. apply in_map_iff. exists (x, q). auto.
  - destruct (hd_find h x) as [p|]; [|discriminate]. destruct (hd_readable h p); [|discriminate]. injection E as <-. auto.
  - destruct (hd_find h x) as [p|] eqn:D; [|discriminate]. apply find_in in D. destruct (hd_readable h p) eqn:R; [|discriminate]. injection E as <-. fold (removed x (hd_alive h)).
    pose proof R as R'. apply readable_some in R' as (k & -> & K). destruct B as [(z & q & Z & U)|(z & w & q & Z & W & V)].
    + left. exists z, q. cbn [hd_alive]. split.
      * apply in_removed. split; auto. intros ->. assert (q = Some k) by (apply (same_pointer (hd_alive h) x); auto). congruence.
      * apply unreadable in U. apply unreadable. cbn [hd_freed]. destruct q; auto. right. auto.
    + destruct (Nat.eq_dec z x) as [->|Zx].
      * left. exists w, q. assert (q = Some k) by (apply (same_pointer (hd_alive h) x); auto). subst q. split; [cbn [hd_alive]; apply in_removed; auto|]. apply unreadable. now left.
      * destruct (Nat.eq_dec w x) as [->|Wx].
        -- left. exists z, q. assert (q = Some k) by (apply (same_pointer (hd_alive h) x); auto). subst q. split; [cbn [hd_alive]; apply in_removed; auto|]. apply unreadable. now left.
        -- right. exists z, w, q. cbn [hd_alive]. split; [auto|]. split; apply in_removed; auto.
Qed.
Lemma step_badly h o h' : sane h -> ~ well_kept o -> hstep h o = Some (Ok h') -> broken h'.
Proof.
  intros (N & P & F) B E. destruct o as [x ok|x|x y|x y|x|x]; cbn [hstep well_kept] in *; try tauto.
  - destruct ok; [congruence|]. destruct (hd_find h x); [discriminate|]. injection E as <-. left. exists x, None. split; [left|]; auto.
  - destruct (hd_find h x) eqn:D; [discriminate|]. destruct (hd_find h y) as [q|] eqn:D'; [|discriminate]. apply find_none in D. apply find_in in D'. injection E as <-. right. exists x, y, q. cbn [hd_alive]. split; [|split; [left|right]; auto].
    intros ->. apply D. apply in_map_iff. exists (y, q). auto.
  - destruct (hd_find h x) as [q|] eqn:D; [|discriminate]. destruct (hd_find h y) as [p|] eqn:D'; [|discriminate]. apply find_in in D'. apply find_in in D. injection E as <-. fold (assigned x p (hd_alive h)).
    right. exists x, y, p. cbn [hd_alive]. split; [auto|]. split; apply in_assigned; [left|right]; auto. split; auto. split; auto. apply in_map_iff. exists (x, q). auto.
Qed.
Lemma seq_next n : seq 0 (S n) = seq 0 n ++ [n].
Proof. now rewrite seq_S. Qed.
Lemma kept_new h x : kept h -> kept (mkHandles ((x, Some (hd_next h)) :: hd_alive h) (S (hd_next h)) (hd_freed h)).
Proof. unfold kept, files. cbn [hd_alive hd_next hd_freed map snd app]. intros K. rewrite seq_next, map_app. rewrite K. cbn [map]. apply Permutation_cons_append. Qed.
Lemma kept_fine h x p : kept h -> In (x, p) (hd_alive h) -> hd_readable h p = true.
Proof.
  intros K H. destruct (hd_readable h p) eqn:R; auto. exfalso. apply unreadable in R. unfold kept in K. assert (M : In p (map snd (hd_alive h))) by (apply in_map_iff; exists (x, p); auto). destruct p as [k|].
  - assert (ND : NoDup (map snd (hd_alive h) ++ map Some (hd_freed h))).
    { apply (Permutation_NoDup (l := map Some (files h))); [now symmetry|]. apply FinFun.Injective_map_NoDup; [intros a b; congruence|]. apply seq_NoDup. }
    apply in_split in M as (l1 & l2 & M). rewrite M in ND. rewrite <- app_assoc in ND. cbn [app] in ND. apply NoDup_remove_2 in ND. apply ND. apply in_or_app. right. apply in_or_app. right. apply in_map_iff. exists k. auto.
  - assert (Q : In None (map Some (files h))) by (rewrite <- K; apply in_or_app; auto). apply in_map_iff in Q as (k & Q & _). discriminate.
Qed.
Lemma step_kept h o r : sane h -> kept h -> well_kept o -> hstep h o = Some r -> exists h', r = Ok h' /\ kept h'.
Proof.
  intros (N & P & F) K W E. destruct o as [x ok|x|x y|x y|x|x]; cbn [hstep well_kept] in *; try tauto.
  - subst ok. destruct (hd_find h x); [discriminate|]. injection E as <-. eexists; split; [reflexivity|]. now apply kept_new.
  - destruct (hd_find h x); [discriminate|]. injection E as <-. eexists; split; [reflexivity|]. now apply kept_new.
  - subst y. destruct (hd_find h x) as [q|] eqn:D; [|discriminate]. apply find_in in D. injection E as <-. fold (assigned x q (hd_alive h)). rewrite assigned_self by auto. exists h. destruct h; auto.
  - destruct (hd_find h x) as [p|] eqn:D; [|discriminate]. apply find_in in D. rewrite (kept_fine _ _ _ K D) in E. injection E as <-. eauto.
  - destruct (hd_find h x) as [p|] eqn:D; [|discriminate]. apply find_in in D. pose proof (kept_fine _ _ _ K D) as R. rewrite R in E. injection E as <-. eexists; split; [reflexivity|]. apply readable_some in R as (k & -> & _). fold (removed x (hd_alive h)).
    unfold kept in *. cbn [hd_alive hd_freed]. unfold files in *. cbn [hd_next map]. rewrite <- K. rewrite (Permutation_map snd (removed_perm x (Some k) (hd_alive h) N D)). cbn [map snd app]. symmetry. apply Permutation_middle.
Qed.
Lemma sane_empty : sane hd_empty. Proof. split; [constructor|]. split; cbn; tauto. Qed.
Lemma kept_empty : kept hd_empty. Proof. constructor. Qed.
(** programs that keep their handlers well never do anything undefined: at any point, every file
    is either held by exactly one handler or has been released exactly once *)
Theorem C84_sound : forall os r, hrun hd_empty os = Some r -> Forall well_kept os ->
  exists h, r = Ok h /\ Permutation (map snd (hd_alive h) ++ map Some (hd_freed h)) (map Some (files h)) /\ NoDup (map fst (hd_alive h)).
Proof.
  intros os. assert (G : forall h, sane h -> kept h -> forall r, hrun h os = Some r -> Forall well_kept os -> exists h, r = Ok h /\ kept h /\ sane h).
  { induction os as [|o os IH]; intros h N K r H W; cbn [hrun] in H; [injection H as <-; eauto|]. inversion W as [|? ? W1 W2]; subst.
    destruct (hstep h o) as [q|] eqn:E; [|discriminate]. destruct (step_kept _ _ _ N K W1 E) as (h1 & -> & K1). apply (IH h1); auto. now apply (step_sane h o). }
  intros r H W. destruct (G _ sane_empty kept_empty _ H W) as (h & E & K & (N & _)). exists h. auto.
Qed.
(** and conversely: a program that runs to the end of the lives of its handlers without undefined
    behaviour has kept them well *)
Theorem C84_complete : forall os h, hrun hd_empty os = Some (Ok h) -> hd_alive h = [] -> Forall well_kept os /\ Permutation (hd_freed h) (files h).
Proof.
  assert (B : forall os h h', sane h -> broken h -> hrun h os = Some (Ok h') -> broken h').
  { induction os as [|o os IH]; intros h h' N B H; cbn [hrun] in H; [injection H as <-; auto|]. destruct (hstep h o) as [[h1| |]|] eqn:E; try discriminate. apply (IH h1); auto; [now apply (step_sane h o)|now apply (step_broken h o)]. }
  assert (G : forall os h h', sane h -> kept h -> hrun h os = Some (Ok h') -> hd_alive h' = [] -> Forall well_kept os /\ kept h').
  { induction os as [|o os IH]; intros h h' N K H A; cbn [hrun] in H; [injection H as <-; auto|]. destruct (hstep h o) as [[h1| |]|] eqn:E; try discriminate.
    assert (D : well_kept o \/ ~ well_kept o) by (destruct o as [x []| | |x y| |]; cbn; try tauto; try (right; discriminate); lia).
    destruct D as [W|W].
    - destruct (step_kept _ _ _ N K W E) as (h2 & X & K1). apply Ok_inj in X. subst h2. destruct (IH h1 h') as [U V]; auto. now apply (step_sane h o).
    - exfalso. assert (Z : broken h') by (apply (B os h1); auto; [now apply (step_sane h o)|now apply (step_badly h o)]). destruct Z as [(x & p & Z & _)|(x & y & p & _ & Z & _)]; rewrite A in Z; destruct Z. }
  intros os h H A. destruct (G _ _ _ sane_empty kept_empty H A) as [W K]. split; auto. unfold kept in K. rewrite A in K. cbn [map app] in K.
  apply (Permutation_map (fun o => match o with Some k => k | None => 0 end)) in K. now rewrite !map_map, !map_id in K.
Qed.
(** a scene read from a 3DS file and written to another *)
Example C84_example : hrun hd_empty [HOpen 0 true; HNew 1; HUse 0; HUse 1; HAssign 1 1; HDestroy 1; HDestroy 0] = Some (Ok (mkHandles [] 2 [0; 1])).
Proof. reflexivity. Qed.
(** a copy of a handler ends in a double free; a file that cannot be loaded in the release of null *)
Theorem C84_copy_refuted : hrun hd_empty [HOpen 0 true; HCopy 1 0; HDestroy 1; HDestroy 0] = Some UB.
Proof. reflexivity. Qed.
Theorem C84_load_refuted : hrun hd_empty [HOpen 0 false; HDestroy 0] = Some UB.
Proof. reflexivity. Qed.
