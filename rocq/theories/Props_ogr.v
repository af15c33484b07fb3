(** * Theorems on vector files: C67, C68. *)
From Coq Require Strings.String.
From Verif Require Import Base Dbl Dbl_facts Geom Decimal Shadow Streams Handlers Surface Projection Spec_projection Projection_proofs Print_proofs Envelope_proofs Raster Raster_proofs Ogr Spec_ogr.
Import Coq.Strings.String.StringSyntax.
Delimit Scope string_scope with string.
Open Scope nat_scope.

Lemma p2_ext a b : x2 a = x2 b -> y2 a = y2 b -> a = b.
Proof. destruct a as [a1 a2], b as [b1 b2]. cbn [x2 y2]. now intros -> ->. Qed.
Lemma p2_eqb_spec a b : p2_eqb a b = true <-> a = b.
Proof. unfold p2_eqb. rewrite Bool.andb_true_iff, !Qceqb_eq. split; [intros [A B]; now apply p2_ext|now intros ->]. Qed.
Lemma p2_eqb_neq a b : a <> b -> p2_eqb a b = false.
Proof. intros N. destruct (p2_eqb a b) eqn:E; auto. now apply p2_eqb_spec in E. Qed.
Lemma stored_out K ref l m : Forall2 (stored K ref) l m -> m = map (point_out K ref) l.
Proof. induction 1 as [|p q l m [A B] F IH]; cbn [map]; auto. f_equal; auto. now apply p2_ext. Qed.
Lemma fits_out K ref l : (forall p, In p l -> fits_at K ref p) -> map (point_out K ref) l = map (moved ref) l.
Proof. intros H. apply map_ext_in. intros p I. destruct (H p I) as [A B]. apply p2_ext; cbn [point_out x2 y2]; [exact A|exact B]. Qed.
Lemma moved_inj ref p q : moved ref p = moved ref q -> p = q.
Proof.
  intros E. apply p2_ext.
  - pose proof (f_equal x2 E) as X. cbn [moved x2] in X. assert (x2 p + qd (px ref) + - qd (px ref) = x2 q + qd (px ref) + - qd (px ref))%Qc as Y by (now rewrite X). rewrite <- !Qcplus_assoc, Qcplus_opp_r, !Qcplus_0_r in Y. exact Y.
  - pose proof (f_equal y2 E) as X. cbn [moved y2] in X. assert (y2 p + qd (py ref) + - qd (py ref) = y2 q + qd (py ref) + - qd (py ref))%Qc as Y by (now rewrite X). rewrite <- !Qcplus_assoc, Qcplus_opp_r, !Qcplus_0_r in Y. exact Y.
Qed.
Lemma last_snoc {X} (l : list X) a d : last (l ++ [a]) d = a.
Proof. induction l as [|b l IH]; auto. cbn [app last]. destruct (l ++ [a]) eqn:E; auto. now destruct l. Qed.
Lemma close_open l : open_ring l -> close_ring l = l ++ [hd (P2 0 0) l].
Proof.
  intros (a & m & b & -> & N). unfold close_ring. destruct (m ++ [b]) as [|c r] eqn:E; [now destruct m|]. rewrite <- E.
  rewrite (p2_eqb_neq a); auto. change (a :: m ++ [b]) with ((a :: m) ++ [b]). rewrite last_snoc. auto.
Qed.
Lemma close_shut l : shut_ring l -> close_ring l = l.
Proof.
  intros (a & m & ->). unfold close_ring. destruct (m ++ [a]) as [|c r] eqn:E; [now destruct m|]. rewrite <- E.
  change (a :: m ++ [a]) with ((a :: m) ++ [a]). rewrite last_snoc. replace (p2_eqb a a) with true; auto. symmetry. now apply p2_eqb_spec.
Qed.
Lemma ring_in_snoc l a : ring_in (l ++ [a]) = Ok l.
Proof.
  unfold ring_in. destruct (l ++ [a]) eqn:E; [now destruct l|]. rewrite <- E. rewrite app_length. cbn [length].
  replace (length l + 1 - 1) with (length l) by lia. now rewrite firstn_app, Nat.sub_diag, firstn_all, app_nil_r.
Qed.
Lemma open_map {f : p2 -> p2} l : (forall p q, f p = f q -> p = q) -> open_ring l -> open_ring (map f l).
Proof. intros I (a & m & b & -> & N). exists (f a), (map f m), (f b). cbn [map]. rewrite map_app. split; auto. Qed.

(** ** C67 *)
(** what a ring becomes, whatever the conversion to double does: the stored points, if the
    first and the last stored points differ *)
Theorem C67_ring K ref l m : Forall2 (stored K ref) l m -> open_ring m -> ring_in (ring_out K ref l) = Ok m.
Proof. intros F O. unfold ring_out. rewrite <- (stored_out _ _ _ _ F), (close_open _ O). apply ring_in_snoc. Qed.
(** so the translated vertices, when the translated coordinates are doubles *)
Theorem C67_ring_translated K ref l : open_ring l -> (forall p, In p l -> fits_at K ref p) -> ring_in (ring_out K ref l) = Ok (map (moved ref) l).
Proof.
  intros O F. unfold ring_out. rewrite (fits_out _ _ _ F), close_open; [apply ring_in_snoc|]. apply open_map; auto. intros p q. apply moved_inj.
Qed.
(** the last vertex is lost if the first and the last stored points coincide *)
Theorem C67_closed_loses_last K ref l a m : Forall2 (stored K ref) l (a :: m ++ [a]) -> ring_in (ring_out K ref l) = Ok (a :: m).
Proof.
  intros F. unfold ring_out. rewrite <- (stored_out _ _ _ _ F), close_shut by (now exists a, m). apply (ring_in_snoc (a :: m)).
Qed.
(** a ring of one vertex becomes empty, an empty one cannot be read back *)
Theorem C67_single_vertex K ref p : ring_in (ring_out K ref [p]) = Ok [].
Proof. reflexivity. Qed.
Theorem C67_empty_throws K ref : ring_in (ring_out K ref []) = Throw LengthError.
Proof. reflexivity. Qed.
(** there are no other rings *)
Theorem C67_cases l : l = [] \/ (exists p, l = [p]) \/ open_ring l \/ shut_ring l.
Proof.
  destruct l as [|a l]; auto. right. destruct (exists_last (l := a :: l)) as (m & b & E); [discriminate|].
  destruct m as [|a' m]; cbn [app] in E; [left; exists b; exact E|]. injection E as -> E. right. subst l.
  destruct (p2_eqb a' b) eqn:Q; [apply p2_eqb_spec in Q; subst b; right; now exists a', m|].
  left. exists a', m, b. split; auto. intros ->. now rewrite (proj2 (p2_eqb_spec b b) eq_refl) in Q.
Qed.
Lemma omapM_map {X Y Z : Type} (f : Y -> outcome Z) (g : X -> Y) (h : X -> Z) l : (forall x, In x l -> f (g x) = Ok (h x)) -> omapM f (map g l) = Ok (map h l).
Proof. induction l as [|x l IH]; intros H; cbn [map omapM]; auto. rewrite (H x) by now left. cbn [bind]. rewrite IH by (intros; apply H; now right). reflexivity. Qed.
(** polygons: outline and holes, in order *)
Theorem C67_polygon K ref P : storable K ref P -> poly_in (poly_out K ref P) = Ok (moved_poly ref P).
Proof.
  intros S. unfold poly_in, poly_out. cbn [tl]. rewrite (omapM_map _ _ (map (moved ref))).
  2: { intros l I. destruct (S l) as [O F]; [now right|]. now apply C67_ring_translated. }
  cbn [bind]. destruct (S (outer P)) as [O F]; [now left|]. rewrite C67_ring_translated by auto. reflexivity.
Qed.
(** a polygon with an empty ring cannot be read back *)
Theorem C67_empty_ring_throws K ref P : In [] (rings P) -> poly_in (poly_out K ref P) = Throw LengthError.
Proof.
  assert (forall l, ring_in l <> UB /\ forall e, ring_in l = Throw e -> e = LengthError) as R.
  { intros [|a l]; cbn [ring_in]; split; try discriminate; intros e E; congruence. }
  assert (forall l, omapM ring_in l <> UB /\ forall e, omapM ring_in l = Throw e -> e = LengthError) as R'.
  { induction l as [|a l IH]; cbn [omapM]; [split; [discriminate|intros; discriminate]|]. destruct (R a) as [Ra Rb].
    destruct (ring_in a) as [b|e|]; cbn [bind]; [|split; [discriminate|intros e' E; injection E as ->; auto]|easy].
    destruct IH as [IH1 IH2]. destruct (omapM ring_in l) as [bs|e|]; cbn [bind]; [split; [discriminate|intros; discriminate]|split; [discriminate|intros e' E; injection E as ->; auto]|easy]. }
  intros I. unfold poly_in, poly_out. cbn [tl]. destruct I as [E|I].
  - destruct (R' (map (ring_out K ref) (holes P))) as [A B]. destruct (omapM ring_in (map (ring_out K ref) (holes P))) as [hs|e|]; cbn [bind]; [|now rewrite (B e)|easy].
    rewrite E. reflexivity.
  - assert (omapM ring_in (map (ring_out K ref) (holes P)) = Throw LengthError) as ->; auto.
    induction (holes P) as [|h hs IH]; [destruct I|]. cbn [map omapM]. destruct I as [->|I]; auto.
    destruct (R (ring_out K ref h)) as [A B]. destruct (ring_in (ring_out K ref h)) as [b|e|]; cbn [bind]; [|now rewrite (B e)|easy]. rewrite IH; auto.
Qed.
(** doubles: a kernel whose conversion rounds as the hardware does *)
Definition rounded : kernel := mkKernel (fun _ _ => Outside) (fun _ => true) unit tt (fun _ => tt) (fun _ _ => tt) (fun _ _ => tt) (fun _ _ => tt) (fun _ => true) (fun _ => []) (fun _ _ => []) (fun q => qd (dq q)) (fun q => qd (dq q)).
Definition tri_hole : poly := mkPoly [P2 0 0; P2 (qz 8) 0; P2 0 (qz 8)] [[P2 (qz 1) (qz 1); P2 (qz 2) (qz 1); P2 (qz 1) (qz 2)]; [P2 (qz 4) (qz 2); P2 (qz 5) (qz 2); P2 (qz 4) (qz 3)]].
Ltac ground_fit := split; apply Qceqb_eq; vm_compute; reflexivity.
Example C67_example : storable rounded (mkPoint (dofZ 652000) (dofZ 6860000) (dofZ 35)) tri_hole.
Proof.
  assert (forall a b, Qceqb (x2 a) (x2 b) = false -> a <> b) as N by (intros a b E ->; rewrite (proj2 (Qceqb_eq (x2 b) (x2 b)) eq_refl) in E; discriminate).
  assert (forall a b, Qceqb (y2 a) (y2 b) = false -> a <> b) as N' by (intros a b E ->; rewrite (proj2 (Qceqb_eq (y2 b) (y2 b)) eq_refl) in E; discriminate).
  intros l I. destruct I as [<-|[<-|[<-|[]]]]; (split;
    [eexists _, [_], _; split; [reflexivity|apply N'; vm_compute; reflexivity]
    |intros p J; repeat (destruct J as [<-|J]; [ground_fit|]); destruct J]).
Qed.
(** far from the origin a metre is lost: the last vertex (1, 0) is stored where (0, 0) is, and dropped *)
Theorem C67_rounding_refuted : exists ref l m, open_ring l /\ ring_in (ring_out rounded ref l) = Ok m /\ length m < length l.
Proof.
  exists (mkPoint (dofZ 9007199254740992) (dofZ 0) (dofZ 0)), [P2 0 0; P2 (qz 8) 0; P2 (qz 1) 0].
  assert (ring_in (ring_out rounded (mkPoint (dofZ 9007199254740992) (dofZ 0) (dofZ 0)) [P2 0 0; P2 (qz 8) 0; P2 (qz 1) 0]) =
    Ok [point_out rounded (mkPoint (dofZ 9007199254740992) (dofZ 0) (dofZ 0)) (P2 0 0); point_out rounded (mkPoint (dofZ 9007199254740992) (dofZ 0) (dofZ 0)) (P2 (qz 8) 0)]) as E.
  { apply (C67_closed_loses_last _ _ _ _ [_]). repeat constructor. }
  eexists. split; [|split; [exact E|cbn; lia]]. exists (P2 0 0), [P2 (qz 8) 0], (P2 (qz 1) 0). split; auto. intros X. apply (f_equal x2) in X. apply (f_equal (Qceqb 0)) in X. vm_compute in X. discriminate.
Qed.

(** ** C68 *)
(** how the plane is stored: the reference elevation is added to the last coefficient *)
Definition stored_plane (K : kernel) (ref : point) (pl q : plane) : Prop :=
  pl_a q = k_tod K (pl_a pl) /\ pl_b q = k_tod K (pl_b pl) /\ pl_c q = k_tod K (pl_c pl) /\ pl_d q = k_tod K (pl_d pl + qd (pz ref))%Qc.
Definition read_face (K : kernel) (ref : point) (f : face2) : outcome face2 :=
  let* P := poly_in (poly_out K ref (f_border f)) in
  Ok (mkFace2 (f_id f) P (mkPlane (k_tod K (pl_a (f_plane f))) (k_tod K (pl_b (f_plane f))) (k_tod K (pl_c (f_plane f))) (k_tod K (pl_d (f_plane f) + qd (pz ref))))).
Lemma face_in_out K ref labels f : face_in (brick_fields labels) (face_out K (brick_fields labels) ref labels f) = read_face K ref f.
Proof. destruct labels; reflexivity. Qed.
Lemma brick_out_facets K accept ref labels defn fs ly :
  (forall f, In f fs -> accept (face_out K defn ref labels f) = true) ->
  ofold (fun ly f => let ft := face_out K defn ref labels f in
      if accept ft then Ok (mkLayer (ly_name ly) (ly_srs ly) (ly_fields ly) (ly_features ly ++ [ft])) else Throw RuntimeError) fs ly =
  Ok (mkLayer (ly_name ly) (ly_srs ly) (ly_fields ly) (ly_features ly ++ map (face_out K defn ref labels) fs)).
Proof.
  revert ly. induction fs as [|f fs IH]; intros [nm srs fl ft] H; cbn [ofold map]; [now rewrite app_nil_r|]. cbv zeta. rewrite (H f) by now left. cbn [bind].
  rewrite IH by (intros; apply H; now right). cbn [ly_fields ly_name ly_srs ly_features]. now rewrite <- app_assoc.
Qed.
Lemma brick_read K ref labels fs gs b : Forall2 (fun f g => read_face K ref f = Ok g) fs gs ->
  ofold (fun b ft => let* f := face_in (brick_fields labels) ft in Ok (mkBrick (box_add (br_box b) (face_box f)) (br_facets b ++ [f])))
    (map (face_out K (brick_fields labels) ref labels) fs) b = Ok (mkBrick (box_add (br_box b) (boxes gs)) (br_facets b ++ gs)).
Proof.
  intros F. revert b. induction F as [|f g fs gs E F IH]; intros [bx bf]; cbn [map ofold boxes fold_right]; [now rewrite box_add_None, app_nil_r|].
  rewrite face_in_out, E. cbn [bind]. rewrite IH. cbn [br_box br_facets]. now rewrite <- box_add_assoc, <- app_assoc.
Qed.
(** writing then reading, in general: every facet keeps its identifier; its polygon is the
    stored one; its plane is stored as above; the footprint is at the origin, under the given
    name, and its box is that of its facets *)
Theorem C68_round_trip K geog accept labels fp ly name fp' : (forall ft, accept ft = true) ->
  foot_out K geog true accept labels fp = Ok ly -> foot_in name ly = Ok fp' ->
  Forall2 (fun f g => f_id g = f_id f /\ stored_plane K (fp_ref fp) (f_plane f) (f_plane g) /\ poly_in (poly_out K (fp_ref fp) (f_border f)) = Ok (f_border g))
    (br_facets (fp_proj fp)) (br_facets (fp_proj fp')) /\
  fp_name fp' = name /\ fp_ref fp' = point_default /\ br_box (fp_proj fp') = boxes (br_facets (fp_proj fp')).
Proof.
  intros Ac O I. unfold foot_out, brick_out in O. cbn [ly_fields app ly_name ly_srs ly_features] in O.
  rewrite brick_out_facets in O by auto.
  apply Ok_inj in O. subst ly. cbn [ly_fields app ly_name ly_srs ly_features] in I. unfold foot_in, brick_in in I. cbn [ly_srs ly_fields ly_features] in I.
  set (fs := br_facets (fp_proj fp)) in *.
  assert (exists gs, Forall2 (fun f g => read_face K (fp_ref fp) f = Ok g) fs gs) as [gs F].
  { destruct (ofold _ (map _ fs) brick_empty) as [b| |] eqn:E in I; cbn [bind] in I; try discriminate. clear I. revert E. generalize brick_empty as b0. induction fs as [|f fs IH]; intros b0 E; [exists []; constructor|].
    cbn [map ofold] in E. rewrite face_in_out in E. destruct (read_face K (fp_ref fp) f) as [g| |] eqn:G; cbn [bind] in E; try discriminate.
    destruct (IH _ E) as [gs F]. exists (g :: gs). constructor; auto. }
  rewrite (brick_read K (fp_ref fp) labels fs gs brick_empty F) in I. cbn [bind] in I. apply Ok_inj in I. subst fp'. cbn [fp_proj fp_name fp_ref br_box br_facets brick_empty app box_add].
  repeat split; auto. eapply Forall2_impl_In; [|exact F]. intros f g _ _ E. unfold read_face in E. destruct (poly_in _) as [P| |]; cbn [bind] in E; try discriminate. apply Ok_inj in E. subst g.
  cbn [f_id f_plane f_border]. repeat split; auto.
Qed.
(** nothing is lost when everything fits in doubles and the reference point is the origin *)
Theorem C68_origin K geog accept labels fp name : (forall ft, accept ft = true) -> at_origin (fp_ref fp) ->
  (forall f, In f (br_facets (fp_proj fp)) -> storable K (fp_ref fp) (f_border f) /\ plane_fits K (f_plane f)) ->
  exists ly fp', foot_out K geog true accept labels fp = Ok ly /\ foot_in name ly = Ok fp' /\ br_facets (fp_proj fp') = br_facets (fp_proj fp).
Proof.
  intros Ac (O1 & O2 & O3) H. eexists. eexists. split; [|split].
  - unfold foot_out, brick_out. cbn [ly_fields app ly_name ly_srs ly_features].
    rewrite brick_out_facets by auto. reflexivity.
  - unfold foot_in, brick_in. cbn [ly_srs ly_fields ly_features ly_name app]. rewrite (brick_read K (fp_ref fp) labels _ (br_facets (fp_proj fp))).
    + cbn [bind brick_empty br_box br_facets app]. reflexivity.
    + assert (forall p, moved (fp_ref fp) p = p) as M by (intros p; apply p2_ext; cbn [moved x2 y2]; rewrite ?O1, ?O2; apply Qcplus_0_r).
      induction (br_facets (fp_proj fp)) as [|f fs IH]; [constructor|]. constructor; [|apply IH; intros; apply H; now right]. destruct (H f) as [S (A & B & C & D)]; [now left|].
      unfold read_face. rewrite C67_polygon by auto. cbn [bind]. rewrite O3, Qcplus_0_r. unfold fits in *. rewrite A, B, C, D. f_equal.
      destruct f as [i [o hs] [a b c d]]. unfold moved_poly. cbn [f_id f_border f_plane outer holes pl_a pl_b pl_c pl_d]. f_equal. f_equal.
      * rewrite <- (map_id o) at 2. now apply map_ext.
      * rewrite <- (map_id hs) at 2. apply map_ext. intros l. rewrite <- (map_id l) at 2. now apply map_ext.
  - reflexivity.
Qed.

(** the height read back: with a reference point, it is not the height plus the elevation of
    the reference point, unless the coefficients happen to cancel *)
Theorem C68_heights K geog accept labels fp ly name fp' : (forall ft, accept ft = true) ->
  foot_out K geog true accept labels fp = Ok ly -> foot_in name ly = Ok fp' -> let ref := fp_ref fp in
  Forall2 (fun f g => let pl := f_plane f in
      plane_fits K (mkPlane (pl_a pl) (pl_b pl) (pl_c pl) (pl_d pl + qd (pz ref))) -> pl_c pl <> 0%Qc ->
      forall p h h', plane_at pl p h -> plane_at (f_plane g) (moved ref p) h' ->
        (h' = h - (qd (pz ref) + pl_a pl * qd (px ref) + pl_b pl * qd (py ref)) / pl_c pl)%Qc /\
        (h' = h + qd (pz ref) <-> pl_a pl * qd (px ref) + pl_b pl * qd (py ref) + (1 + pl_c pl) * qd (pz ref) = 0)%Qc)
    (br_facets (fp_proj fp)) (br_facets (fp_proj fp')).
Proof.
  intros Ac O I ref. destruct (C68_round_trip _ _ _ _ _ _ _ _ Ac O I) as [F _]. eapply Forall2_impl_In; [|exact F]. intros f g _ _ (_ & (A & B & C & D) & _) pl (FA & FB & FC & FD) Nc p h h' H H'.
  unfold plane_at in *. rewrite A, B, C, D in H'. unfold fits in *. cbn [pl_a pl_b pl_c pl_d] in *. fold pl in H'. fold ref in H'. rewrite FA, FB, FC, FD in H'. cbn [moved x2 y2] in H'.
  set (rx := qd (px ref)) in *. set (ry := qd (py ref)) in *. set (rz := qd (pz ref)) in *. set (a := pl_a pl) in *. set (b := pl_b pl) in *. set (c := pl_c pl) in *. set (d := pl_d pl) in *.
  assert (c * h' = c * h - (rz + a * rx + b * ry))%Qc as E.
  { transitivity (c * h' - (a * (x2 p + rx) + b * (y2 p + ry) + c * h' + (d + rz)) + (a * x2 p + b * y2 p + c * h + d))%Qc; [rewrite H, H'|]; ring. }
  assert (h' = h - (rz + a * rx + b * ry) / c)%Qc as E'.
  { transitivity (c * h' / c)%Qc; [now field|]. rewrite E. now field. }
  split; auto. split; intros X.
  - transitivity (c * (h + rz) - (c * h - (rz + a * rx + b * ry)))%Qc; [ring|]. rewrite <- X, E. ring.
  - rewrite E'. transitivity (h + rz - (a * rx + b * ry + (1 + c) * rz) / c)%Qc; [now field|]. rewrite X. now field.
Qed.
Definition roof : face2 := mkFace2 7 (mkPoly [P2 0 0; P2 (qz 4) 0; P2 0 (qz 2)] []) (mkPlane 0 0 1 (- qz 3)).
Definition town_print (z : Z) : footprint := mkFoot (hdr "hall"%string) (mkPoint (dofZ 0) (dofZ 0) (dofZ z)) 2154 (brick_of roof).
(** a level roof 3 above an origin at elevation 35 is read back at -32, not at 38 *)
Theorem C68_elevation_refuted : exists ly fp' g, foot_out rounded (fun _ => 4171%Z) true (fun _ => true) false (town_print 35) = Ok ly /\
  foot_in (hdr "hall"%string) ly = Ok fp' /\ br_facets (fp_proj fp') = [g] /\
  forall p, plane_at (f_plane roof) p (qz 3) /\ plane_at (f_plane g) p (- qz 32)%Qc /\ ~ plane_at (f_plane g) p (qz 38).
Proof.
  eexists. eexists. eexists. split; [reflexivity|]. split; [reflexivity|]. split; [reflexivity|]. intros p.
  assert (forall h, plane_at (mkPlane 0 0 1 (qz 32)) p h <-> (h + qz 32 = 0)%Qc) as Q.
  { intros h. unfold plane_at. cbn [pl_a pl_b pl_c pl_d]. replace (0 * x2 p + 0 * y2 p + 1 * h + qz 32)%Qc with (h + qz 32)%Qc by ring. tauto. }
  split; [unfold plane_at; cbn [roof f_plane pl_a pl_b pl_c pl_d]; ring|].
  match goal with |- plane_at ?pl _ _ /\ _ => replace pl with (mkPlane 0 0 1 (qz 32)) end.
  2: { cbn [f_plane]. f_equal; apply Qceqb_eq; vm_compute; reflexivity. }
  rewrite !Q. split; [ring|]. intros X. apply (f_equal (Qceqb 0)) in X. vm_compute in X. discriminate.
Qed.
(** the code read back is that of the geographic system, cut to 16 bits, or 2154 *)
Theorem C68_epsg K geog accept labels fp ly name fp' : (forall ft, accept ft = true) ->
  foot_out K geog true accept labels fp = Ok ly -> foot_in name ly = Ok fp' ->
  ((0 < geog (fp_epsg fp) < 65536)%Z -> fp_epsg fp' = Z.to_N (geog (fp_epsg fp))) /\ ((geog (fp_epsg fp) <= 0)%Z -> fp_epsg fp' = 2154%N).
Proof.
  intros Ac O I. unfold foot_out, brick_out in O. rewrite brick_out_facets in O by auto. apply Ok_inj in O. subst ly. cbn [ly_fields app ly_name ly_srs ly_features] in I.
  unfold foot_in in I. cbn [ly_srs] in I. destruct (brick_in _) as [b| |]; cbn [bind] in I; try discriminate. apply Ok_inj in I. subst fp'. cbn [fp_epsg]. split; intros H.
  - replace (0 <? geog (fp_epsg fp))%Z with true by (symmetry; apply Z.ltb_lt; lia). now rewrite Z.mod_small by lia.
  - now replace (0 <? geog (fp_epsg fp))%Z with false by (symmetry; apply Z.ltb_ge; lia).
Qed.
(** failures of GDAL throw; a layer with too few fields or without polygons is refused *)
Theorem C68_failures K : (forall geog accept labels fp, foot_out K geog false accept labels fp = Throw RuntimeError) /\
  (forall geog accept labels fp, br_facets (fp_proj fp) <> [] -> (forall ft, accept ft = false) -> foot_out K geog true accept labels fp = Throw RuntimeError) /\
  (forall name ly, length (ly_fields ly) < 5 -> ly_features ly <> [] -> foot_in name ly = Throw OverflowError) /\
  (forall name ly ft l, 5 <= length (ly_fields ly) -> ly_features ly = ft :: l -> (ft_geom ft = None \/ ft_geom ft = Some GOther) -> foot_in name ly = Throw RuntimeError).
Proof.
  split; [reflexivity|]. split; [|split].
  - intros geog accept labels fp N A. unfold foot_out, brick_out. cbn [ly_fields app ly_name ly_srs ly_features]. destruct (br_facets (fp_proj fp)) as [|f fs]; [easy|]. cbn [ofold]. cbv zeta. now rewrite A.
  - intros name ly H N. unfold foot_in, brick_in, face_in. destruct (ly_features ly) as [|ft l]; [easy|]. cbn [ofold]. now replace (length (ly_fields ly) <? 5) with true by (symmetry; apply Nat.ltb_lt; lia).
  - intros name ly ft l H E G. unfold foot_in, brick_in, face_in. rewrite E. cbn [ofold]. replace (length (ly_fields ly) <? 5) with false by (symmetry; apply Nat.ltb_ge; lia). now destruct G as [-> | ->].
Qed.
Example C68_example : at_origin (fp_ref (town_print 0)) /\ (forall f, In f (br_facets (fp_proj (town_print 0))) -> storable rounded (fp_ref (town_print 0)) (f_border f) /\ plane_fits rounded (f_plane f)).
Proof.
  assert (forall a b, Qceqb (y2 a) (y2 b) = false -> a <> b) as N' by (intros a b E ->; rewrite (proj2 (Qceqb_eq (y2 b) (y2 b)) eq_refl) in E; discriminate).
  split; [repeat split; apply Qceqb_eq; vm_compute; reflexivity|]. intros f [<-|[]]. split.
  - intros l [<-|[]]. split; [eexists _, [_], _; split; [reflexivity|apply N'; vm_compute; reflexivity]|]. intros p J; repeat (destruct J as [<-|J]; [ground_fit|]); destruct J.
  - repeat split; apply Qceqb_eq; vm_compute; reflexivity.
Qed.
