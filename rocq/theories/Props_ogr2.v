(** * Property C68, continued: the layer that is written, and layers that cannot be read. *)
From Coq Require Import String.
From Verif Require Import Base Dbl Geom Decimal Shadow Streams Handlers Spec_io Surface Projection Spec_projection Raster Ogr Spec_ogr Envelope_proofs Props_ogr.
Import List.
Close Scope string_scope.
Open Scope nat_scope.

(** the definition of a layer of facets *)
Definition facet_fields : list str := [lit "Id"; lit "coeff_a"; lit "coeff_b"; lit "coeff_c"; lit "coeff_d"].
Definition label_fields : list str := [lit "Unq_Errors"; lit "Bul_Errors"; lit "Fac_Errors"].
(** the feature [ft] holds the value [v] in the field [k] *)
Definition holds (ft : feature) (k : string) (v : fvalue) : Prop := get_field (lit k) ft = Some v.
(** the feature of a facet *)
Definition feature_of (K : kernel) (ref : point) (labels : bool) (f : face2) (ft : feature) : Prop :=
  holds ft "Id" (FInt (f_id f)) /\ holds ft "coeff_a" (FReal (k_tod K (pl_a (f_plane f)))) /\ holds ft "coeff_b" (FReal (k_tod K (pl_b (f_plane f)))) /\
  holds ft "coeff_c" (FReal (k_tod K (pl_c (f_plane f)))) /\ holds ft "coeff_d" (FReal (k_tod K (pl_d (f_plane f) + qd (pz ref))%Qc)) /\
  (forall k, In k label_fields -> get_field k ft = if labels then Some (FStr (lit "None")) else None) /\
  ft_geom ft = Some (GPolygon (poly_out K ref (f_border f))).
(** a print is written exactly when the layer could be created and takes every feature: its
    name, geographic system, fields, and one feature per facet, in order *)
Lemma feature_made K ref labels f : feature_of K ref labels f (face_out K (brick_fields labels) ref labels f).
Proof.
  unfold feature_of, holds. destruct labels; (do 5 (split; [reflexivity|])); (split; [|reflexivity]); intros k [<-|[<-|[<-|[]]]]; reflexivity.
Qed.
Lemma out_fold K (accept : feature -> bool) ref labels (fields : list str) (l : list face2) : forall ly ly', ly_fields ly = fields ->
  (ofold (fun ly f => let ft := face_out K (brick_fields labels) ref labels f in if accept ft then Ok (mkLayer (ly_name ly) (ly_srs ly) (ly_fields ly) (ly_features ly ++ [ft])) else Throw RuntimeError) l ly = Ok ly' <->
   (forall f, In f l -> accept (face_out K (brick_fields labels) ref labels f) = true) /\ ly_name ly' = ly_name ly /\ ly_srs ly' = ly_srs ly /\ ly_fields ly' = ly_fields ly /\
   ly_features ly' = ly_features ly ++ map (face_out K (brick_fields labels) ref labels) l).
Proof.
  induction l as [|f l IH]; intros ly ly' Hf; cbn [ofold map].
  - rewrite app_nil_r. split; [intros H; apply Ok_inj in H; subst; repeat split; intros ? []|]. intros (_ & A & B & C & D). f_equal. destruct ly, ly'; cbn in *; congruence.
  - cbv zeta. destruct (accept _) eqn:E; cbn [bind].
    + rewrite IH by auto. cbn [ly_name ly_srs ly_fields ly_features]. rewrite <- app_assoc. cbn [app]. split; intros (A & B); (split; [|exact B]); [intros g [<-|Hg]; auto|intros g Hg; apply A; now right].
    + split; [discriminate|]. intros (A & _). specialize (A f (or_introl eq_refl)). congruence.
Qed.
Theorem C68_layer : forall K geog accept labels fp, exists fts, Forall2 (feature_of K (fp_ref fp) labels) (br_facets (fp_proj fp)) fts /\
  forall create ly, foot_out K geog create accept labels fp = Ok ly <->
    create = true /\ Forall (fun ft => accept ft = true) fts /\ ly_name ly = fp_name fp /\ ly_srs ly = Some (geog (fp_epsg fp)) /\
    ly_fields ly = facet_fields ++ (if labels then label_fields else []) /\ ly_features ly = fts.
Proof.
  intros K geog accept labels fp. exists (map (face_out K (brick_fields labels) (fp_ref fp) labels) (br_facets (fp_proj fp))). split.
  - induction (br_facets (fp_proj fp)) as [|f l IH]; cbn [map]; constructor; auto. apply feature_made.
  - intros create ly. unfold foot_out. destruct create; [|split; [discriminate|intros [? _]; discriminate]]. unfold brick_out. cbn [ly_fields ly_name ly_srs ly_features app].
    rewrite (out_fold K accept (fp_ref fp) labels _ _ _ ly eq_refl). cbn [ly_name ly_srs ly_fields ly_features app]. rewrite Forall_map, Forall_forall.
    change (brick_fields labels) with (facet_fields ++ (if labels then label_fields else [])). tauto.
Qed.
(** a polygon without rings, or a layer without spatial reference, is undefined behaviour *)
Theorem C68_undefined : forall name ly,
  (forall ft l, 5 <= List.length (ly_fields ly) -> ly_features ly = ft :: l -> ft_geom ft = Some (GPolygon []) -> foot_in name ly = UB) /\
  (forall b, brick_in ly = Ok b -> ly_srs ly = None -> foot_in name ly = UB).
Proof.
  intros name ly. split.
  - intros ft l L E G. unfold foot_in, brick_in. rewrite E. cbn [ofold]. unfold face_in. destruct (Nat.ltb_spec (List.length (ly_fields ly)) 5); [lia|]. rewrite G. reflexivity.
  - intros b B S. unfold foot_in. rewrite B, S. reflexivity.
Qed.
Lemma ring_in_spec l m : ring_in l = Ok m <-> l <> [] /\ m = removelast l.
Proof.
  unfold ring_in. destruct l as [|a l]; [split; [discriminate|now intros [? _]]|]. replace (firstn (List.length (a :: l) - 1) (a :: l)) with (removelast (a :: l)).
  - split; [intros H; apply Ok_inj in H; now split|intros [_ ->]; reflexivity].
  - rewrite removelast_firstn_len. f_equal. cbn. lia.
Qed.
Lemma rings_in l : forall m, omapM ring_in l = Ok m <-> (forall x, In x l -> x <> []) /\ m = map (@removelast p2) l.
Proof.
  intros m. rewrite omapM_Ok. split.
  - induction 1 as [|a b l m H F IH]; [split; [intros ? []|reflexivity]|]. apply ring_in_spec in H as [H ->]. destruct IH as [I ->]. split; [intros x [<-|Hx]; auto|reflexivity].
  - intros [N ->]. induction l as [|a l IH]; cbn [map]; constructor; [|apply IH; intros; apply N; now right]. apply ring_in_spec. split; auto. apply N. now left.
Qed.
Lemma poly_in_spec rs P : poly_in rs = Ok P <-> exists r l, rs = r :: l /\ (forall x, In x (r :: l) -> x <> []) /\ outer P = removelast r /\ holes P = map (@removelast p2) l.
Proof.
  unfold poly_in. split.
  - intros H. apply bind_Ok in H as (hs & E & H). destruct rs as [|r l]; [discriminate|]. apply bind_Ok in H as (o & R & H). apply Ok_inj in H. subst P. apply ring_in_spec in R as [R ->]. apply rings_in in E as [E ->].
    exists r, l. split; auto. split; [intros x [<-|Hx]; auto|auto].
  - intros (r & l & -> & N & A & B). cbn [tl]. assert (omapM ring_in l = Ok (map (@removelast p2) l)) as -> by (apply rings_in; split; auto; intros; apply N; now right). cbn [bind].
    assert (ring_in r = Ok (removelast r)) as -> by (apply ring_in_spec; split; auto; apply N; now left). cbn [bind]. f_equal. destruct P; cbn in *; congruence.
Qed.
Definition read_as (n : nat) (ft : feature) (f : face2) : Prop := 5 <= n /\ f_id f = get_int (lit "Id") ft /\
  f_plane f = mkPlane (get_real (lit "coeff_a") ft) (get_real (lit "coeff_b") ft) (get_real (lit "coeff_c") ft) (get_real (lit "coeff_d") ft) /\
  exists r rs, ft_geom ft = Some (GPolygon (r :: rs)) /\ (forall x, In x (r :: rs) -> x <> []) /\ outer (f_border f) = removelast r /\ holes (f_border f) = map (@removelast p2) rs.
Lemma face_in_spec defn ft f : face_in defn ft = Ok f <-> read_as (List.length defn) ft f.
Proof.
  unfold face_in, read_as. destruct (Nat.ltb_spec (List.length defn) 5) as [L|L]; [split; [discriminate|intros (? & _); lia]|]. split.
  - destruct (ft_geom ft) as [[rs|]|] eqn:G; try discriminate. intros H. apply bind_Ok in H as (P & E & H). apply Ok_inj in H. subst f. apply poly_in_spec in E as (r & l & -> & N & A & B).
    split; auto. split; [reflexivity|]. split; [reflexivity|]. exists r, l. auto.
  - intros (_ & I & Q & r & l & -> & N & A & B). assert (poly_in (r :: l) = Ok (f_border f)) as -> by (apply poly_in_spec; eauto 10). cbn [bind]. f_equal. destruct f; cbn in *. subst. reflexivity.
Qed.
Lemma boxes_app_one l f : boxes (l ++ [f]) = box_add (boxes l) (face_box f).
Proof. induction l as [|g l IH]; cbn [app boxes fold_right]; [rewrite box_add_None; now destruct (face_box f)|]. unfold boxes in IH. rewrite IH. apply box_add_assoc. Qed.
Lemma brick_fold defn l : forall b b', br_box b = boxes (br_facets b) -> (ofold (fun b ft => let* f := face_in defn ft in Ok (mkBrick (box_add (br_box b) (face_box f)) (br_facets b ++ [f]))) l b = Ok b' <->
  br_box b' = boxes (br_facets b') /\ exists fs, br_facets b' = br_facets b ++ fs /\ Forall2 (read_as (List.length defn)) l fs).
Proof.
  induction l as [|ft l IH]; intros b b' Hb; cbn [ofold].
  - split.
    + intros H. apply Ok_inj in H. subst b'. split; auto. exists []. rewrite app_nil_r. split; [reflexivity|constructor].
    + intros (A & fs & B & F). inversion F; subst. rewrite app_nil_r in B. f_equal. destruct b, b'; cbn in *. congruence.
  - split.
    + intros H. apply bind_Ok in H as (b1 & H1 & H). apply bind_Ok in H1 as (f & E & H1). apply Ok_inj in H1. subst b1. apply IH in H; [|cbn [br_box br_facets]; rewrite Hb; symmetry; apply boxes_app_one].
      destruct H as (A & fs & B & F). split; auto. exists (f :: fs). cbn [br_facets] in B. rewrite <- app_assoc in B. split; auto. constructor; auto. now apply face_in_spec.
    + intros (A & fs & B & F). inversion F as [|? f ? fs' E F']; subst. apply face_in_spec in E. rewrite E. cbn [bind]. apply IH; [cbn [br_box br_facets]; rewrite Hb; symmetry; apply boxes_app_one|].
      split; auto. exists fs'. cbn [br_facets]. rewrite <- app_assoc. auto.
Qed.
(** what a layer is read as: every feature has at least five fields in the definition and a
    polygon with an outer ring none of whose rings is empty *)
Theorem C68_reads : forall name ly fp, foot_in name ly = Ok fp <->
  exists g, ly_srs ly = Some g /\ fp_name fp = name /\ fp_ref fp = point_default /\ fp_epsg fp = (if (0 <? g)%Z then Z.to_N (g mod 65536) else 2154%N) /\
    br_box (fp_proj fp) = boxes (br_facets (fp_proj fp)) /\
    Forall2 (fun ft f => 5 <= List.length (ly_fields ly) /\ f_id f = get_int (lit "Id") ft /\
       f_plane f = mkPlane (get_real (lit "coeff_a") ft) (get_real (lit "coeff_b") ft) (get_real (lit "coeff_c") ft) (get_real (lit "coeff_d") ft) /\
       exists r rs, ft_geom ft = Some (GPolygon (r :: rs)) /\ (forall x, In x (r :: rs) -> x <> []) /\ outer (f_border f) = removelast r /\ holes (f_border f) = map (@removelast p2) rs)
      (ly_features ly) (br_facets (fp_proj fp)).
Proof.
  intros name ly fp. unfold foot_in. split.
  - intros H. apply bind_Ok in H as (b & B & H). unfold brick_in in B. apply brick_fold in B; [|reflexivity]. destruct B as (A & fs & E & F). cbn [br_facets brick_empty app] in E. destruct (ly_srs ly) as [g|]; [|discriminate]. apply Ok_inj in H. subst fp.
    exists g. cbn [fp_name fp_ref fp_epsg fp_proj]. rewrite E. rewrite E in A. do 4 (split; auto).
  - intros (g & Sr & N & R & Ep & Bx & F). assert (brick_in ly = Ok (fp_proj fp)) as ->. { unfold brick_in. apply brick_fold; [reflexivity|]. split; auto. exists (br_facets (fp_proj fp)). split; [reflexivity|exact F]. }
    cbn [bind]. rewrite Sr. f_equal. destruct fp; cbn in *. congruence.
Qed.
Definition field_names (o : outcome layer) : list str := match o with Ok ly => ly_fields ly | _ => [] end.
Definition labels_of (o : outcome layer) : list (option fvalue) := match o with Ok ly => map (get_field (lit "Bul_Errors")) (ly_features ly) | _ => [] end.
Example C68_labelled : field_names (foot_out rounded (fun _ => 4171%Z) true (fun _ => true) true (town_print 35)) = facet_fields ++ label_fields /\
  labels_of (foot_out rounded (fun _ => 4171%Z) true (fun _ => true) true (town_print 35)) = [Some (FStr (lit "None"))] /\
  field_names (foot_out rounded (fun _ => 4171%Z) true (fun _ => true) false (town_print 35)) = facet_fields /\
  labels_of (foot_out rounded (fun _ => 4171%Z) true (fun _ => true) false (town_print 35)) = [None].
Proof. repeat split; vm_compute; reflexivity. Qed.
