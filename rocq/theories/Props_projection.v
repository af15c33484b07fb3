(** * Properties C49-C58 and C76: heights, prints of facets, surfaces, bricks and scenes. *)
From Verif Require Import Base Dbl Dbl_facts Geom Decimal Shadow Handlers Surface Spec_surface Surface_proofs
  Projection Spec_projection Strip Projection_proofs Envelope_proofs Spec_ring Ring_proofs Print_proofs Props_surface.
Open Scope nat_scope.

(** facets over the strips of the concrete kernel: level, and sloping along x *)
Definition q (z : Z) : Qc := qz z.
Definition level_at (h : Z) : plane := mkPlane 0 0 1 (- q h)%Qc.
Definition slope (s h : Z) : plane := mkPlane (- q s)%Qc 0 1 (- q h)%Qc.
Definition bar (id : nat) (a b : Z) (pl : plane) : face2 := mkFace2 id (strip (q a) (q b)) pl.
Definition at_ (x : Qc) : p2 := P2 x (Q2Qc (1 # 2)).
Definition half (z : Z) : Qc := (q z / q 2)%Qc.

(** ** C49 *)
Theorem C49_plane_height : forall K f p,
  (plane_height K f p = Throw OverflowError <-> vertical (f_plane f)) /\
  (~ vertical (f_plane f) -> exists z, on_plane (f_plane f) (P3 (x2 p) (y2 p) z) /\ (forall z', on_plane (f_plane f) (P3 (x2 p) (y2 p) z') -> z' = z) /\
     plane_height K f p = Ok (k_tod K z)).
Proof.
  intros K f p. split.
  - unfold plane_height, vertical. destruct (Qceqb (pl_c (f_plane f)) 0) eqn:E; [apply Qceqb_eq in E; split; auto|apply Qceqb_neq in E]. split; [discriminate|intros; contradiction].
  - intros N. destruct (plane_height_exists f p N) as (z & Hz). exists z. split; auto. split; [|now apply plane_height_value].
    intros z' Hz'. unfold on_plane in *. cbn [x3 y3 z3] in *.
    assert (X : (pl_c (f_plane f) * z' = pl_c (f_plane f) * z)%Qc).
    { set (c := pl_c (f_plane f)) in *. set (u := (pl_a (f_plane f) * x2 p + pl_b (f_plane f) * y2 p)%Qc) in *. set (d := pl_d (f_plane f)) in *.
      replace (c * z')%Qc with ((u + c * z' + d) - u - d)%Qc by ring. rewrite Hz', <- Hz. ring. }
    replace z' with (pl_c (f_plane f) * z' / pl_c (f_plane f))%Qc by (field; auto). rewrite X. field. auto.
Qed.
(** the facet through the points p, q, r, ... when they are coplanar *)
Theorem C49_vertex_height : forall K id p q r rest f, face_of K id (p :: q :: r :: rest) = Ok f ->
  ~ vertical (f_plane f) -> (forall v, In v rest -> dot (cross (vsub q p) (vsub r p)) (vsub v p) = 0%Qc) ->
  forall v, In v (p :: q :: r :: rest) -> plane_height K f (P2 (x3 v) (y3 v)) = Ok (k_tod K (z3 v)).
Proof.
  intros K id p q r rest f E N C v Hv. unfold face_of, trace in E. cbn [bind] in E. apply Ok_inj in E. subst f. apply plane_height_value; auto. cbn [f_plane].
  destruct (plane_through_on p q r) as (O1 & O2 & O3). cbn [x2 y2]. change (P3 (x3 v) (y3 v) (z3 v)) with (P3 (x3 v) (y3 v) (z3 v)).
  assert (Ev : P3 (x3 v) (y3 v) (z3 v) = v) by (destruct v; reflexivity). rewrite Ev. destruct Hv as [<-|[<-|[<-|Hv]]]; auto.
  specialize (C v Hv). unfold on_plane, plane_through. cbn [pl_a pl_b pl_c pl_d]. rewrite <- C. unfold dot, cross, vsub. cbn [x3 y3 z3]. ring.
Qed.
Example C49_example :
  (exists f, face_of strips 7 [pt 0 0 1; pt 2 0 1; pt 2 2 3; pt 0 2 3] = Ok f /\ ~ vertical (f_plane f) /\ plane_height strips f (P2 (q 1) (q 1)) = Ok (q 2)) /\
  plane_height strips (mkFace2 0 (strip 0 1) (mkPlane 1 0 0 0)) (at_ 0) = Throw OverflowError.
Proof.
  split; [|reflexivity]. eexists. split; [reflexivity|]. split.
  - unfold vertical. vm_compute. discriminate.
  - unfold plane_height. vm_compute (Qceqb _ _). cbv iota. f_equal. apply Qceqb_eq. vm_compute. reflexivity.
Qed.

(** ** C50 *)
Theorem C50_face_height : forall K f p,
  (vertical (f_plane f) -> face_height K f p = Throw OverflowError) /\
  (~ vertical (f_plane f) -> ~ covered K (f_border f) p -> face_height K f p = Ok 0%Qc) /\
  (~ vertical (f_plane f) -> is_degenerate K f = true -> face_height K f p = Ok 0%Qc) /\
  (forall z, covered K (f_border f) p -> is_degenerate K f = false -> height_is K f p z -> face_height K f p = Ok z).
Proof.
  intros K f p. split; [apply face_height_throw|]. split; [intros; apply face_height_zero; auto|]. split; [intros; apply face_height_zero; auto|].
  intros. now apply face_height_in.
Qed.
Theorem C50_brick_height : forall K b p, rnd_ok K ->
  ((forall f, In f (br_facets b) -> ~ covered K (f_border f) p) -> brick_height K b p = Ok 0%Qc) /\
  ((exists f, In f (br_facets b) /\ covered K (f_border f) p) -> (exists f, In f (br_facets b) /\ vertical (f_plane f)) -> brick_height K b p = Throw OverflowError) /\
  ((forall f, In f (br_facets b) -> ~ vertical (f_plane f)) ->
     forall zs, Forall2 (fun f z => height_is K f p z) (filter (fun f => negb (is_degenerate K f)) (seen K b p)) zs -> brick_height K b p = Ok (rounded_sum K zs)).
Proof.
  intros K b p R. split; [|split].
  - intros N. unfold brick_height. destruct (brick_contains K b p) eqn:E; auto. apply brick_contains_cov in E as (f & Hf & C). exfalso. eapply N; eauto.
  - intros C V. unfold brick_height. apply brick_contains_cov in C. rewrite C. now apply brick_throw.
  - intros V zs F. unfold brick_height. destruct (brick_contains K b p) eqn:E.
    + assert (F' : Forall2 (fun f z => height_is K f p z) (filter (fun f => face_contains K f p && negb (is_degenerate K f)) (br_facets b)) zs).
      { unfold seen in F. clear -F. revert zs F. induction (br_facets b) as [|f l IH]; intros zs F; cbn [filter] in *; auto.
        destruct (face_contains K f p); cbn [andb filter] in *; auto. destruct (is_degenerate K f); cbn [negb] in *; auto. inversion F; subst. constructor; auto. }
      apply (brick_sum K R p (br_facets b) 0%Qc (rnd_zero K R) V zs F').
    + assert (S0 : seen K b p = []). { apply filter_none. intros f Hf. apply not_true_iff_false. intros C. rewrite <- not_true_iff_false in E. apply E. unfold brick_contains. apply existsb_exists. eauto. }
      rewrite S0 in F. cbn [filter] in F. inversion F. reflexivity.
Qed.
(** sums that need no rounding are the exact ones *)
Theorem C50_exact_sum : forall K zs, (forall n, k_rnd K (qsum (firstn n zs)) = qsum (firstn n zs)) -> rounded_sum K zs = qsum zs.
Proof.
  intros K zs. unfold rounded_sum. rewrite <- (Qcplus_0_l (qsum zs)). assert (forall n, qsum (firstn n zs) = (0 + qsum (firstn n zs))%Qc) as Z by (intros; ring).
  intros H. assert (forall n, k_rnd K (0 + qsum (firstn n zs))%Qc = (0 + qsum (firstn n zs))%Qc) as H' by (intros n; now rewrite <- Z). clear Z H. revert H'. generalize 0%Qc. induction zs as [|z zs IH]; intros t H; cbn [fold_left qsum]; [ring|].
  pose proof (H 1) as H1. cbn [firstn qsum] in H1. rewrite Qcplus_0_r in H1. rewrite H1, IH; [ring|]. intros n. specialize (H (S n)). cbn [firstn qsum] in H. rewrite Qcplus_assoc in H. exact H.
Qed.
(** in a print whose facets do not overlap, off the edges: the height of the facet there *)
Theorem C50_unique : forall K b p f z, rnd_ok K -> apart K (map f_border (br_facets b)) -> (forall g, In g (br_facets b) -> clear K (f_border g) p) ->
  (forall g, In g (br_facets b) -> ~ vertical (f_plane g)) -> In f (br_facets b) -> inside K (f_border f) p -> is_degenerate K f = false -> height_is K f p z ->
  brick_height K b p = Ok z.
Proof.
  intros K b p f z R A C V Hf I D H. destruct (C50_brick_height K b p R) as (_ & _ & S).
  assert (E : seen K b p = [f]).
  { unfold seen. clear -A C Hf I. induction (br_facets b) as [|x l IH]; [destruct Hf|]. apply apart_map_tail in A as [A Ex]. cbn [filter]. destruct Hf as [->|Hf].
    - rewrite (shows_yes K f p) by (auto; apply C; left; auto). f_equal. apply filter_none. intros y Hy. apply (shows_not K); [apply C; right; auto|]. eapply Ex; eauto.
    - rewrite (shows_not K x p); [|apply C; left; auto|intros Ix; eapply Ex; eauto]. apply IH; auto. intros y Hy; apply C; right; auto. }
  rewrite (S V [z]); [unfold rounded_sum; cbn [fold_left]; rewrite Qcplus_0_l; f_equal; exact (height_fixed K R f p z H)|]. rewrite E. cbn [filter]. rewrite D. cbn [negb]. constructor; auto.
Qed.
(** on an edge shared by two facets of the same height 3: 6 *)
Theorem C50_shared_edge_refuted :
  let b := mkBrick None [bar 1 0 1 (level_at 3); bar 2 1 2 (level_at 3)] in
  apart strips (map f_border (br_facets b)) /\ brick_height strips b (at_ (half 1)) = Ok (q 3) /\ brick_height strips b (at_ (half 3)) = Ok (q 3) /\
  exists z, brick_height strips b (at_ (q 1)) = Ok z /\ z = q 6.
Proof.
  cbv zeta. split.
  - change (apart strips (map istrip [(q 0, q 1); (q 1, q 2)])). unfold apart. constructor; [|repeat constructor]. constructor; [|constructor].
    intros p [I1 I2]. apply strip_inside in I1, I2. unfold iin in *. cbn [fst snd] in *. destruct I1 as (_ & I1 & _), I2 as (I2 & _). qo.
  - assert (X : forall b p r z, brick_height strips b p = r -> match r with Ok z' => Qceqb z' z | _ => false end = true -> brick_height strips b p = Ok z).
    { intros b p r z <-. destruct (brick_height strips b p); try discriminate. intros E. apply Qceqb_eq in E. now subst. }
    split; [eapply X; [reflexivity|vm_compute; reflexivity]|]. split; [eapply X; [reflexivity|vm_compute; reflexivity]|].
    exists (q 6). split; [eapply X; [reflexivity|vm_compute; reflexivity]|reflexivity].
Qed.

(** ** C51 *)
Theorem C51_orthoprint : forall K s, valid s ->
  exists prints, orthoprint K s = Ok (filter (fun x => negb (Qceqb (pl_c (f_plane x)) 0)) prints) /\ Forall2 (print_of K s) (s_facets s) prints.
Proof. exact orthoprint_spec. Qed.
(** the tetrahedron: its base and its slanted facet are printed, the two walls are not *)
Example C51_example : exists a b, orthoprint strips tetra = Ok [a; b] /\ f_plane a = mkPlane 0 0 (- (1))%Qc 0 /\ f_plane b = mkPlane 1 1 1 (- (1))%Qc /\
  (forall f pts, In f (s_facets tetra) -> boundary tetra f pts -> 3 <= length pts).
Proof.
  destruct (orthoprint strips tetra) as [[|a [|b [|]]]| |] eqn:E; try (vm_compute in E; discriminate E).
  exists a, b. split; auto. apply Ok_inj in E. split; [|split].
  - apply (f_equal (fun l => match l with x :: _ => f_plane x | _ => mkPlane 0 0 0 0 end)) in E. cbv beta iota in E. rewrite <- E. vm_compute. reflexivity.
  - apply (f_equal (fun l => match l with _ :: x :: _ => f_plane x | _ => mkPlane 0 0 0 0 end)) in E. cbv beta iota in E. rewrite <- E. vm_compute. reflexivity.
  - intros f pts Hf B. apply (boundary_points tetra f pts tetra_valid Hf) in B.
    assert (X : forallb (fun f => match facet_points tetra f with Ok l => 3 <=? length l | _ => false end) (s_facets tetra) = true) by (vm_compute; reflexivity).
    rewrite forallb_forall in X. specialize (X f Hf). rewrite B in X. now apply Nat.leb_le.
Qed.
(** whatever is printed is the print of a facet of three vertices or more: one of two vertices,
    which pruning can leave, has no plane and no print *)
Theorem C51_vertices : forall K s l x, valid s -> orthoprint K s = Ok l -> In x l ->
  exists f pts, In f (s_facets s) /\ boundary s f pts /\ 3 <= length pts /\ f_id x = s_id s f.
Proof.
  intros K s l x V E Hx. destruct (orthoprint_spec K s V) as (ps & E' & F). rewrite E' in E. apply Ok_inj in E. subst l.
  apply filter_In in Hx as [Hx C]. destruct (Qceqb (pl_c (f_plane x)) 0) eqn:Z; [discriminate|]. clear C E'.
  assert (exists f, In f (s_facets s) /\ print_of K s f x) as (f & Hf & p & q & rest & B & I' & (_ & _ & Pc) & _).
  { clear -F Hx. induction F as [|f y fs ps P _ IH]; [easy|]. destruct Hx as [->|Hx]; [exists f; split; auto; now left|]. destruct (IH Hx) as (g & G & H). exists g. split; auto. now right. }
  exists f, (p :: q :: rest). repeat split; auto. destruct rest as [|r rest]; [|cbn [length]; lia]. exfalso.
  cbn [hd] in Pc. apply eq_true_false_abs in Z; auto. apply Qceqb_eq. rewrite Pc. unfold cross, vsub. cbn [z3 x3 y3]. ring.
Qed.
Definition digon : surface := mkSurf [0; 1; 2; 3] (fun h => match h with 0 => 2 | 1 => 3 | 2 => 0 | _ => 1 end)
  (fun h => match h with 0 => 1 | 1 => 0 | 2 => 3 | _ => 2 end) (fun h => match h with 0 => 1 | 1 => 0 | 2 => 0 | _ => 1 end)
  (fun h => match h with 0 | 1 => Some 0 | _ => None end) [0] (fun _ => 0) (fun _ => 0) [0; 1] (fun v => match v with 0 => pt 0 0 0 | _ => pt 1 0 0 end).
Example C51_digon : valid digon /\ boundary digon 0 [pt 1 0 0; pt 0 0 0] /\ orthoprint strips digon = Ok [].
Proof.
  assert (valid digon) as V by (apply check_valid; vm_compute; reflexivity). split; auto. split; [|vm_compute; reflexivity].
  apply (boundary_points digon 0 _ V); [now left|]. vm_compute. reflexivity.
Qed.

(** ** C52 *)
Theorem C52_no_new_surface : forall K good sgood, kernel_ok K good sgood -> forall b l, built K b l -> (forall f, In f l -> good (f_border f)) ->
  forall x, In x (br_facets b) -> exists f, In f l /\ f_id x = f_id f /\ f_plane x = f_plane f /\ (forall p, covered K (f_border x) p -> covered K (f_border f) p).
Proof.
  intros K good sgood OK b l B G x Hx. destruct (built_from K good sgood OK b l B G x Hx) as [_ (f & Hf & [P1 P2] & C)]. exists f. auto.
Qed.
(** facets put one after the other *)
Lemma built_list K l : forall b m b', built K b m -> ofold (add_face K) l b = Ok b' -> built K b' (m ++ l).
Proof.
  induction l as [|f l IH]; intros b m b' B E; cbn [ofold] in E; [apply Ok_inj in E; subst; now rewrite app_nil_r|]. apply bind_Ok in E as (b1 & E1 & E).
  change (f :: l) with ([f] ++ l). rewrite app_assoc. apply (IH b1); auto. now apply (b_add K b m f).
Qed.
Definition put (l : list face2) : outcome brick := ofold (add_face strips) l brick_empty.
(** ids and intervals of the bars of a print, to compute with *)
Definition bars (b : brick) : list (nat * ivl) := map (fun f => (f_id f, iv (f_border f))) (br_facets b).
Definition ivl_eqb (a b : ivl) : bool := Qceqb (fst a) (fst b) && Qceqb (snd a) (snd b).
Definition bars_eqb (b c : list (nat * ivl)) : bool := list_eqb (fun x y => (fst x =? fst y) && ivl_eqb (snd x) (snd y)) b c.
Lemma put_bars l r : match put l with Ok b => bars_eqb (bars b) r | _ => false end = true -> exists b, put l = Ok b /\ bars b = r /\ built strips b l.
Proof.
  destruct (put l) as [b| |] eqn:E; try discriminate. intros H. exists b. split; auto. split; [|apply (built_list strips l _ [] _ (b_new strips)); auto].
  unfold bars_eqb in H. eapply list_eqb_spec; [|exact H]. intros x y. destruct x as [i [u v]], y as [j [u' v']]. unfold ivl_eqb. cbn [fst snd].
  rewrite !andb_true_iff, Nat.eqb_eq, !Qceqb_eq. split; [intros (-> & -> & ->); auto|]. intros [= -> H2]. split; auto.
Qed.
Lemma bar_good id a b pl : (q a < q b)%Qc -> good_strip (f_border (bar id a b pl)).
Proof. intros H. exists (q a, q b). auto. Qed.
(** three bars put one over the other *)
Definition three : list face2 := [bar 1 0 4 (level_at 1); bar 2 1 2 (level_at 5); bar 3 0 1 (level_at 3)].
Example C52_example : (exists b, put three = Ok b /\ bars b = [(1, (q 2, q 4)); (2, (q 1, q 2)); (3, (q 0, q 1))] /\ built strips b three) /\
  (forall f, In f three -> good_strip (f_border f)) /\ kernel_ok strips good_strip sgood_strip.
Proof.
  split; [apply put_bars; vm_compute; reflexivity|]. split; [|apply strips_ok]. intros f [<-|[<-|[<-|[]]]]; apply bar_good; vm_compute; reflexivity.
Qed.

(** ** C53 *)
Theorem C53_box : forall K b l, built K b l -> br_box b = boxes l.
Proof. intros K b l H. exact (built_box K b l H). Qed.
Theorem C53_encloses : forall K good sgood, kernel_ok K good sgood -> forall b l, built K b l -> (forall f, In f l -> good (f_border f)) ->
  forall x, In x (br_facets b) -> forall p, in_box (face_box x) p -> in_box (br_box b) p.
Proof. intros K good sgood OK b l B G x Hx p. now apply (built_encloses K good sgood OK b l B G x Hx). Qed.
Definition box_ok (b : option box2) : Prop := match b with None => True | Some b => (xmin b <= xmax b /\ ymin b <= ymax b)%Qc end.
(** the box of a union of boxes: the least box *)
Theorem C53_boxes : forall l p, (exists f, In f l /\ in_box (face_box f) p) -> in_box (boxes l) p.
Proof. intros l p (f & Hf & H). now apply (boxes_In f l Hf). Qed.
Lemma box_add_ok a b : box_ok a -> box_ok b -> box_ok (box_add a b).
Proof. destruct a as [a|], b as [b|]; cbn [box_ok box_add xmin xmax ymin ymax]; auto. intros [A1 A2] [B1 B2]. qcases; split; qo. Qed.
Lemma box_add_le a b B : box_ok a -> box_ok b -> box_le a B -> box_le b B -> box_le (box_add a b) B.
Proof.
  intros Ka Kb La Lb. destruct a as [a|]; [|exact Lb]. destruct b as [b|]; [|exact La]. intros p. cbn [box_add in_box xmin xmax ymin ymax box_ok] in *.
  pose proof (La (P2 (xmin a) (ymin a))) as A1. pose proof (La (P2 (xmax a) (ymax a))) as A2. pose proof (Lb (P2 (xmin b) (ymin b))) as B1. pose proof (Lb (P2 (xmax b) (ymax b))) as B2.
  cbn [in_box x2 y2] in *. destruct B as [B|].
  - destruct Ka as [Ka1 Ka2], Kb as [Kb1 Kb2]. cbn [in_box x2 y2] in *. assert (A1' := A1 ltac:(repeat split; qo)). assert (A2' := A2 ltac:(repeat split; qo)).
    assert (B1' := B1 ltac:(repeat split; qo)). assert (B2' := B2 ltac:(repeat split; qo)). qcases; intros (P1 & P2 & P3 & P4); repeat split; qo.
  - exfalso. apply A1. destruct Ka. repeat split; qo.
Qed.
Lemma ring_box_ok l : box_ok (ring_box l).
Proof.
  unfold ring_box. assert (G : forall b, box_ok b -> box_ok (fold_left (fun b p => box_add b (point_box p)) l b)); [|now apply G].
  induction l as [|p l IH]; intros b Kb; cbn [fold_left]; auto. apply IH. apply box_add_ok; auto. cbn. split; qo.
Qed.
Theorem C53_least : forall l B, (forall f p, In f l -> in_box (face_box f) p -> in_box B p) -> forall p, in_box (boxes l) p -> in_box B p.
Proof.
  intros l B H. assert (G : box_ok (boxes l) /\ box_le (boxes l) B); [|apply G]. induction l as [|f l IH]; cbn [boxes fold_right].
  - split; [exact I|intros p []].
  - destruct IH as [K L]; [intros g p Hg; apply (H g); right; auto|]. split; [apply box_add_ok; auto; apply ring_box_ok|].
    apply box_add_le; auto; [apply ring_box_ok|]. intros p. apply (H f). left; auto.
Qed.
Example C53_example : exists b, put three = Ok b /\ built strips b three /\ in_box (br_box b) (P2 (q 4) (q 1)) /\ ~ in_box (br_box b) (P2 (q 5) (q 1)).
Proof.
  destruct C52_example as [(b & E & _ & B) _]. exists b. split; auto. split; auto. rewrite (C53_box strips b three B).
  split; [repeat split; vm_compute; discriminate|]. intros (_ & H & _). vm_compute in H. now apply H.
Qed.

(** ** C54 *)
Theorem C54_two_facets : forall K good sgood, kernel_ok K good sgood -> sampled_inside K good -> forall g f, proper K good g -> proper K good f -> no_crossing K g f ->
  exists b', add_face K (brick_of g) f = Ok b' /\ upper_envelope K [g] f b'.
Proof. intros K good sgood OK SI. exact (envelope_two K good sgood OK SI). Qed.
(** the same with any number of facets that do not overlap, if the new facet is not contained
    in their union and stays in one piece *)
Theorem C54_many_facets : forall K good sgood, kernel_ok K good sgood -> sampled_inside K good -> forall b f,
  (forall g, In g (br_facets b) -> good (f_border g) /\ ~ vertical (f_plane g)) -> proper K good f -> apart K (map f_border (br_facets b)) ->
  contains_face K b f = false -> one_piece K f (br_facets b) ->
  (forall g, In g (br_facets b) -> uncrossed K (fun p => inside K (f_border g) p /\ inside K (f_border f) p) g f) ->
  exists b', add_face K b f = Ok b' /\ upper_envelope K (br_facets b) f b'.
Proof.
  intros K good sgood OK SI b f Fb. apply (envelope_many K good sgood OK SI). intros g Hg. destruct (Fb g Hg) as [G V]. split; auto.
  apply not_true_iff_false. now rewrite perp_vertical.
Qed.
Lemma bar_height id a b h p : height_is strips (bar id a b (level_at h)) p (q h).
Proof.
  unfold height_is. apply (plane_height_value strips _ p (q h)); cbn [bar f_plane level_at pl_c]; [discriminate|]. unfold on_plane. cbn [pl_a pl_b pl_c pl_d level_at x3 y3 z3]. ring.
Qed.
Lemma bar_uncrossed R id a b h id' a' b' h' : uncrossed strips R (bar id a b (level_at h)) (bar id' a' b' (level_at h')).
Proof.
  assert (V : forall id a b h p z, height_is strips (bar id a b (level_at h)) p z -> z = q h).
  { intros i x y k p z Hz. pose proof (bar_height i x y k p) as Hk. unfold height_is in *. rewrite Hz in Hk. now apply Ok_inj in Hk. }
  destruct (Qc_dec (q h') (q h)) as [[H|H]|H].
  - left. intros p zf zg _ Hf Hg. now rewrite (V _ _ _ _ _ _ Hf), (V _ _ _ _ _ _ Hg).
  - right; left. intros p zf zg _ Hf Hg. now rewrite (V _ _ _ _ _ _ Hf), (V _ _ _ _ _ _ Hg).
  - right; right. intros p zf zg _ Hf Hg. now rewrite (V _ _ _ _ _ _ Hf), (V _ _ _ _ _ _ Hg).
Qed.
Lemma bar_proper id a b h : (q a < q b)%Qc -> proper strips good_strip (bar id a b (level_at h)).
Proof. intros H. split; [now apply bar_good|]. split; [reflexivity|discriminate]. Qed.
Example C54_example :
  (let g := bar 1 0 4 (level_at 1) in let f := bar 2 1 2 (level_at 5) in
   proper strips good_strip g /\ proper strips good_strip f /\ no_crossing strips g f /\
   exists b', add_face strips (brick_of g) f = Ok b' /\ bars b' = [(1, (q 0, q 1)); (1, (q 2, q 4)); (2, (q 1, q 2))]) /\
  kernel_ok strips good_strip sgood_strip /\ sampled_inside strips good_strip.
Proof.
  split; [|split; [apply strips_ok|apply strips_sampled]]. cbv zeta. split; [apply bar_proper; vm_compute; reflexivity|]. split; [apply bar_proper; vm_compute; reflexivity|].
  split; [split; intros; apply bar_uncrossed|].
  destruct (put_bars [bar 1 0 4 (level_at 1); bar 2 1 2 (level_at 5)] [(1, (q 0, q 1)); (1, (q 2, q 4)); (2, (q 1, q 2))]) as (b & E & Eb & _); [vm_compute; reflexivity|].
  exists b. split; auto. 
Qed.
(** the pass over several facets: the hypotheses of [C54_many_facets] *)
Lemma ivls_apart s : ForallOrdPairs (fun i j : ivl => (snd i <= fst j)%Qc \/ (snd j <= fst i)%Qc) s -> apart strips (map istrip s).
Proof.
  intros H. apply FOP_map. eapply ForallOrdPairs_ind with (P := fun l => ForallOrdPairs (fun a b => forall p, ~ (inside strips (istrip a) p /\ inside strips (istrip b) p)) l); [constructor| |exact H].
  intros a l Ha _ IH. constructor; auto. eapply Forall_impl; [|exact Ha]. intros b Hb p [I1 I2]. apply strip_inside in I1, I2. unfold iin in *. destruct Hb; destruct I1 as (? & ? & _), I2 as (? & ? & _); qo.
Qed.
Example C54_many_example :
  let b := mkBrick None [bar 1 0 4 (level_at 1); bar 2 4 6 (level_at 9)] in let f := bar 3 5 8 (level_at 5) in
  apart strips (map f_border (br_facets b)) /\ contains_face strips b f = false /\ one_piece strips f (br_facets b) /\ overlaps strips b (f_border f) = true /\
  proper strips good_strip f /\ (forall g, In g (br_facets b) -> good_strip (f_border g) /\ ~ vertical (f_plane g)) /\
  (forall g, In g (br_facets b) -> uncrossed strips (fun p => inside strips (f_border g) p /\ inside strips (f_border f) p) g f).
Proof.
  cbv zeta. split; [change (apart strips (map istrip [(q 0, q 4); (q 4, q 6)])); apply ivls_apart; constructor; [|repeat constructor]; constructor; [left; apply Qcle_refl|constructor]|].
  split; [vm_compute; reflexivity|]. split; [|split; [vm_compute; reflexivity|split; [apply bar_proper; vm_compute; reflexivity|split]]].
  - intros [|[|k]] res cs Hk E; [| |cbn in Hk; lia]; vm_compute in E; injection E as _ <-; eexists; (split; [reflexivity|split; [vm_compute; reflexivity|discriminate]]).
  - intros g [<-|[<-|[]]]; (split; [apply bar_good; vm_compute; reflexivity|discriminate]).
  - intros g [<-|[<-|[]]]; apply bar_uncrossed.
Qed.
(** the ids of the facets seen at a point *)
Definition ids_at (b : brick) (x : Qc) : list nat := map f_id (seen strips b (at_ x)).
Lemma put_snoc l f b b' : put l = Ok b -> put (l ++ [f]) = Ok b' -> add_face strips b f = Ok b'.
Proof.
  unfold put. generalize brick_empty. induction l as [|g l IH]; intros a E E'; cbn [ofold app] in *.
  - apply Ok_inj in E. subst b. destruct (add_face strips a f); auto.
  - apply bind_Ok in E as (c & Ec & E). rewrite Ec in E'. cbn [bind] in E'. eapply IH; eauto.
Qed.
Lemma bar_clear id a b pl x : Qceqb x (q a) || Qceqb x (q b) = false -> clear strips (f_border (bar id a b pl)) (at_ x).
Proof.
  intros H. apply orb_false_iff in H as [H1 H2]. apply Qceqb_neq in H1, H2. apply (strip_clear (q a, q b)). unfold iin, iout. cbn [fst snd at_ x2 y2].
  destruct (Qc_dec x (q a)) as [[E|E]|E]; auto; [|contradiction]. destruct (Qc_dec x (q b)) as [[E'|E']|E']; auto; [|contradiction]. left. split; auto. split; auto. split; reflexivity.
Qed.
Lemma bar_inside id a b pl x : inside strips (f_border (bar id a b pl)) (at_ x) <-> Qcltb (q a) x && Qcltb x (q b) = true.
Proof.
  rewrite andb_true_iff, !Qcltb_lt. transitivity (iin (q a, q b) (at_ x)); [apply (strip_inside (q a, q b))|]. unfold iin. cbn [fst snd at_ x2 y2]. split; [tauto|]. intros [A B]. repeat split; auto.
Qed.
(** A new facet (9, at height 5) is cut in two by facet 1.  Then facet 2, which lies elsewhere, is in the
    print twice, and facet 3, which lies under the new facet, still shows.  No two of these facets cross
    and those of the print do not overlap. *)
Definition cutting : list face2 := [bar 1 2 3 (level_at 10); bar 2 6 7 (level_at 1); bar 3 0 1 (level_at 1)].
Theorem C54_pieces_refuted : exists b b', put cutting = Ok b /\ br_facets b = cutting /\ apart strips (map f_border cutting) /\
  (forall g, In g cutting -> uncrossed strips (fun _ => True) g (bar 9 0 5 (level_at 5))) /\
  add_face strips b (bar 9 0 5 (level_at 5)) = Ok b' /\ ids_at b' (half 13) = [2; 2] /\ ids_at b' (half 1) = [3; 9] /\ ~ upper_envelope strips cutting (bar 9 0 5 (level_at 5)) b'.
Proof.
  destruct (put cutting) as [b| |] eqn:E; try (vm_compute in E; discriminate E). destruct (put (cutting ++ [bar 9 0 5 (level_at 5)])) as [b'| |] eqn:E'; try (vm_compute in E'; discriminate E').
  exists b, b'. split; auto. split; [revert E; vm_compute; intros [= <-]; reflexivity|].
  split; [change (apart strips (map istrip [(q 2, q 3); (q 6, q 7); (q 0, q 1)])); apply ivls_apart; repeat (constructor; [repeat (constructor; [first [left; vm_compute; discriminate|right; vm_compute; discriminate]|]); constructor|]); constructor|].
  split; [intros g [<-|[<-|[<-|[]]]]; apply bar_uncrossed|]. split; [eapply put_snoc; eauto|].
  assert (S : ids_at b' (half 13) = [2; 2] /\ ids_at b' (half 1) = [3; 9]) by (clear E; revert E'; vm_compute; intros [= <-]; split; reflexivity).
  split; [apply S|]. split; [apply S|]. intros U. destruct (U (at_ (half 13))) as (_ & _ & U3 & _).
  - intros g [<-|[<-|[<-|[]]]]; apply bar_clear; vm_compute; reflexivity.
  - apply bar_clear; vm_compute; reflexivity.
  - destruct (U3 (bar 2 6 7 (level_at 1))) as (x & Ex & _); [right; left; reflexivity|apply bar_inside; vm_compute; reflexivity|rewrite bar_inside; vm_compute; discriminate|].
    destruct S as [S _]. unfold ids_at in S. rewrite Ex in S. discriminate S.
Qed.
(** A facet at height 5 over two facets at heights 0 and 10 that cover it: compared at one point
    (over the second), it is dropped, although it is the upper one over the first. *)
Definition steps : list face2 := [bar 1 0 2 (level_at 0); bar 2 2 4 (level_at 10)].
Theorem C54_sample_refuted : exists b b', put steps = Ok b /\ br_facets b = steps /\ apart strips (map f_border steps) /\
  (forall g, In g steps -> uncrossed strips (fun _ => True) g (bar 9 0 4 (level_at 5))) /\
  add_face strips b (bar 9 0 4 (level_at 5)) = Ok b' /\ ids_at b' (q 1) = [1] /\ ~ upper_envelope strips steps (bar 9 0 4 (level_at 5)) b'.
Proof.
  destruct (put steps) as [b| |] eqn:E; try (vm_compute in E; discriminate E). destruct (put (steps ++ [bar 9 0 4 (level_at 5)])) as [b'| |] eqn:E'; try (vm_compute in E'; discriminate E').
  exists b, b'. split; auto. split; [revert E; vm_compute; intros [= <-]; reflexivity|].
  split; [change (apart strips (map istrip [(q 0, q 2); (q 2, q 4)])); apply ivls_apart; repeat (constructor; [repeat (constructor; [first [left; vm_compute; discriminate|right; vm_compute; discriminate]|]); constructor|]); constructor|].
  split; [intros g [<-|[<-|[]]]; apply bar_uncrossed|]. split; [eapply put_snoc; eauto|].
  assert (S : ids_at b' (q 1) = [1]) by (clear E; revert E'; vm_compute; intros [= <-]; reflexivity).
  split; [apply S|]. intros U. destruct (U (at_ (q 1))) as (_ & _ & _ & U4).
  - intros g [<-|[<-|[]]]; apply bar_clear; vm_compute; reflexivity.
  - apply bar_clear; vm_compute; reflexivity.
  - destruct (U4 (bar 1 0 2 (level_at 0))) as (x & zg & zf & Ex & Hg & Hf & H); [left; reflexivity|apply bar_inside; vm_compute; reflexivity|apply bar_inside; vm_compute; reflexivity|].
    unfold ids_at in S. rewrite Ex in S. cbn [map] in S. injection S as S. pose proof (bar_height 1 0 2 0 (at_ (q 1))) as Vg. pose proof (bar_height 9 0 4 5 (at_ (q 1))) as Vf.
    unfold height_is in *. rewrite Hg in Vg. rewrite Hf in Vf. apply Ok_inj in Vg, Vf. subst zg zf. destruct H as [[_ H]|[[H _] _]]; [vm_compute in H; now apply H|].
    rewrite S in H. discriminate H.
Qed.

(** ** C55 *)
Theorem C55_coverage : forall K good sgood, kernel_ok K good sgood -> forall b f b' p,
  (forall g, In g (br_facets b) -> good (f_border g)) -> proper K good f -> add_face K b f = Ok b' ->
  (overlaps K b (f_border f) = false \/ is_under K b f = Ok true \/ never_hidden K f (br_facets b)) ->
  (forall g, In g (br_facets b) -> clear K (f_border g) p) -> clear K (f_border f) p ->
  (exists g, In g (f :: br_facets b) /\ covered K (f_border g) p) -> exists x, In x (br_facets b') /\ covered K (f_border x) p.
Proof.
  intros K good sgood OK b f b' p Gb Pf A Cond Cb Cf (g & Hg & Cg). apply brick_contains_cov. apply (cover_proof K good sgood OK b f b' p); auto.
  destruct Hg as [<-|Hg]; [right; now apply contains_covered|left; apply brick_contains_cov; eauto].
Qed.
(** what the conditions mean for the points of the facets *)
Theorem C55_overlaps : forall K good sgood, kernel_ok K good sgood -> forall b f, (forall g, In g (br_facets b) -> good (f_border g)) -> good (f_border f) ->
  overlaps K b (f_border f) = false -> forall g p, In g (br_facets b) -> (forall h, In h (br_facets b) -> clear K (f_border h) p) -> clear K (f_border f) p ->
  ~ (inside K (f_border g) p /\ inside K (f_border f) p).
Proof. intros K good sgood OK b f Gb Gf O g p Hg Cb Cf [I1 I2]. eapply (no_overlap K good sgood OK b (f_border f) p); eauto. Qed.
Example C55_example : exists b b', put steps = Ok b /\ add_face strips b (bar 9 3 5 (level_at 5)) = Ok b' /\ bars b' = [(1, (q 0, q 2)); (2, (q 2, q 4)); (9, (q 4, q 5))] /\
  never_hidden strips (bar 9 3 5 (level_at 5)) (br_facets b).
Proof.
  destruct (put steps) as [b| |] eqn:E; try (vm_compute in E; discriminate E).
  destruct (put_bars (steps ++ [bar 9 3 5 (level_at 5)]) [(1, (q 0, q 2)); (2, (q 2, q 4)); (9, (q 4, q 5))]) as (b' & E' & B & _); [vm_compute; reflexivity|].
  exists b, b'. split; auto. split; [eapply put_snoc; eauto|]. split; auto. assert (Fb : br_facets b = steps) by (revert E; vm_compute; intros [= <-]; reflexivity). rewrite Fb.
  intros [|[|k]] res cs Hk Ec; [| |cbn in Hk; lia]; vm_compute in Ec; injection Ec as _ <-; (split; [discriminate|constructor; [split; [vm_compute; reflexivity|discriminate]|constructor]]).
Qed.
(** facet 3, at [5,6], overlaps nothing and is lost when facet 9 is added at [0,4] *)
Definition bystander : list face2 := [bar 1 0 2 (level_at 10); bar 2 2 4 (slope 1 0); bar 3 5 6 (level_at 1)].
Theorem C55_coverage_refuted : exists b b', put bystander = Ok b /\ br_facets b = bystander /\ add_face strips b (bar 9 0 4 (level_at 3)) = Ok b' /\
  ids_at b (half 11) = [3] /\ ids_at b' (half 11) = [].
Proof.
  destruct (put bystander) as [b| |] eqn:E; try (vm_compute in E; discriminate E).
  destruct (put (bystander ++ [bar 9 0 4 (level_at 3)])) as [b'| |] eqn:E'; try (vm_compute in E'; discriminate E').
  exists b, b'. split; auto. split; [revert E; vm_compute; intros [= <-]; reflexivity|]. split; [eapply put_snoc; eauto|].
  split; [clear E'; revert E|clear E; revert E']; vm_compute; intros [= <-]; reflexivity.
Qed.

(** ** C56 *)
Theorem C56_facets : forall f g, plain g -> (face_eqb f g = true <-> same_face f g).
Proof. exact face_eqb_spec. Qed.
Theorem C56_bricks : forall b c, (forall f, In f (br_facets b) -> plain f) -> (forall f, In f (br_facets c) -> plain f) ->
  (brick_eqb b c = true <-> same_facets (br_facets b) (br_facets c)).
Proof. exact brick_eqb_spec. Qed.
Theorem C56_footprints : forall a b, (forall f, In f (br_facets (fp_proj a)) -> plain f) -> (forall f, In f (br_facets (fp_proj b)) -> plain f) ->
  (foot_eqb a b = true <-> pt_eqb (fp_ref a) (fp_ref b) = true /\ fp_epsg a = fp_epsg b /\ same_facets (br_facets (fp_proj a)) (br_facets (fp_proj b))).
Proof. intros a b Pa Pb. unfold foot_eqb. rewrite !andb_true_iff, N.eqb_eq, brick_eqb_spec by auto. tauto. Qed.
(** sameness is an equivalence and does not depend on the order *)
Theorem C56_equivalence : (forall l, same_facets l l) /\ (forall l m, same_facets l m -> same_facets m l) /\ (forall l m n, same_facets l m -> same_facets m n -> same_facets l n) /\
  (forall l m, Permutation l m -> same_facets l m).
Proof.
  assert (R : forall l, Forall2 same_face l l) by (induction l; constructor; auto using same_face_refl).
  assert (Sy : forall l m, Forall2 same_face l m -> Forall2 same_face m l) by (induction 1; constructor; auto using same_face_sym).
  assert (PF : forall l m m', Forall2 same_face l m -> Permutation m m' -> exists l', Permutation l l' /\ Forall2 same_face l' m').
  { intros l m m' F P. revert l F. induction P as [|x m m' P IH|x y m|m m1 m2 P1 IH1 P2 IH2]; intros l F.
    - inversion F; subst. exists []. auto.
    - inversion F as [|a ? l1 ? Ha F1]; subst. destruct (IH _ F1) as (l' & P' & F'). exists (a :: l'). auto.
    - inversion F as [|a ? l1 ? Ha F1]; subst. inversion F1 as [|b ? l2 ? Hb F2]; subst. exists (b :: a :: l2). split; [apply perm_swap|auto].
    - destruct (IH1 _ F) as (l1 & Q1 & F1). destruct (IH2 _ F1) as (l2 & Q2 & F2). exists l2. split; auto. etransitivity; eauto. }
  split; [|split; [|split]].
  - intros l. exists l. auto.
  - intros l m (m' & P & F). destruct (PF l m' m F) as (l' & P' & F'); [now symmetry|]. exists l'. auto.
  - intros l m n (m' & P & F) (n' & P' & F'). destruct (PF n' m m') as (n'' & P'' & F''); auto. exists n''. split; [etransitivity; eauto|].
    apply Sy in F''. clear -F F''. revert n'' F''. induction F; intros n F''; inversion F''; subst; constructor; eauto using same_face_trans.
  - intros l m P. exists l. split; [now symmetry|auto].
Qed.
(** ids and names are not compared *)
Theorem C56_ignored : forall f id, plain f -> face_eqb (mkFace2 id (f_border f) (f_plane f)) f = true /\
  (forall a b n, foot_eqb a (mkFoot n (fp_ref b) (fp_epsg b) (fp_proj b)) = foot_eqb a b).
Proof.
  intros f id P. split; [|reflexivity]. apply face_eqb_spec; auto. split; [apply rotated_refl|]. split; [|apply same_plane_refl].
  cbn [f_border]. induction (holes (f_border f)); constructor; auto. apply rotated_refl.
Qed.
(** a ring that goes twice through a vertex: the comparison is not symmetric *)
Definition pA := P2 0%Qc 0%Qc. Definition pB := P2 1%Qc 0%Qc. Definition pC := P2 0%Qc 1%Qc.
Theorem C56_symmetry_refuted :
  let f := mkFace2 0 (mkPoly [pB; pA; pC; pA] []) (level_at 0) in let g := mkFace2 0 (mkPoly [pA; pB; pA; pC] []) (level_at 0) in
  face_eqb f g = true /\ face_eqb g f = false /\ ~ plain f.
Proof.
  cbv zeta. split; [vm_compute; reflexivity|]. split; [vm_compute; reflexivity|]. intros [N _]. cbn [outer f_border] in N. inversion N as [|? ? _ N']. inversion N' as [|? ? X _]. apply X. cbn; auto.
Qed.
Example C56_example : exists b c, put three = Ok b /\ put [bar 4 2 4 (level_at 1); bar 5 0 1 (mkPlane 0 0 (q 2) (- q 6)%Qc); bar 6 1 2 (level_at 5)] = Ok c /\ brick_eqb b c = true /\
  (forall f, In f (br_facets b) -> plain f).
Proof.
  destruct (put three) as [b| |] eqn:E; try (vm_compute in E; discriminate E).
  match goal with |- exists _ _, _ /\ ?x = _ /\ _ => destruct x as [c| |] eqn:E' end; try (vm_compute in E'; discriminate E').
  exists b, c. split; auto. split; auto. split.
  - assert (X : match put three, put [bar 4 2 4 (level_at 1); bar 5 0 1 (mkPlane 0 0 (q 2) (- q 6)%Qc); bar 6 1 2 (level_at 5)] with Ok b, Ok c => brick_eqb b c | _, _ => false end = true) by (vm_compute; reflexivity).
    rewrite E, E' in X. exact X.
  - clear E'. revert E. vm_compute. intros [= <-]. cbn [br_facets]. intros f [<-|[<-|[<-|[]]]]; (split; [|constructor]); cbn [f_border outer]; repeat constructor; cbn; intuition discriminate.
Qed.

(** ** C57 *)
Lemma bind_Throw {A B} (o : outcome A) (f : A -> outcome B) e : bind o f = Throw e -> o = Throw e \/ exists a, o = Ok a /\ f a = Throw e.
Proof. destruct o; cbn; intros H; try discriminate; eauto. injection H as ->. auto. Qed.
Lemma ofold_throws {A B} (f : A -> B -> outcome A) e0 : (forall a b e, f a b = Throw e -> e = e0) -> forall l a e, ofold f l a = Throw e -> e = e0.
Proof. intros H. induction l as [|b l IH]; intros a e E; cbn [ofold] in E; [discriminate|]. apply bind_Throw in E as [E|(a' & _ & E)]; eauto. Qed.
Lemma plane_height_throws K f p e : plane_height K f p = Throw e -> e = OverflowError.
Proof. unfold plane_height. destruct (Qceqb (pl_c (f_plane f)) 0); congruence. Qed.
Lemma face_height_throws K f p e : face_height K f p = Throw e -> e = OverflowError.
Proof. unfold face_height. intros E. apply bind_Throw in E as [E|(z & _ & E)]; [now apply plane_height_throws in E|discriminate]. Qed.
Lemma sample_throws l e : sample l = Throw e -> False.
Proof. unfold sample. destruct l as [|? [|? [|]]]; discriminate. Qed.
Lemma add_face_throws K b f e : add_face K b f = Throw e -> e = OverflowError.
Proof.
  assert (P : forall l r acc e, occlude_pair K l r acc = Throw e -> e = OverflowError).
  { intros l r acc e0. unfold occlude_pair. destruct (k_inter2 K (f_border l) (f_border r)) as [|i is]; [discriminate|]. intros E. apply bind_Throw in E as [E|([sl sr] & _ & E)]; [|discriminate].
    eapply ofold_throws; [|exact E]. intros st j e1 E1. unfold cut_one in E1. apply bind_Throw in E1 as [E1|(p & _ & E1)]; [now apply sample_throws in E1|].
    apply bind_Throw in E1 as [E1|(z & _ & E1)]; [now apply plane_height_throws in E1|]. apply bind_Throw in E1 as [E1|(z' & _ & E1)]; [now apply plane_height_throws in E1|discriminate]. }
  assert (O : forall rs cs e, occlude_all K cs rs = Throw e -> e = OverflowError).
  { induction rs as [|r rs IH]; intros cs e0 E; cbn [occlude_all] in E; [discriminate|]. apply bind_Throw in E as [E|([lf cs'] & _ & E)].
    - unfold occlusion in E. eapply ofold_throws; [|exact E]. intros a c e1. apply P.
    - apply bind_Throw in E as [E|([res c2] & _ & E)]; [eauto|discriminate]. }
  unfold add_face. intros E. apply bind_Throw in E as [E|(fs & _ & E)]; [|discriminate]. destruct (br_facets b); [discriminate|]. destruct (negb (overlaps K b (f_border f))); [discriminate|].
  apply bind_Throw in E as [E|(u & _ & E)].
  - unfold is_under in E. destruct (is_perpendicular f || is_degenerate K f); [discriminate|]. apply bind_Throw in E as [E|(p & _ & E)]; [now apply sample_throws in E|].
    destruct (contains_face K b f); [|discriminate]. apply bind_Throw in E as [E|(z & _ & E)]; [now apply face_height_throws in E|].
    apply bind_Throw in E as [E|(t & _ & E)]; [|discriminate]. unfold brick_height in E. destruct (brick_contains K b p); [|discriminate].
    eapply ofold_throws; [|exact E]. intros a g e1 E1. apply bind_Throw in E1 as [E1|(z' & _ & E1)]; [now apply face_height_throws in E1|discriminate].
  - destruct u; [discriminate|]. apply bind_Throw in E as [E|([res cs] & _ & E)]; [eauto|discriminate].
Qed.
Lemma add_brick_throws K b c e : add_brick K b c = Throw e -> e = OverflowError.
Proof.
  unfold add_brick. intros E. apply bind_Throw in E as [E|(r & _ & E)]; [|discriminate]. eapply ofold_throws; [|exact E].
  cbv beta. intros a f e1 E1. destruct (face_empty f || is_degenerate K f) eqn:D; [discriminate E1|]. eapply add_face_throws; eauto.
Qed.
Definition same_place (a b : footprint) : Prop := pt_eqb (fp_ref b) (fp_ref a) = true /\ fp_epsg a = fp_epsg b.
Theorem C57_empty_left : forall K a b, br_facets (fp_proj a) = [] -> foot_add K a b = (b, Ok tt).
Proof. intros K a b E. unfold foot_add. now rewrite E. Qed.
Theorem C57_mismatch : forall K a b, (snd (foot_add K a b) = Throw LogicError <-> br_facets (fp_proj a) <> [] /\ ~ same_place a b) /\
  (forall e, snd (foot_add K a b) = Throw e -> fst (foot_add K a b) = a).
Proof.
  intros K a b. unfold foot_add, same_place, pt_neqb.
  destruct (br_facets (fp_proj a)) as [|x l] eqn:E; [split; [split; [discriminate|intros [X _]; now destruct X]|discriminate]|].
  destruct (pt_eqb (fp_ref b) (fp_ref a)) eqn:P; cbn [negb orb].
  - destruct (fp_epsg a =? fp_epsg b)%N eqn:G; cbn [negb].
    + apply N.eqb_eq in G. split; [|destruct (add_brick K (fp_proj a) (fp_proj b)); cbn; intros; congruence]. split.
      * intros H. exfalso. destruct (add_brick K (fp_proj a) (fp_proj b)) as [|e|] eqn:A; cbn in H; try congruence. apply add_brick_throws in A. congruence.
      * intros [_ N]. exfalso; auto.
    + apply N.eqb_neq in G. split; auto. cbn. split; auto. intros _. split; [discriminate|]. intros [_ X]. contradiction.
  - split; auto. cbn. split; auto. intros _. split; [discriminate|]. intros [X _]. discriminate.
Qed.
Theorem C57_match : forall K a b p, br_facets (fp_proj a) <> [] -> same_place a b -> add_brick K (fp_proj a) (fp_proj b) = Ok p ->
  foot_add K a b = (mkFoot (fp_name a) (fp_ref a) (fp_epsg a) p, Ok tt).
Proof.
  intros K a b p N [P G] E. unfold foot_add, pt_neqb. rewrite P, G, N.eqb_refl, E. cbn [negb orb]. destruct (br_facets (fp_proj a)); [contradiction|auto].
Qed.
(** the sum of the footprints of a scene: one of them gives the name and the place *)
Theorem C57_sum : forall K f l r, foot_sum K (f :: l) = Ok r ->
  (l = [] -> r = f) /\ exists g, In g (f :: l) /\ fp_name r = fp_name g /\ fp_ref r = fp_ref g /\ fp_epsg r = fp_epsg g.
Proof.
  intros K f l r E. assert (E' : ofold (foot_plus K) l f = Ok r) by exact E. clear E. split; [intros ->; now apply Ok_inj in E'|].
  revert f E'. induction l as [|h l IH]; intros f E; cbn [ofold] in E.
  - apply Ok_inj in E. subst r. exists f. cbn; auto.
  - apply bind_Ok in E as (a & Ea & E). destruct (IH a E) as (g & [<-|Hg] & G); [|exists g; cbn; auto].
    unfold foot_plus in Ea. destruct (foot_add K f h) as [x [[]| |]] eqn:A; try discriminate. apply Ok_inj in Ea. subst x.
    unfold foot_add in A. destruct (br_facets (fp_proj f)); [injection A as <-; exists h; cbn; auto|].
    destruct (pt_neqb (fp_ref f) (fp_ref h) || negb (fp_epsg f =? fp_epsg h)%N); [discriminate|]. destruct (add_brick K (fp_proj f) (fp_proj h)); try discriminate.
    injection A as <-. exists f. cbn in *; auto.
Qed.
Example C57_example : exists a b c, br_facets (fp_proj a) <> [] /\ same_place a b /\ ~ same_place a c /\
  (exists r, foot_add strips a b = (r, Ok tt) /\ fp_name r = fp_name a /\ bars (fp_proj r) = [(1, (q 0, q 1)); (2, (q 1, q 2))]) /\ foot_add strips a c = (a, Throw LogicError).
Proof.
  exists (mkFoot ["a"%char] point_default 2154 (brick_of (bar 1 0 1 (level_at 1)))), (mkFoot ["b"%char] point_default 2154 (brick_of (bar 2 1 2 (level_at 1)))),
    (mkFoot ["c"%char] point_default 4326 (brick_of (bar 2 1 2 (level_at 1)))).
  split; [discriminate|]. split; [split; reflexivity|]. split; [intros [_ X]; discriminate X|]. split.
  - destruct (add_brick strips (brick_of (bar 1 0 1 (level_at 1))) (brick_of (bar 2 1 2 (level_at 1)))) as [p| |] eqn:E; try (vm_compute in E; discriminate E).
    eexists. split; [apply C57_match with (p := p); [discriminate|split; reflexivity|exact E]|]. split; [reflexivity|]. cbn [fp_proj]. revert E. vm_compute. intros [= <-]. reflexivity.
  - reflexivity.
Qed.

(** ** C58 *)
Definition labelled {S} (u : unode S) (f : footprint) : Prop := fp_name f = u_name u /\ fp_ref f = u_ref u /\ fp_epsg f = u_epsg u.
Theorem C58_orthoproject : forall K S (surf : S -> surface) s terrain l, orthoproject K surf s terrain = Ok l ->
  Forall2 labelled (sc_buildings s ++ (if terrain then [sc_terrain s] else [])) l.
Proof.
  intros K S surf s terrain l E.
  assert (F1 : forall u f, foot_of K surf u = Ok f -> labelled u f).
  { intros u f Ef. unfold foot_of in Ef. apply bind_Ok in Ef as (prints & _ & Ef). apply bind_Ok in Ef as (b & _ & Ef). apply Ok_inj in Ef. subst f. repeat split. }
  assert (FM : forall us fs, omapM (foot_of K surf) us = Ok fs -> Forall2 labelled us fs).
  { induction us as [|u us IH]; intros fs Ef; cbn [omapM] in Ef; [apply Ok_inj in Ef; subst; constructor|]. apply bind_Ok in Ef as (x & Ex & Ef). apply bind_Ok in Ef as (xs & Exs & Ef). apply Ok_inj in Ef. subst fs. constructor; auto. }
  unfold orthoproject in E. apply bind_Ok in E as (l1 & E1 & E). destruct terrain.
  - apply bind_Ok in E as (t & Et & E). apply Ok_inj in E. subst l. apply Forall2_app; auto.
  - apply Ok_inj in E. subst l. rewrite app_nil_r. auto.
Qed.
Lemma filter_length_le {A} (t : A -> bool) l : length (filter t l) <= length l.
Proof. induction l as [|a l IH]; cbn; auto. destruct (t a); cbn; lia. Qed.
(** the facets of a footprint come from the facets of the building that are not vertical, in order *)
Theorem C58_facets : forall K S (surf : S -> surface) u f, foot_of K surf u = Ok f ->
  exists prints, orthoprint K (surf (u_surf u)) = Ok prints /\ built K (fp_proj f) prints.
Proof.
  intros K S surf u f E. unfold foot_of in E. apply bind_Ok in E as (prints & Ep & E). apply bind_Ok in E as (b & Eb & E). apply Ok_inj in E. subst f. exists prints. split; auto. cbn [fp_proj].
  assert (Fl : filter_facets K prints = prints).
  { unfold orthoprint in Ep. apply bind_Ok in Ep as (l & _ & Ep). apply Ok_inj in Ep. subst prints. apply filter_all. apply Forall_forall. intros x Hx. now apply filter_In in Hx. }
  assert (G : forall l b0 m, filter_facets K l = l -> built K b0 m -> ofold (fun b f => add_brick K b (brick_of f)) l b0 = Ok b -> built K b (m ++ l)).
  { induction l as [|x l IH]; intros b0 m Fx B0 Ex; cbn [ofold] in Ex; [apply Ok_inj in Ex; subst; now rewrite app_nil_r|].
    apply bind_Ok in Ex as (b1 & E1 & Ex). cbn [filter_facets filter] in Fx. destruct (negb (face_empty x || is_degenerate K x)) eqn:D.
    - injection Fx as Fx. change (x :: l) with ([x] ++ l). rewrite app_assoc. apply (IH b1); auto.
      pose proof (b_sum K b0 m (brick_of x) [x] b1 B0 (b_face K x) E1) as X. cbn [brick_of br_facets filter] in X. rewrite D in X. exact X.
    - exfalso. assert (X : length (filter (fun f => negb (face_empty f || is_degenerate K f)) l) = length (x :: l)) by (now rewrite Fx). pose proof (filter_length_le (fun f => negb (face_empty f || is_degenerate K f)) l). cbn in X. lia. }
  apply (G prints brick_empty []); auto. constructor.
Qed.
(** projecting succeeds if the surfaces are sound and CGAL accepts the polygons *)
Theorem C58_total : forall K good sgood, kernel_ok K good sgood -> sampled_inside K good -> forall S (surf : S -> surface) s terrain,
  (forall u, In u (sc_terrain s :: sc_buildings s) -> valid (surf (u_surf u)) /\
     forall prints f, orthoprint K (surf (u_surf u)) = Ok prints -> In f prints -> good (f_border f)) ->
  exists l, orthoproject K surf s terrain = Ok l.
Proof.
  intros K good sgood OK SI S surf s terrain H.
  assert (AB : forall b f, fine good (br_facets b) -> fine good [f] -> exists b', add_brick K b (brick_of f) = Ok b' /\ fine good (br_facets b')).
  { intros b f Fb Ff. unfold add_brick. cbn [brick_of br_facets ofold].
    assert (Fb' : fine good (br_facets (brick_filter K b))) by (intros x Hx; apply Fb; cbn in Hx; now apply filter_In in Hx).
    destruct (face_empty f || is_degenerate K f); cbn [bind].
    - eexists. split; [reflexivity|]. intros x Hx. apply Fb'. cbn [brick_filter br_facets] in Hx. now apply filter_In in Hx.
    - destruct (add_face_ok K good sgood OK SI (brick_filter K b) f Fb' Ff) as (b' & E). rewrite E. cbn [bind]. eexists. split; [reflexivity|].
      assert (F' : fine good (br_facets b')).
      { apply (fine_from K good (br_facets (brick_filter K b) ++ [f])); [intros x Hx; apply in_app_or in Hx as [Hx|Hx]; auto|].
        apply (add_face_from K good sgood OK (brick_filter K b) f b'); auto; [intros x Hx; now apply Fb'|apply Ff; left; auto]. }
      intros x Hx. apply F'. cbn [brick_filter br_facets] in Hx. now apply filter_In in Hx. }
  assert (FO : forall u, In u (sc_terrain s :: sc_buildings s) -> exists f, foot_of K surf u = Ok f).
  { intros u Hu. destruct (H u Hu) as (V & G). destruct (orthoprint_spec K _ V) as (prints & E & _). unfold foot_of. rewrite E. cbn [bind].
    remember (filter (fun x => negb (Qceqb (pl_c (f_plane x)) 0)) prints) as ps eqn:Eps.
    assert (Fp : fine good ps). { intros x Hx. split; [eapply G; eauto|]. rewrite Eps in Hx. apply filter_In in Hx as [_ Hx]. unfold is_perpendicular. now destruct (Qceqb (pl_c (f_plane x)) 0). }
    assert (X : forall l b, fine good l -> fine good (br_facets b) -> exists b', ofold (fun b f => add_brick K b (brick_of f)) l b = Ok b').
    { induction l as [|x l IH]; intros b Fl Fb; cbn [ofold]; [eauto|]. destruct (AB b x Fb) as (b1 & E1 & F1); [intros y [<-|[]]; apply Fl; left; auto|]. rewrite E1. cbn [bind]. apply IH; auto. intros y Hy; apply Fl; right; auto. }
    destruct (X ps brick_empty Fp) as (b & Eb); [intros y []|]. rewrite Eb. cbn [bind]. eauto. }
  unfold orthoproject.
  assert (FM : forall us, incl us (sc_buildings s) -> exists fs, omapM (foot_of K surf) us = Ok fs).
  { induction us as [|u us IH]; intros I; cbn [omapM]; [eauto|]. destruct (FO u) as (f & Ef); [right; apply I; left; auto|]. rewrite Ef. cbn [bind].
    destruct IH as (fs & Efs); [intros y Hy; apply I; right; auto|]. rewrite Efs. cbn [bind]. eauto. }
  destruct (FM (sc_buildings s)) as (fs & Efs); [intros y; auto|]. rewrite Efs. cbn [bind]. destruct terrain; [|eauto]. destruct (FO (sc_terrain s)) as (t & Et); [left; auto|]. rewrite Et. cbn [bind]. eauto.
Qed.
(** two facets side by side, over [0,1] and [1,2] *)
Definition row : surface := build_surface [pt 0 0 1; pt 1 0 1; pt 1 1 1; pt 0 1 1; pt 2 0 1; pt 2 1 1] [[3; 0; 1; 2]; [2; 1; 4; 5]].
Lemma row_valid : valid row. Proof. apply check_valid. vm_compute. reflexivity. Qed.
Lemma row_prints : exists a b, orthoprint strips row = Ok [a; b] /\ f_border a = strip (q 0) (q 1) /\ f_border b = strip (q 1) (q 2).
Proof.
  destruct (orthoprint strips row) as [[|a [|b [|]]]| |] eqn:E; try (vm_compute in E; discriminate E). exists a, b. split; auto. apply Ok_inj in E. split.
  - apply (f_equal (fun l => match l with x :: _ => f_border x | _ => strip 0 0 end)) in E. cbv beta iota in E. rewrite <- E. vm_compute. reflexivity.
  - apply (f_equal (fun l => match l with _ :: x :: _ => f_border x | _ => strip 0 0 end)) in E. cbv beta iota in E. rewrite <- E. vm_compute. reflexivity.
Qed.
Example C58_example : let s := mkScene point_default 2154%N [mkUNode ["a"%char] point_default 2154%N row; mkUNode ["b"%char] point_default 2154%N row] (mkUNode ["t"%char] point_default 2154%N row) in
  (forall u, In u (sc_terrain s :: sc_buildings s) -> valid (u_surf u) /\
     forall prints f, orthoprint strips (u_surf u) = Ok prints -> In f prints -> good_strip (f_border f)) /\
  exists l, orthoproject strips (fun x => x) s true = Ok l /\ map fp_name l = [["a"%char]; ["b"%char]; ["t"%char]].
Proof.
  cbv zeta. assert (R : forall u : unode surface, u_surf u = row -> valid (u_surf u) /\
     forall prints f, orthoprint strips (u_surf u) = Ok prints -> In f prints -> good_strip (f_border f)).
  { intros u ->. split; [apply row_valid|].
    intros prints f E Hf. destruct row_prints as (a & b & E' & Ea & Eb). rewrite E' in E. apply Ok_inj in E. subst prints. destruct Hf as [<-|[<-|[]]].
      + exists (q 0, q 1). split; [vm_compute; reflexivity|exact Ea].
      + exists (q 1, q 2). split; [vm_compute; reflexivity|exact Eb]. }
  split; [intros u [<-|[<-|[<-|[]]]]; apply R; reflexivity|].
  match goal with |- context [orthoproject strips _ ?s true] => destruct (C58_total strips good_strip sgood_strip strips_ok strips_sampled surface (fun x => x) s true) as (l & E) end.
  { intros u Hu. cbn [sc_terrain sc_buildings] in Hu. destruct Hu as [<-|[<-|[<-|[]]]]; apply R; reflexivity. }
  exists l. split; auto. apply C58_orthoproject in E. cbn [sc_buildings sc_terrain app] in E.
  inversion E as [|? ? ? ? (N1 & _) E1]; subst. inversion E1 as [|? ? ? ? (N2 & _) E2]; subst. inversion E2 as [|? ? ? ? (N3 & _) E3]; subst. inversion E3; subst. cbn [map]. rewrite N1, N2, N3. reflexivity.
Qed.

(** ** C76 *)
Lemma Qcabs_nonpos a : (a <= 0)%Qc -> Qcabs a = (- a)%Qc.
Proof. intros H. unfold Qcabs. destruct (Qcltb a 0) eqn:E; auto. apply Qcltb_ge in E. assert (a = 0%Qc) by (apply Qcle_antisym; auto). subst. reflexivity. Qed.
Definition clockwise (r : list p2) : Prop := (signed_area r <= 0)%Qc.
Definition exact_doubles (K : kernel) : Prop := forall z, k_tod K z = z /\ k_rnd K z = z.
Fixpoint total (l : list Qc) : Qc := match l with [] => 0%Qc | a :: l => (a + total l)%Qc end.
(** without holes: the area of the polygon, positive when counter-clockwise *)
Theorem C76_no_holes : forall K f, exact_doubles K -> holes (f_border f) = [] -> face_area K f = signed_area (outer (f_border f)).
Proof. intros K f X H. unfold face_area. rewrite H. cbn [fold_left]. rewrite (proj1 (X _)). apply ring_area_signed. Qed.
(** with the holes turned clockwise, as CGAL gives them, their areas are added: the result is
    the area of the polygon plus twice the area of its holes *)
Theorem C76_holes_added : forall K f, exact_doubles K -> Forall clockwise (holes (f_border f)) ->
  face_area K f = (signed_area (outer (f_border f)) + total (map (fun h => Qcabs (signed_area h)) (holes (f_border f))))%Qc.
Proof.
  intros K f X C. unfold face_area. rewrite (proj1 (X _)), ring_area_signed. generalize (signed_area (outer (f_border f))). induction C as [|h l Hh C IH]; intros t; cbn [fold_left map total]; [ring|].
  rewrite (proj1 (X _)), (proj2 (X _)), IH, ring_area_signed. unfold clockwise in Hh. assert (A : Qcabs (signed_area h) = (- signed_area h)%Qc) by (apply Qcabs_nonpos; auto). rewrite A. ring.
Qed.
(** a square of side 4 with a square hole of side 2: 20 and not 12 *)
Definition holed : face2 := mkFace2 0 (mkPoly [P2 (q 0) (q 0); P2 (q 4) (q 0); P2 (q 4) (q 4); P2 (q 0) (q 4)] [[P2 (q 1) (q 1); P2 (q 1) (q 3); P2 (q 3) (q 3); P2 (q 3) (q 1)]]) (level_at 0).
Theorem C76_area_refuted : Forall clockwise (holes (f_border holed)) /\ exact_doubles strips /\ face_area strips holed = q 20 /\
  (signed_area (outer (f_border holed)) + total (map signed_area (holes (f_border holed))))%Qc = q 12.
Proof.
  split; [constructor; [vm_compute; discriminate|constructor]|]. split; [intros z; split; reflexivity|]. split; apply Qceqb_eq; vm_compute; reflexivity.
Qed.

Print Assumptions C49_plane_height.
Print Assumptions C49_vertex_height.
Print Assumptions C50_face_height.
Print Assumptions C50_brick_height.
Print Assumptions C50_unique.
Print Assumptions C51_orthoprint.
Print Assumptions C52_no_new_surface.
Print Assumptions C53_box.
Print Assumptions C53_encloses.
Print Assumptions C53_boxes.
Print Assumptions C53_least.
Print Assumptions C54_two_facets.
Print Assumptions C54_many_facets.
Print Assumptions C55_coverage.
Print Assumptions C55_overlaps.
Print Assumptions C56_facets.
Print Assumptions C56_bricks.
Print Assumptions C56_footprints.
Print Assumptions C56_equivalence.
Print Assumptions C56_ignored.
Print Assumptions C57_empty_left.
Print Assumptions C57_mismatch.
Print Assumptions C57_match.
Print Assumptions C57_sum.
Print Assumptions C58_orthoproject.
Print Assumptions C58_facets.
Print Assumptions C58_total.
Print Assumptions C76_no_holes.
Print Assumptions C76_holes_added.
