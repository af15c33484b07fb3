(** C53, continued: the domain of a print (BrickPrint::in_domain) and boxes rounded outwards *)
From Verif Require Import Base Geom Decimal Shadow Handlers Surface Spec_surface Projection Spec_ring Ring_proofs Spec_projection Strip Projection_proofs Envelope_proofs Props_projection Domain.
From Coq Require Import QArith Qcanon.
Import List.
Close Scope Q_scope.
Open Scope nat_scope.

(** [r] is [e] with bounds moved outwards, by whatever CGAL rounded them: it encloses [e], and is
    empty only if [e] is *)
Definition rounded_out (e r : option box2) : Prop :=
  match e, r with
  | None, None => True
  | Some e, Some r => (xmin r <= xmin e /\ ymin r <= ymin e /\ xmax e <= xmax r /\ ymax e <= ymax r)%Qc
  | _, _ => False
  end.
Lemma rounded_in e r p : rounded_out e r -> in_box e p -> in_box r p.
Proof. destruct e as [e|], r as [r|]; cbn; try tauto. intros (? & ? & ? & ?) (? & ? & ? & ?). repeat split; qo. Qed.
Lemma overlap_common a b p : in_box a p -> in_box b p -> overlap a b = true.
Proof.
  destruct a as [a|], b as [b|]; cbn; try tauto. intros (A1 & A2 & A3 & A4) (B1 & B2 & B3 & B4).
  assert (forall x y z : Qc, (x <= y)%Qc -> (y <= z)%Qc -> Qcltb z x = false) as L by (intros; apply Qcltb_ge; qo).
  rewrite (L (xmin b) (x2 p)), (L (xmin a) (x2 p)), (L (ymin b) (y2 p)), (L (ymin a) (y2 p)) by auto. reflexivity.
Qed.
(** with exact boxes: the points of the box of the print *)
Theorem C53_domain : forall b p, in_domain b (point_box p) = true <-> in_box b p.
Proof.
  intros b p. split; [|intros I; apply (overlap_common _ _ p); auto; cbn; repeat split; qo].
  destruct b as [b|]; [|easy]. unfold in_domain, overlap, point_box. cbn [xmin xmax ymin ymax in_box].
  destruct (Qcltb (xmax b) (x2 p)) eqn:E1; [easy|]. destruct (Qcltb (x2 p) (xmin b)) eqn:E2; [easy|].
  destruct (Qcltb (ymax b) (y2 p)) eqn:E3; [easy|]. destruct (Qcltb (y2 p) (ymin b)) eqn:E4; [easy|].
  intros _. apply Qcltb_ge in E1, E2, E3, E4. auto.
Qed.
(** rounding the boxes of the facets one by one and joining them rounds the joined box: the box
    the code holds is the model's, rounded outwards *)
Theorem C53_rounded_union : forall es rs, Forall2 rounded_out es rs -> forall e r, rounded_out e r ->
  rounded_out (fold_left box_add es e) (fold_left box_add rs r).
Proof.
  induction 1 as [|a a' es rs A _ IH]; intros e r R; cbn [fold_left]; auto. apply IH.
  destruct e as [e|], r as [r|], a as [a|], a' as [a'|]; cbn in *; try tauto. destruct R as (? & ? & ? & ?), A as (? & ? & ? & ?). qcases; repeat split; qo.
Qed.
Lemma brick_in_box K good sgood (OK : kernel_ok K good sgood) b l p : built K b l -> (forall f, In f l -> good (f_border f)) ->
  brick_contains K b p = true -> in_box (br_box b) p.
Proof.
  intros B G C. apply (brick_contains_cov K) in C as (x & Hx & C). destruct (built_from K good sgood OK b l B G x Hx) as [Gx _].
  apply (built_encloses K good sgood OK b l B G x Hx). unfold face_box. apply (side_box _ _ _ OK); auto. apply C.
Qed.
(** whatever the rounding, a point the print contains is in its domain: the test never rejects one *)
Theorem C53_domain_safe : forall K good sgood, kernel_ok K good sgood -> forall b l, built K b l -> (forall f, In f l -> good (f_border f)) ->
  forall p box pbox, rounded_out (br_box b) box -> rounded_out (point_box p) pbox ->
  brick_contains K b p = true -> in_domain box pbox = true.
Proof.
  intros K good sgood OK b l B G p box pbox R Rp C. pose proof (brick_in_box K good sgood OK b l p B G C) as I'.
  apply (overlap_common _ _ p); [apply (rounded_in (br_box b)); auto|apply (rounded_in (point_box p)); auto]. cbn. repeat split; qo.
Qed.
(** and a point outside the domain is given height 0 *)
Theorem C53_outside_domain : forall K good sgood, kernel_ok K good sgood -> forall b l, built K b l -> (forall f, In f l -> good (f_border f)) ->
  forall p box pbox, rounded_out (br_box b) box -> rounded_out (point_box p) pbox -> in_domain box pbox = false -> brick_height K b p = Ok 0%Qc.
Proof.
  intros K good sgood OK b l B G p box pbox R Rp D. unfold brick_height. destruct (brick_contains K b p) eqn:C; auto.
  rewrite (C53_domain_safe K good sgood OK b l B G p box pbox R Rp C) in D. discriminate.
Qed.
(** the empty print has an empty domain *)
Theorem C53_domain_empty : forall box pbox, rounded_out (br_box brick_empty) box -> in_domain box pbox = false.
Proof. intros box pbox R. cbn in R. destruct box; [destruct R|reflexivity]. Qed.
(** rounding can put a point outside the print into the domain, never the converse *)
Example C53_domain_example : exists b, put three = Ok b /\ in_domain (br_box b) (point_box (P2 (q 4) (q 1))) = true /\ in_domain (br_box b) (point_box (P2 (q 5) (q 1))) = false /\
  exists box, rounded_out (br_box b) box /\ in_domain box (point_box (P2 (q 5) (q 1))) = true.
Proof.
  destruct C53_example as (b & E & _ & I' & N). exists b. split; auto. split; [now apply C53_domain|]. split.
  - apply not_true_iff_false. now rewrite C53_domain.
  - destruct (br_box b) as [[a c d e]|] eqn:Eb; [|destruct I']. exists (Some (mkBox2 a c (q 5) e)). cbn [in_box xmin xmax ymin ymax x2 y2] in *. split.
    + cbn. destruct I' as (I1 & I2 & I3 & I4). split; [qo|]. split; [qo|]. split; [|qo]. assert (~ (q 5 <= d)%Qc) as X. { intros X. apply N. repeat split; auto. assert (q 4 <= q 5)%Qc by (vm_compute; discriminate). qo. }
      qo.
    + apply C53_domain. cbn. destruct I' as (I1 & I2 & I3 & I4). assert (q 4 <= q 5)%Qc by (vm_compute; discriminate). repeat split; qo.
Qed.
