(** * Rect: a concrete kernel of axis-parallel rectangles, for the examples on rasters.

    A ring stands for its bounding rectangle; the intersection of two rectangles is
    computed.  The operations on polygon sets, which rasters do not use, are placeholders.
    Nothing here models project code. *)
From Verif Require Import Base Geom Decimal Surface Projection Spec_projection Strip Raster Spec_raster Raster_proofs.
From Coq Require Import Lqa.
Open Scope nat_scope.

Definition rect (b : box2) : poly := mkPoly [P2 (xmin b) (ymin b); P2 (xmax b) (ymin b); P2 (xmax b) (ymax b); P2 (xmin b) (ymax b)] [].
Definition box_side (b : option box2) (p : p2) : side :=
  match b with
  | None => Outside
  | Some b =>
    if Qcltb (x2 p) (xmin b) || Qcltb (xmax b) (x2 p) || Qcltb (y2 p) (ymin b) || Qcltb (ymax b) (y2 p) then Outside
    else if Qcltb (xmin b) (x2 p) && Qcltb (x2 p) (xmax b) && Qcltb (ymin b) (y2 p) && Qcltb (y2 p) (ymax b) then Inside else Boundary
  end.
Definition box_inter (a b : option box2) : list poly :=
  match a, b with
  | Some a, Some b =>
    let c := mkBox2 (qmax (xmin a) (xmin b)) (qmax (ymin a) (ymin b)) (qmin (xmax a) (xmax b)) (qmin (ymax a) (ymax b)) in
    if Qcltb (xmin c) (xmax c) && Qcltb (ymin c) (ymax c) then [rect c] else []
  | _, _ => []
  end.
Definition rects : kernel := mkKernel (fun l p => box_side (ring_box l) p) (fun l => match l with [_; _; _; _] => true | _ => false end)
  (list poly) [] (fun P => [P]) (fun s P => P :: s) (fun s _ => s) (fun s _ => s) (fun s => match s with [] => true | _ => false end) (fun s => s)
  (fun P Q => box_inter (ring_box (outer P)) (ring_box (outer Q))) (fun q => q) (fun q => q).
Definition solid (b : box2) : Prop := (xmin b < xmax b /\ ymin b < ymax b)%Qc.
Definition good_rect (P : poly) : Prop := holes P = [] /\ exists b, ring_box (outer P) = Some b /\ solid b.
Definition strictly (b : box2) (p : p2) : Prop := (xmin b < x2 p /\ x2 p < xmax b /\ ymin b < y2 p /\ y2 p < ymax b)%Qc.
Lemma box_side_in b p : box_side (Some b) p = Inside <-> strictly b p.
Proof.
  unfold box_side, strictly. qbool; cbn [orb andb]; split; intros HH; try discriminate; auto; try (exfalso; qo); repeat split; qo.
Qed.
Lemma rect_inside P b p : holes P = [] -> ring_box (outer P) = Some b -> (inside rects P p <-> strictly b p).
Proof.
  intros Hh Eb. unfold inside. cbn [k_side rects]. rewrite Eb, box_side_in, Hh. cbn [In]. intuition.
Qed.
Lemma mk_eq (a b c d a' b' c' d' : Qc) : a = a' -> b = b' -> c = c' -> d = d' -> Some (mkBox2 a b c d) = Some (mkBox2 a' b' c' d').
Proof. congruence. Qed.
Lemma qc_le_antisym a b : (a <= b)%Qc -> (b <= a)%Qc -> a = b.
Proof. apply Qcle_antisym. Qed.
Lemma rect_box b : solid b -> ring_box (outer (rect b)) = Some b.
Proof.
  intros [Hx Hy]. destruct b as [a c d e]. cbn [xmin xmax ymin ymax] in *. unfold ring_box, rect. cbn [outer fold_left box_add point_box xmin xmax ymin ymax x2 y2].
  apply mk_eq; apply Qcle_antisym; qcases; qo.
Qed.
Lemma corners_box x y d c : (x < d)%Qc -> (c < y)%Qc -> ring_box [P2 x y; P2 x c; P2 d c; P2 d y] = Some (mkBox2 x c d y).
Proof.
  intros H1 H2. unfold ring_box. cbn [outer fold_left box_add point_box xmin xmax ymin ymax x2 y2].
  apply mk_eq; apply Qcle_antisym; qcases; qo.
Qed.
Lemma ground_box x y s : (0 < s)%Qc -> ring_box (outer (ground x y s)) = Some (mkBox2 x (y - s) (x + s) y)%Qc.
Proof. intros Hs. apply corners_box; ql. Qed.
Lemma box_inter_In a b q : solid a -> solid b -> In q (box_inter (Some a) (Some b)) ->
  exists c, q = rect c /\ solid c /\ forall p, strictly c p -> strictly a p /\ strictly b p.
Proof.
  intros Ha Hb. unfold box_inter. set (c := mkBox2 _ _ _ _). destruct (_ && _) eqn:E; [|intros []]. intros [<-|[]]. exists c. split; auto.
  apply andb_true_iff in E as [E1 E2]. apply Qcltb_lt in E1, E2. split; [split; auto|]. intros p (A1 & A2 & A3 & A4). unfold c in *. cbn [xmin xmax ymin ymax] in *.
  clear E1 E2. unfold strictly. qcases; repeat split; qo.
Qed.
Lemma mid_between a b : (a < b)%Qc -> (a < (a + b) / qz 2)%Qc /\ ((a + b) / qz 2 < b)%Qc.
Proof.
  intros H. assert (H2 : (0 < qz 2)%Qc) by reflexivity. set (m := ((a + b) / qz 2)%Qc).
  assert (E : (m + m = a + b)%Qc). { transitivity (m * qz 2)%Qc; [replace (qz 2) with (1 + 1)%Qc by (apply Qceqb_eq; reflexivity); ring|]. unfold m. apply Qcmult_div; auto. }
  assert (E1 : (this m + this m == this a + this b)%Q) by (rewrite <- !this_plus, E; reflexivity).
  clearbody m. unfold Qclt in *. split; lra.
Qed.
Theorem rects_ok : cut_ok rects good_rect.
Proof.
  constructor.
  - intros x y s Hs. split; [reflexivity|]. eexists. split; [apply ground_box; auto|]. split; cbn [xmin xmax ymin ymax]; ql.
  - intros x y s p Hs. rewrite (rect_inside (ground x y s) _ p eq_refl (ground_box x y s Hs)). reflexivity.
  - intros P (Hh & b & Eb & Sx & Sy). exists (P2 ((xmin b + xmax b) / qz 2) ((ymin b + ymax b) / qz 2))%Qc. rewrite (rect_inside _ _ _ Hh Eb).
    unfold strictly. cbn [x2 y2]. destruct (mid_between _ _ Sx), (mid_between _ _ Sy). auto.
  - intros P Q q (HP & b & Eb & Sb) (HQ & c & Ec & Sc) I. cbn [k_inter2 rects] in I. rewrite Eb, Ec in I.
    destruct (box_inter_In _ _ _ Sb Sc I) as (d & -> & Sd & _). split; auto. exists d. split; auto. apply rect_box; auto.
  - intros P Q q p (HP & b & Eb & Sb) (HQ & c & Ec & Sc) I J. cbn [k_inter2 rects] in I. rewrite Eb, Ec in I.
    destruct (box_inter_In _ _ _ Sb Sc I) as (d & -> & Sd & X). rewrite (rect_inside (rect d) _ p eq_refl (rect_box d Sd)) in J. rewrite (rect_inside _ _ _ HP Eb), (rect_inside _ _ _ HQ Ec). auto.
  - intros P Q p (HP & b & Eb & Sb) (HQ & c & Ec & Sc) I J. rewrite (rect_inside _ _ _ HP Eb) in I. rewrite (rect_inside _ _ _ HQ Ec) in J.
    cbn [k_inter2 rects]. rewrite Eb, Ec. unfold box_inter. set (d := mkBox2 _ _ _ _).
    destruct I as (I1 & I2 & I3 & I4). destruct J as (J1 & J2 & J3 & J4).
    assert (D1 : (xmin d < x2 p)%Qc) by (unfold d; cbn [xmin]; qcases; qo). assert (D2 : (x2 p < xmax d)%Qc) by (unfold d; cbn [xmax]; qcases; qo).
    assert (D3 : (ymin d < y2 p)%Qc) by (unfold d; cbn [ymin]; qcases; qo). assert (D4 : (y2 p < ymax d)%Qc) by (unfold d; cbn [ymax]; qcases; qo).
    replace (Qcltb (xmin d) (xmax d)) with true by (symmetry; apply Qcltb_lt; qo). replace (Qcltb (ymin d) (ymax d)) with true by (symmetry; apply Qcltb_lt; qo). discriminate.
  - intros P p (HP & b & Eb & Sb) I. rewrite (rect_inside _ _ _ HP Eb) in I. exists b. auto.
Qed.
Theorem rects_vertices : cuts_have_vertices rects.
Proof.
  intros P Q q. cbn [k_inter2 rects]. unfold box_inter. destruct (ring_box (outer P)) as [a|]; [|intros []]. destruct (ring_box (outer Q)) as [b|]; [|intros []].
  destruct (_ && _); [|intros []]. intros [<-|[]]. discriminate.
Qed.
