(** * Properties C86-C88: lengths of borders, combinable facets, lengths of polygon edges. *)
From Verif Require Import Base Dbl Decimal Shadow Streams Handlers Spec_text Spec_num Spec_arith Spec_io.
From Verif Require Import Geom Surface Spec_surface Surface_proofs Facet_geom Prune_proofs Projection Ring_proofs Raster Cli Edges Spec_edges Edges_proofs Props_surface.
From Verif Require Import Arith_proofs Nearest_proofs Dq_proofs Sum_proofs Rootsq_proofs.
From Coq Require Import QArith Qcanon Qabs Lqa.
Close Scope Q_scope.
Open Scope nat_scope.

(** ** C86: border_length *)
Lemma NoDup_skipn {A} k (l : list A) : NoDup l -> NoDup (skipn k l).
Proof. revert l. induction k as [|k IH]; intros [|a l] N; cbn [skipn]; auto. apply IH. now inversion N. Qed.
Theorem C86_border_length root s k B : valid s -> no_stray_edge s -> normalized s k -> border_list s B ->
  border_length root (Some k) s = Ok (total_length root s B + total_length root s (map (fun h => s_next s (s_opp s h)) B))%Qc.
Proof. intros V NS Nm HB. apply border_sum; auto. apply NoDup_skipn. apply V. Qed.
(** never less than the length of the border, too much by the sides that follow border sides *)
Lemma qsum_nonneg l : (forall x, In x l -> 0 <= x)%Qc -> (0 <= qsum l)%Qc.
Proof.
  induction l as [|a l IH]; intros H; [apply Qcle_refl|]. change (0 <= a + qsum l)%Qc. rewrite <- (Qcplus_0_l 0). apply Qcplus_le_compat; [apply H; now left|apply IH; intros; apply H; now right].
Qed.
Lemma qsum_zero l : (forall x, In x l -> 0 <= x)%Qc -> qsum l = 0%Qc -> forall x, In x l -> x = 0%Qc.
Proof.
  induction l as [|a l IH]; intros H E x; [intros []|]. change (a + qsum l = 0)%Qc in E.
  assert (0 <= a)%Qc as A by (apply H; now left). assert (0 <= qsum l)%Qc as B by (apply qsum_nonneg; intros; apply H; now right).
  assert (a = 0%Qc) as ->. { apply Qcle_antisym; auto. rewrite <- E. rewrite <- (Qcplus_0_r a) at 1. apply Qcplus_le_compat; [apply Qcle_refl|auto]. }
  rewrite Qcplus_0_l in E. intros [<-|X]; auto. apply IH; auto. intros y Y. apply H. now right.
Qed.
Theorem C86_excess root s k B : valid s -> no_stray_edge s -> normalized s k -> border_list s B -> (forall x, (0 <= root x)%Qc) ->
  exists r, border_length root (Some k) s = Ok r /\ (total_length root s B <= r)%Qc /\
    (r = total_length root s B <-> forall h, In h B -> side_length root s (s_next s (s_opp s h)) = 0%Qc).
Proof.
  intros V NS Nm HB P. eexists. split; [now apply C86_border_length with (B := B)|].
  set (a := total_length root s B). set (b := total_length root s (map (fun h => s_next s (s_opp s h)) B)).
  assert (forall x, In x (map (side_length root s) (map (fun h => s_next s (s_opp s h)) B)) -> (0 <= x)%Qc) as N. { intros x Hx. apply in_map_iff in Hx as (y & <- & _). apply P. }
  split; [|split].
  - rewrite <- (Qcplus_0_r a) at 1. apply Qcplus_le_compat; [apply Qcle_refl|]. now apply qsum_nonneg.
  - intros E h Hh. assert (b = 0%Qc) as Z. { replace b with ((a + b) - a)%Qc by ring. rewrite E. ring. }
    apply (qsum_zero _ N Z). apply in_map_iff. exists (s_next s (s_opp s h)). split; auto. apply in_map_iff. now exists h.
  - intros H. assert (b = 0%Qc) as ->; [|ring]. unfold b, total_length. rewrite map_map. clear N. induction B as [|h B IH]; auto. cbn [map].
    change (side_length root s (s_next s (s_opp s h)) + qsum (map (fun x => side_length root s (s_next s (s_opp s x))) B) = 0)%Qc. rewrite H by now left.
    rewrite Qcplus_0_l. clear IH HB a b. induction B as [|g B IH]; auto. cbn [map].
    change (side_length root s (s_next s (s_opp s g)) + qsum (map (fun x => side_length root s (s_next s (s_opp s x))) B) = 0)%Qc. rewrite H by (right; now left).
    rewrite Qcplus_0_l. apply IH. intros x [->|Hx]; apply H; [now left|right; now right].
Qed.
(** a closed surface has a border of length 0 *)
Theorem C86_closed root s k : valid s -> normalized s k -> (forall h, In h (s_halfedges s) -> s_facet s h <> None) -> border_length root (Some k) s = Ok 0%Qc.
Proof.
  intros V Nm C. rewrite (C86_border_length root s k []); auto.
  - intros h Hh E. now apply C in E.
  - split; [constructor|]. intros h. split; [intros []|]. intros [Hh E]. now apply C in E.
Qed.
(** without a call of normalize_border the loop starts at a singular iterator *)
Theorem C86_not_normalized root s : border_length root None s = UB.
Proof. reflexivity. Qed.
(** a right triangle with sides 3, 4, 5 *)
Definition triangle345 : surface := build_surface [pt 0 0 0; pt 3 0 0; pt 0 4 0] [[0; 1; 2]].
Definition root345 (x : Qc) : Qc := if Qceqb x (qz 9) then qz 3 else if Qceqb x (qz 16) then qz 4 else if Qceqb x (qz 25) then qz 5 else 0%Qc.
Definition strip2 : surface := build_surface [pt 0 0 0; pt 1 0 0; pt 1 1 0; pt 0 1 0; pt 2 0 0; pt 2 1 0] [[0; 1; 2; 3]; [1; 4; 5; 2]].
Lemma triangle345_ok : valid triangle345 /\ no_stray_edge triangle345 /\ normalized triangle345 0 /\ border_list triangle345 [3; 4; 5].
Proof.
  split; [apply check_valid; vm_compute; reflexivity|]. assert (s_halfedges triangle345 = [0; 1; 2; 3; 4; 5]) as E by (vm_compute; reflexivity).
  split; [|split; [|split]].
  - intros h Hh. rewrite E in Hh. destruct Hh as [<-|[<-|[<-|[<-|[<-|[<-|[]]]]]]]; vm_compute; congruence.
  - intros h. cbn [skipn]. split; [|tauto]. intros Hh. split; auto. rewrite E in Hh. destruct Hh as [<-|[<-|[<-|[<-|[<-|[<-|[]]]]]]]; vm_compute; tauto.
  - repeat constructor; cbn; lia.
  - intros h. rewrite E. split; [intros [<-|[<-|[<-|[]]]]; split; [cbn; tauto|vm_compute; reflexivity|cbn; tauto|vm_compute; reflexivity|cbn; tauto|vm_compute; reflexivity]|].
    intros [Hh F]. destruct Hh as [<-|[<-|[<-|[<-|[<-|[<-|[]]]]]]]; [vm_compute in F; discriminate..|cbn; tauto|cbn; tauto|cbn; tauto].
Qed.
(** the border of a single triangle is 12 long: the function answers 24 *)
Theorem C86_refuted : ~ (forall root s k B r, valid s -> no_stray_edge s -> normalized s k -> border_list s B -> (forall x, 0 <= root x)%Qc -> border_length root (Some k) s = Ok r -> r = total_length root s B).
Proof.
  intros H. destruct triangle345_ok as (V & NS & Nm & HB).
  assert (border_length root345 (Some 0) triangle345 = Ok (qz 24)) as E. { vm_compute. reflexivity. }
  apply (H root345 triangle345 0 [3; 4; 5] (qz 24)) in E; auto.
  - assert (Qceqb (qz 24) (total_length root345 triangle345 [3; 4; 5]) = true) as F by now apply Qceqb_eq. vm_compute in F. discriminate.
  - intros x. unfold root345. destruct (Qceqb x (qz 9)), (Qceqb x (qz 16)), (Qceqb x (qz 25)); vm_compute; discriminate.
Qed.
Example C86_example : total_length root345 triangle345 [3; 4; 5] = qz 12 /\ total_length root345 triangle345 (map (fun h => s_next triangle345 (s_opp triangle345 h)) [3; 4; 5]) = qz 12 /\ check strip2 = true.
Proof. split; [|split]; [apply Qceqb_eq; vm_compute; reflexivity..|vm_compute; reflexivity]. Qed.

(** ** C87: combinable and pruning_halfedges *)
(** the facet sides, in order, whose edge lies between two facets and whose next corner lies
    on one plane with the next point of the other facet: their opposite sides are reported *)
Theorem C87_combinable s f : valid s -> In f (s_facets s) ->
  exists r yes no l, cycle (s_next s) (s_rep s f :: r) /\ interleave yes no (s_rep s f :: r) /\ combinable s f = Ok l /\ l = map (s_opp s) yes /\
    (forall h, In h yes -> inner_edge s h /\ coplanar (fold_points s h)) /\ (forall h, In h no -> ~ (inner_edge s h /\ coplanar (fold_points s h))).
Proof.
  intros V Hf. destruct (around_facet_ok s f V Hf) as (r & _ & E & C & I). remember (s_rep s f :: r) as l eqn:El.
  assert (forall h, combines s h = true <-> inner_edge s h /\ coplanar (fold_points s h)) as D.
  { intros h. unfold combines. rewrite andb_true_iff, negb_true_iff. unfold is_border_edge, is_border, inner_edge. unfold fold_points, target. rewrite <- coplanar4. rewrite Qceqb_eq.
    destruct (s_facet s h), (s_facet s (s_opp s h)); cbn [orb]; intuition congruence. }
  exists r, (filter (combines s) l), (filter (fun x => negb (combines s x)) l), (map (s_opp s) (filter (combines s) l)). rewrite <- El. split; auto. split.
  { clear. induction l as [|a l IH]; [constructor|]. cbn [filter]. destruct (combines s a); cbn [negb]; constructor; auto. }
  split; [unfold combinable; rewrite E; reflexivity|]. split; auto. split; intros h Hh; apply filter_In in Hh as [_ Hh]; [now apply D|]. apply negb_true_iff in Hh. intros X. apply D in X. congruence.
Qed.
Lemma interleave_mem {A} (a b l : list A) x : interleave a b l -> (In x l <-> In x a \/ In x b).
Proof. induction 1; cbn; tauto. Qed.
Lemma on_boundary s f pts h : valid s -> In f (s_facets s) -> boundary s f pts -> In h (s_halfedges s) -> s_facet s h = Some f ->
  In (target s h) pts /\ In (source s h) pts /\ s_facet s (s_next s h) = Some f /\ In (s_next s h) (s_halfedges s).
Proof.
  intros V Hf (r & C & ->) Hh F. destruct (va_cycle s V f Hf) as (r' & _ & C' & I).
  pose proof (around_facet_cycle s f r V Hf C) as E1. pose proof (around_facet_cycle s f r' V Hf C') as E2. rewrite E1 in E2. apply Ok_inj in E2. injection E2 as <-.
  assert (In h (s_rep s f :: r)) as Hin by (apply I; auto). set (l := s_rep s f :: r) in *. destruct C as [N M].
  split; [apply in_map_iff; now exists h|]. 
  assert (In h (map (s_next s) l)) as Hp. { unfold l in *. rewrite M. apply in_or_app. destruct Hin as [<-|X]; [right; now left|now left]. }
  apply in_map_iff in Hp as (k & <- & Hk). apply I in Hk as Hk'. destruct Hk' as [Hk1 Hk2].
  split. { unfold source. destruct (va_vert s V k Hk1) as [-> _]. apply in_map_iff. now exists k. }
  assert (In (s_next s (s_next s k)) l) as Hn. { assert (In (s_next s (s_next s k)) (map (s_next s) l)) as X by (apply in_map; auto). unfold l in *. rewrite M in X. apply in_app_or in X as [X|[<-|[]]]; [now right|now left]. }
  apply I in Hn as [Hn1 Hn2]. split; auto.
Qed.
(** between planar facets, at a true corner: reported exactly when both facets lie on one plane *)
Theorem C87_coplanar_facets s f g h pf pg l : valid s -> In f (s_facets s) -> In h (s_halfedges s) -> s_facet s h = Some f -> s_facet s (s_opp s h) = Some g ->
  boundary s f pf -> boundary s g pg -> coplanar pf -> coplanar pg ->
  ~ straight (target s h) (target s (s_next s h)) (target s (s_next s (s_next s h))) ->
  ~ straight (target s h) (source s h) (target s (s_next s (s_opp s h))) ->
  combinable s f = Ok l -> (In (s_opp s h) l <-> coplanar (pf ++ pg)).
Proof.
  intros V Hf Hh F G Bf Bg (P & Pn & HP) (R & Rn & HR) S1 S2 El. destruct (va_opp s V h Hh) as (Ho & Oo & _). pose proof (va_facet s V _ g Ho G) as Hg.
  destruct (on_boundary s f pf h V Hf Bf Hh F) as (A1 & A2 & A3 & A4). destruct (on_boundary s f pf _ V Hf Bf A4 A3) as (B1 & _ & B3 & B4). destruct (on_boundary s f pf _ V Hf Bf B4 B3) as (C1 & _ & _ & _).
  destruct (on_boundary s g pg _ V Hg Bg Ho G) as (D1 & D2 & D3 & D4). destruct (on_boundary s g pg _ V Hg Bg D4 D3) as (E1 & _ & _ & _).
  destruct (C87_combinable s f V Hf) as (r & yes & no & l' & C & I & El' & -> & Y & N). rewrite El in El'. apply Ok_inj in El'. subst l.
  assert (In (s_opp s h) (map (s_opp s) yes) <-> coplanar (fold_points s h)) as ->.
  { split.
    - intros X. apply in_map_iff in X as (k & Ek & Hk). assert (k = h) as ->; [|now apply Y].
      assert (In k (s_halfedges s)) as Hk'. { destruct (va_cycle s V f Hf) as (r' & _ & C' & I'). pose proof (around_facet_cycle s f r V Hf C) as W1. pose proof (around_facet_cycle s f r' V Hf C') as W2. rewrite W1 in W2. apply Ok_inj in W2. injection W2 as <-. apply I'. apply (interleave_mem _ _ _ k) in I. apply I. now left. }
      destruct (va_opp s V k Hk') as (_ & W & _). rewrite <- W, Ek. auto.
    - intros X. apply in_map. assert (In h (s_rep s f :: r)) as Hin. { destruct (va_cycle s V f Hf) as (r' & _ & C' & I'). pose proof (around_facet_cycle s f r V Hf C) as W1. pose proof (around_facet_cycle s f r' V Hf C') as W2. rewrite W1 in W2. apply Ok_inj in W2. injection W2 as <-. apply I'. auto. }
      apply (interleave_mem _ _ _ h) in I. apply I in Hin as [|Hn]; auto. exfalso. apply (N h Hn). split; auto. split; congruence. }
  assert (target s (s_opp s h) = source s h) as TS by reflexivity. assert (source s (s_opp s h) = target s h) as ST by (unfold source; now rewrite Oo). rewrite ST in D2. rewrite TS in D1.
  unfold fold_points. split.
  - intros (W & Wn & HW). exists W. split; auto.
    assert (forall p, In p pf -> lies_on W p) as Lf.
    { intros p Hp. exact (plane_unique (target s h) (target s (s_next s h)) (target s (s_next s (s_next s h))) P W _ Pn Wn S1 (HP _ A1) (HP _ B1) (HP _ C1) (HW _ (or_introl eq_refl)) (HW _ (or_intror (or_introl eq_refl))) (HW _ (or_intror (or_intror (or_introl eq_refl)))) (HP _ Hp)). }
    intros p Hp. apply in_app_or in Hp as [Hp|Hp]; auto.
    exact (plane_unique (target s h) (source s h) (target s (s_next s (s_opp s h))) R W _ Rn Wn S2 (HR _ D2) (HR _ D1) (HR _ E1) (HW _ (or_introl eq_refl)) (Lf _ A2) (HW _ (or_intror (or_intror (or_intror (or_introl eq_refl))))) (HR _ Hp)).
  - intros (W & Wn & HW). exists W. split; auto. intros p [<-|[<-|[<-|[<-|[]]]]]; apply HW; apply in_or_app; [now left|now left|now left|now right].
Qed.
(** in a triangulated surface without flat triangles: every edge *)
Theorem C87_triangles s f g h a b c d e i l : valid s -> In f (s_facets s) -> In h (s_halfedges s) -> s_facet s h = Some f -> s_facet s (s_opp s h) = Some g ->
  boundary s f [a; b; c] -> boundary s g [d; e; i] -> ~ straight a b c -> ~ straight d e i ->
  combinable s f = Ok l -> (In (s_opp s h) l <-> coplanar [a; b; c; d; e; i]).
Proof.
  intros V Hf Hh F G Bf Bg S1 S2 El. destruct (va_opp s V h Hh) as (Ho & Oo & _). pose proof (va_facet s V _ g Ho G) as Hg.
  assert (forall x y z : p3, coplanar [x; y; z]) as P3.
  { intros x y z. destruct (proj1 (coplanar4 x y z z)) as (P & Pn & HP); [vec; ring|]. exists P. split; auto. intros p Hp. apply HP. cbn in *. tauto. }
  assert (forall x y z, straight x y z -> straight y z x) as Rot.
  { intros x y z S. unfold straight in *. pose proof (f_equal x3 S) as S_1. pose proof (f_equal y3 S) as S_2. pose proof (f_equal z3 S) as S_3. apply p3_eq; [rewrite <- S_1|rewrite <- S_2|rewrite <- S_3]; clear; vec; ring. }
  assert (forall x y z, straight x y z -> straight x z y) as Sw.
  { intros x y z S. unfold straight in *. pose proof (f_equal x3 S) as S_1. pose proof (f_equal y3 S) as S_2. pose proof (f_equal z3 S) as S_3. clear S.
    apply p3_eq; [transitivity (- x3 (cross (vsub y x) (vsub z x)))%Qc; [clear; vec; ring|rewrite S_1; reflexivity]|transitivity (- y3 (cross (vsub y x) (vsub z x)))%Qc; [clear; vec; ring|rewrite S_2; reflexivity]|transitivity (- z3 (cross (vsub y x) (vsub z x)))%Qc; [clear; vec; ring|rewrite S_3; reflexivity]]. }
  (* the corners of a triangle, from any of its sides *)
  assert (forall f' h' x y z, In f' (s_facets s) -> In h' (s_halfedges s) -> s_facet s h' = Some f' -> boundary s f' [x; y; z] -> ~ straight x y z ->
    ~ straight (target s h') (target s (s_next s h')) (target s (s_next s (s_next s h'))) /\ source s h' = target s (s_next s (s_next s h'))) as Tri.
  { intros f' h' x y z Hf' Hh' F' (r & C & Eb) NS. destruct (va_cycle s V f' Hf') as (r' & _ & C' & I).
    pose proof (around_facet_cycle s f' r V Hf' C) as W1. pose proof (around_facet_cycle s f' r' V Hf' C') as W2. rewrite W1 in W2. apply Ok_inj in W2. injection W2 as <-.
    destruct r as [|k1 [|k2 [|]]]; try discriminate. cbn [map] in Eb. injection Eb as -> -> ->. destruct C as [_ M]. cbn [map app] in M. injection M as M0 M1 M2.
    assert (In h' [s_rep s f'; k1; k2]) as Hin by (apply I; auto). assert (In (s_next s (s_next s h')) (s_halfedges s)) as Hn by (apply (va_next s V), (va_next s V); auto).
    destruct (va_vert s V _ Hn) as [Ev _].
    clear Hn. destruct Hin as [<-|[<-|[<-|[]]]]; repeat (first [rewrite M0 in Ev|rewrite M1 in Ev|rewrite M2 in Ev]); repeat (first [rewrite M0|rewrite M1|rewrite M2]); unfold target, source; (split; [intros S; apply NS; auto|now rewrite Ev]). }
  destruct (Tri f h a b c Hf Hh F Bf S1) as [T1 T2]. destruct (Tri g (s_opp s h) d e i Hg Ho G Bg S2) as [T3 T4].
  change [a; b; c; d; e; i] with ([a; b; c] ++ [d; e; i]). apply (C87_coplanar_facets s f g h); auto.
  assert (target s (s_opp s h) = source s h) as TS by reflexivity. assert (source s (s_opp s h) = target s h) as ST by (unfold source; now rewrite Oo). rewrite TS in T3. rewrite <- T4, ST in T3.
  intros S. apply T3. now apply Rot.
Qed.
(** two facets at a right angle, reported because the corner after the common edge is straight *)
Definition folded : surface := build_surface [pt 0 1 0; pt 0 0 0; pt 1 0 0; pt 2 0 0; pt 2 1 0; pt 0 0 5] [[0; 1; 2; 3; 4]; [1; 0; 5]].
Lemma folded_boundaries : boundary folded 0 [pt 0 0 0; pt 1 0 0; pt 2 0 0; pt 2 1 0; pt 0 1 0] /\ boundary folded 1 [pt 0 1 0; pt 0 0 5; pt 0 0 0].
Proof.
  split; [exists [1; 2; 3; 4]|exists [6; 7]]; (split; [split; [apply nodup_b_NoDup; vm_compute; reflexivity|vm_compute; reflexivity]|vm_compute; reflexivity]).
Qed.
Theorem C87_straight_corner_refuted : ~ (forall s f g h pf pg l, valid s -> In f (s_facets s) -> In h (s_halfedges s) -> s_facet s h = Some f -> s_facet s (s_opp s h) = Some g ->
  boundary s f pf -> boundary s g pg -> coplanar pf -> coplanar pg -> combinable s f = Ok l -> (In (s_opp s h) l <-> coplanar (pf ++ pg))).
Proof.
  intros H. destruct folded_boundaries as [B0 B1]. 
  assert (coplanar [pt 0 0 0; pt 1 0 0; pt 2 0 0; pt 2 1 0; pt 0 1 0]) as P0. { exists (mkPlane3 (pt 0 0 1) 0%Qc). split; [intros X; discriminate (f_equal z3 X)|]. intros p Hp. unfold lies_on. apply Qceqb_eq. destruct Hp as [<-|[<-|[<-|[<-|[<-|[]]]]]]; vm_compute; reflexivity. }
  assert (coplanar [pt 0 1 0; pt 0 0 5; pt 0 0 0]) as P1. { exists (mkPlane3 (pt 1 0 0) 0%Qc). split; [intros X; discriminate (f_equal x3 X)|]. intros p Hp. unfold lies_on. apply Qceqb_eq. destruct Hp as [<-|[<-|[<-|[]]]]; vm_compute; reflexivity. }
  assert (exists l, combinable folded 0 = Ok l /\ In 5 l) as (l & El & Il). { eexists. split; [vm_compute; reflexivity|]. now left. }
  assert (coplanar ([pt 0 0 0; pt 1 0 0; pt 2 0 0; pt 2 1 0; pt 0 1 0] ++ [pt 0 1 0; pt 0 0 5; pt 0 0 0])) as (P & Pn & HP).
  { apply (H folded 0 1 0 _ _ l); auto; try (vm_compute; auto; fail). apply check_valid. vm_compute. reflexivity. }
  assert (det (vsub (pt 1 0 0) (pt 0 0 0)) (vsub (pt 0 1 0) (pt 0 0 0)) (vsub (pt 0 0 5) (pt 0 0 0)) = 0%Qc) as D.
  { apply coplanar4. exists P. split; auto. intros p Hp. apply HP. cbn [In app] in *. tauto. }
  apply Qceqb_eq in D. vm_compute in D. discriminate.
Qed.
(** the sides reported by the facets, one for each segment, in order of appearance *)
Lemma same_ends_spec s h k : same_ends s h k = true <-> same_segment s k h.
Proof. unfold same_ends, same_segment, target, source. rewrite orb_true_iff, !andb_true_iff, !p3_eqb_eq. intuition congruence. Qed.
Theorem C87_pruning s : valid s -> exists B l, Forall2 (fun f b => combinable s f = Ok b) (s_facets s) B /\ pruning_halfedges s = Ok l /\
  incl l (concat B) /\ ForallOrdPairs (fun h k => ~ same_segment s h k) l /\ (forall h, In h (concat B) -> exists k, In k l /\ same_segment s k h).
Proof.
  intros V. assert (forall fs acc, incl fs (s_facets s) -> ForallOrdPairs (fun h k => ~ same_segment s h k) acc ->
    exists B l, Forall2 (fun f b => combinable s f = Ok b) fs B /\ ofold (fun acc f => let* b := combinable s f in Ok (fold_left (add_new s) b acc)) fs acc = Ok l /\
      incl l (acc ++ concat B) /\ incl acc l /\ ForallOrdPairs (fun h k => ~ same_segment s h k) l /\ (forall h, In h (concat B) -> exists k, In k l /\ same_segment s k h)) as H.
  { assert (forall h, same_segment s h h) as Refl by (intros; left; auto).
    assert (forall h acc, ForallOrdPairs (fun h k => ~ same_segment s h k) acc -> let r := add_new s acc h in incl r (acc ++ [h]) /\ incl acc r /\ ForallOrdPairs (fun h k => ~ same_segment s h k) r /\ exists k, In k r /\ same_segment s k h) as One.
    { intros h acc N r. unfold r, add_new. destruct (existsb (same_ends s h) acc) eqn:E.
      - apply existsb_exists in E as (k & Hk & E). split; [apply incl_appl, incl_refl|]. split; [apply incl_refl|]. split; auto. exists k. split; auto. now apply same_ends_spec.
      - split; [apply incl_refl|]. split; [apply incl_appl, incl_refl|]. split; [|exists h; split; auto; apply in_or_app; right; now left].
        clear r. induction N as [|a acc Ha N IH]; [repeat constructor|]. cbn [existsb] in E. apply orb_false_iff in E as [E1 E2]. cbn [app]. constructor; auto.
        apply Forall_app. split; auto. constructor; [|constructor]. intros X. apply same_ends_spec in X. congruence. }
    assert (forall b acc, ForallOrdPairs (fun h k => ~ same_segment s h k) acc -> let r := fold_left (add_new s) b acc in incl r (acc ++ b) /\ incl acc r /\ ForallOrdPairs (fun h k => ~ same_segment s h k) r /\ forall h, In h b -> exists k, In k r /\ same_segment s k h) as Many.
    { induction b as [|h b IH]; intros acc N; cbn [fold_left].
      - split; [apply incl_appl, incl_refl|]. split; [apply incl_refl|]. split; auto. intros h [].
      - destruct (One h acc N) as (I1 & I2 & N1 & (k & Hk & Sk)). destruct (IH _ N1) as (J1 & J2 & N2 & C). cbv zeta in *. split; [|split; [|split]]; auto.
        + intros x Hx. apply J1 in Hx. apply in_app_or in Hx as [Hx|Hx]; [apply I1 in Hx; apply in_app_or in Hx as [Hx|[<-|[]]]|]; apply in_or_app; [now left|right; now left|right; now right].
        + intros x Hx. apply J2, I2, Hx.
        + intros x [<-|Hx]; [exists k; split; auto|now apply C]. }
    induction fs as [|f fs IH]; intros acc Inc N.
    - exists [], acc. repeat split; auto; [intros x Hx; apply in_or_app; now left|apply incl_refl|intros h []].
    - destruct (C87_combinable s f V (Inc f (or_introl eq_refl))) as (_ & _ & _ & b & _ & _ & Eb & _). destruct (Many b acc N) as (I1 & I2 & N1 & C1). cbv zeta in *.
      destruct (IH (fold_left (add_new s) b acc)) as (B & l & F & E & J1 & J2 & N2 & C2); auto; [intros x Hx; apply Inc; now right|].
      exists (b :: B), l. split; [constructor; auto|]. split; [cbn [ofold]; rewrite Eb; exact E|]. split; [|split; [|split]]; auto.
      + intros x Hx. cbn [concat]. apply J1 in Hx. apply in_app_or in Hx as [Hx|Hx]; [apply I1 in Hx; apply in_app_or in Hx as [Hx|Hx]|]; rewrite !in_app_iff; auto.
      + intros x Hx. apply J2, I2, Hx.
      + intros h Hh. cbn [concat] in Hh. apply in_app_or in Hh as [Hh|Hh]; auto. destruct (C1 h Hh) as (k & Hk & Sk). exists k. auto. }
  destruct (H (s_facets s) [] (incl_refl _)) as (B & l & F & E & J1 & _ & N & C); [constructor|]. exists B, l. auto.
Qed.
Example C87_example : combinable square2 0 = Ok [5] /\ combinable tetra 0 = Ok [] /\ pruning_halfedges square2 = Ok [5] /\ pruning_halfedges tetra = Ok [].
Proof. repeat split; vm_compute; reflexivity. Qed.

(** ** C88: lengths of the edges of a polygon, circumferences *)
Lemma sq_nonneg e : (0 <= sq_length e)%Qc.
Proof.
  unfold sq_length. assert (forall x : Qc, 0 <= x * x)%Qc as S. { intros x. unfold Qcle. change (this 0%Qc) with 0%Q. unfold Qcmult. rewrite this_Q2Qc. nra. }
  rewrite <- (Qcplus_0_l 0). apply Qcplus_le_compat; apply S.
Qed.
Lemma nearest_nonneg q d : (0 <= q)%Q -> nearest_double q d -> (0 <= dval d)%Q.
Proof.
  intros P [R H]. destruct (H (S754_zero false)) as [A _]; [now split|]. change (dval (S754_zero false)) with 0%Q in A.
  destruct (Qlt_le_dec (dval d) 0) as [L|]; auto. exfalso. rewrite Qabs_neg in A by lra. rewrite Qabs_neg in A by lra. lra.
Qed.
Lemma nonneg_num (q : Qc) : (0 <= q)%Qc -> (Qnum (this q) <? 0)%Z = false.
Proof. intros P. apply Z.ltb_ge. unfold Qcle, Qle in P. cbn in P. lia. Qed.
Lemma rounded_edge X : (0 <= X)%Qc -> rounded_length X (dsqrt (dq X)).
Proof.
  intros P. destruct (dq_correct X) as [A B]. split.
  - intros I. specialize (A I). exists (dq X). split; auto. destruct A as [R A']. apply root_correct; auto. apply (nearest_nonneg (this X)); [exact P|split; auto].
  - intros I. rewrite (B I). now rewrite nonneg_num.
Qed.
(** one entry for each edge, the rounded length of that edge *)
Theorem C88_edge_lengths l : Forall2 (fun e y => rounded_length (sq_length e) y) (closed_edges l) (ring_edge_lengths l).
Proof.
  unfold ring_edge_lengths. rewrite pairs_closed. induction (closed_edges l) as [|e es IH]; cbn [map]; constructor; auto. apply rounded_edge, sq_nonneg.
Qed.
Theorem C88_count l : length (ring_edge_lengths l) = length l.
Proof. unfold ring_edge_lengths. rewrite pairs_closed. unfold closed_edges. now rewrite !map_length, seq_length. Qed.
(** exact when the length and its square are doubles *)
Theorem C88_exact l i e y p : nth_error (closed_edges l) i = Some e -> nth_error (ring_edge_lengths l) i = Some y ->
  (0 <= p)%Q -> (this (sq_length e) == p * p)%Q -> (exists x, represents x (p * p)%Q) -> (exists z, represents z p) -> represents y p.
Proof.
  intros E Y P S [x X] [z Z]. unfold ring_edge_lengths in Y. rewrite pairs_closed, nth_error_map, E in Y. injection Y as <-. fold (sq_length e).
  apply (dsqrt_exact _ z); auto. destruct (Qc_eq_dec (sq_length e) 0) as [E0|N].
  - rewrite E0 in *. apply (represents_ext _ 0%Q); [now rewrite <- S|]. split; [reflexivity|]. exists 0%Q. split; reflexivity.
  - destruct (dq_rn64 _ N) as (-> & Pa & R). apply (rn64_represents _ _ _ x); auto; [lia|]. rewrite R. pose proof (sq_nonneg e) as Q. rewrite nonneg_num by auto. unfold Qcle in Q. change (this 0%Qc) with 0%Q in Q. rewrite Qabs_pos by auto. rewrite S. unfold sg. ring.
Qed.
(** and when the length is a double and its square neither overflows nor underflows *)
Theorem C88_exact_length l i e y p : nth_error (closed_edges l) i = Some e -> nth_error (ring_edge_lengths l) i = Some y ->
  (0 < p)%Q -> (this (sq_length e) == p * p)%Q -> (2 ^ (-1022) <= p * p)%Q -> in_range (p * p) -> (exists z, represents z p) -> represents y p.
Proof.
  intros E Y P S Lo Hi [z Z]. unfold ring_edge_lengths in Y. rewrite pairs_closed, nth_error_map, E in Y. injection Y as <-. fold (sq_length e).
  apply (sqrt_of_square p z); auto. destruct (dq_correct (sq_length e)) as [N _]. apply (closest_ext (this (sq_length e))); auto. apply nearest_closest, N. unfold in_range in *. now rewrite S.
Qed.
(** the circumference: these lengths added from the first to the last, rounded at each step *)
Definition fine (x : dbl) : Prop := (real_double x /\ (0 <= dval x)%Q) \/ x = S754_infinity false.
Lemma rounded_fine X y : rounded_length X y -> fine y.
Proof.
  intros [A B]. destruct (Qlt_le_dec (Qabs (this X)) (inject_Z (2 ^ 1024 - 2 ^ 970))) as [I|I].
  - destruct (A I) as (d & _ & R & P & _). left. auto.
  - right. apply B. unfold in_range. now apply Qle_not_lt.
Qed.
Lemma adds_fine t x : fine t -> fine x -> adds t x (dadd t x) /\ fine (dadd t x).
Proof.
  intros [[Rt Pt]| ->] [[Rx Px]| ->].
  - destruct (dadd_correct t x Rt Rx) as [A B]. destruct (Qlt_le_dec (Qabs (dval t + dval x)) (inject_Z (2 ^ 1024 - 2 ^ 970))) as [I|I].
    + split; [left; split; [auto|split; [auto|split; [exact I|exact (A I)]]]|]. left. split; [apply (A I)|]. apply (nearest_nonneg (dval t + dval x)); [lra|now apply A].
    + assert (~ in_range (dval t + dval x)) as N by (unfold in_range; now apply Qle_not_lt). destruct (B N) as [s E].
      assert (s = false) as ->; [|split; [right; split; [tauto|auto]|now right]].
      (* the sum of two numbers that are not negative *)
      destruct t as [s1| | |s1 m e]; try (destruct Rt; discriminate); destruct x as [s2| | |s2 n f]; try (destruct Rx; discriminate).
      * destruct s1, s2; discriminate.
      * destruct s1; [exfalso; rewrite dval_finite in Pt; pose proof (fin_pos m e); lra|]. destruct s2; [exfalso; rewrite dval_finite in Px; pose proof (fin_pos n f); lra|].
        unfold dadd, SFadd in E. cbv zeta in E. match type of E with binary_normalize _ _ ?k ?g false = _ => pose proof (normalize_correct k g) as [C D]; assert (0 < k)%Z as Pk by (cbn [cond_Zopp]; lia) end.
        cbv zeta in C, D. rewrite E in C, D. assert (forall k, (0 < k)%Z -> (k <? 0)%Z = false) as Lt by (intros; apply Z.ltb_ge; lia). rewrite (Lt _ Pk) in D.
        match type of D with (~ in_range ?q -> _) => destruct (Qlt_le_dec (Qabs q) (inject_Z (2 ^ 1024 - 2 ^ 970))) as [J|J] end.
        { destruct (C J) as [[_ F] _]. destruct s; discriminate. }
        assert (S754_infinity s = S754_infinity false) as X by (apply D; unfold in_range; now apply Qle_not_lt). now injection X.
  - assert (dadd t (S754_infinity false) = S754_infinity false) as -> by (destruct t as [| | |]; try reflexivity; destruct Rt; discriminate).
    split; [right; split; auto; intros (_ & [_ F] & _); discriminate|now right].
  - assert (dadd (S754_infinity false) x = S754_infinity false) as -> by (destruct x as [| | |]; try reflexivity; destruct Rx; discriminate).
    split; [right; split; auto; intros ([_ F] & _); discriminate|now right].
  - split; [right; split; auto; intros ([_ F] & _); discriminate|now right].
Qed.
Lemma sum_fine l : Forall fine l -> forall t, fine t -> running_sum t l (fold_left dadd l t).
Proof.
  induction 1 as [|x l Hx Hl IH]; intros t Ht; cbn [fold_left]; [constructor|]. destruct (adds_fine t x Ht Hx) as [A F]. econstructor; [exact A|now apply IH].
Qed.
Lemma zero_fine : fine dzero.
Proof. left. split; [now split|]. change (dval dzero) with 0%Q. lra. Qed.
Lemma lengths_fine l : Forall fine (ring_edge_lengths l).
Proof. pose proof (C88_edge_lengths l) as H. induction H as [|e y es ys R _ IH]; constructor; auto. now apply rounded_fine in R. Qed.
Lemma fold_map {A B C} (f : C -> B -> C) (g : A -> B) l : forall t, fold_left (fun t a => f t (g a)) l t = fold_left f (map g l) t.
Proof. induction l as [|a l IH]; intros t; cbn; auto. Qed.
Theorem C88_circumference l : exists ys, Forall2 (fun e y => rounded_length (sq_length e) y) (closed_edges l) ys /\ running_sum dzero ys (ring_circumference l).
Proof.
  exists (ring_edge_lengths l). split; [apply C88_edge_lengths|]. unfold ring_circumference. rewrite (fold_map dadd). apply sum_fine; [apply lengths_fine|apply zero_fine].
Qed.
(** a facet print: its outer boundary only *)
Theorem C88_face f : exists ys, Forall2 (fun e y => rounded_length (sq_length e) y) (closed_edges (outer (f_border f))) ys /\ running_sum dzero ys (face_circumference f).
Proof. apply C88_circumference. Qed.
(** a print: the outer boundaries of the pieces of the union of its facets *)
Theorem C88_print K b : let edges := concat (map (fun P => closed_edges (outer P)) (k_pieces K (brick_union K b))) in
  Forall2 (fun e y => rounded_length (sq_length e) y) edges (brick_edge_lengths K b) /\ running_sum dzero (brick_edge_lengths K b) (brick_circumference K b).
Proof.
  intros edges. assert (Forall2 (fun e y => rounded_length (sq_length e) y) edges (brick_edge_lengths K b)) as F.
  { unfold edges, brick_edge_lengths. induction (k_pieces K (brick_union K b)) as [|P l IH]; cbn [map concat]; [constructor|]. apply Forall2_app; auto. apply C88_edge_lengths. }
  split; auto. apply sum_fine; [|apply zero_fine]. clear -F. induction F as [|e y es ys R _ IH]; constructor; auto. now apply rounded_fine in R.
Qed.
Theorem C88_footprint K fp : running_sum dzero (brick_edge_lengths K (fp_proj fp)) (footprint_circumference K fp).
Proof. apply C88_print. Qed.
(** polygons along the axes with integer coordinates: the exact length of the boundary *)
Lemma axis_length e n : axis_edge e n -> (0 <= n)%Z /\ (this (sq_length e) == inject_Z n * inject_Z n)%Q.
Proof.
  intros (x & y & x' & y' & E0 & E & D & ->). split; [lia|]. unfold sq_length. rewrite E, E0. cbn [fst snd x2 y2].
  assert (forall a b, (qz a - qz b = qz (a - b))%Qc) as Qs. { intros a b. apply Qc_is_canon. unfold qz, Qcminus, Qcopp, Qcplus. rewrite !this_Q2Qc. rewrite <- inject_Z_opp, <- inject_Z_plus. reflexivity. }
  rewrite !Qs. unfold Qcplus, Qcmult, qz. rewrite !this_Q2Qc. rewrite <- !inject_Z_mult, <- inject_Z_plus. apply inject_Z_injective. destruct D as [->| ->]; nia.
Qed.
Theorem C88_axis l ns : Forall2 axis_edge (closed_edges l) ns -> (fold_right Z.add 0 ns < 2 ^ 53)%Z ->
  Forall2 is_int (ring_edge_lengths l) ns /\ is_int (ring_circumference l) (fold_right Z.add 0%Z ns).
Proof.
  intros A S. assert (Forall (fun n => 0 <= n)%Z ns) as P0 by (clear S; induction A as [|e n es ns Ax A IH]; constructor; auto; now destruct (axis_length e n Ax)).
  assert (Forall (fun n => n < 2 ^ 53)%Z ns) as B. { clear A. revert S. induction P0 as [|n ns Pn P0 IH]; intros S; constructor; cbn [fold_right] in S; [|apply IH; lia]. assert (0 <= fold_right Z.add 0 ns)%Z by (clear -P0; induction P0; cbn; lia). lia. }
  assert (Forall2 is_int (ring_edge_lengths l) ns /\ Forall (fun n => 0 <= n)%Z ns) as [F P].
  { split; auto. assert (forall i e y n, nth_error (closed_edges l) i = Some e -> nth_error (ring_edge_lengths l) i = Some y -> axis_edge e n -> (n < 2 ^ 53)%Z -> is_int y n) as One.
    { intros i e y n Ee Ey Ax Bn. destruct (axis_length e n Ax) as [P E]. destruct (Z.eq_dec n 0) as [->|N0].
      - refine (C88_exact l i e y _ Ee Ey (Qle_refl _) E _ _); exists dzero; (split; [reflexivity|]); exists 0%Q; split; reflexivity.
      - destruct (int_square_range n ltac:(lia)) as [R1 R2]. apply (C88_exact_length l i e y); auto; [change 0%Q with (inject_Z 0); rewrite <- Zlt_Qlt; lia|]. destruct (int_double n) as [x X]; [lia|]. now exists x. }
    pose proof (C88_edge_lengths l) as L. revert One L. generalize (ring_edge_lengths l). generalize dependent (closed_edges l). intros es A. clear S P0. induction A as [|e n es ns Ax A IH]; intros ys One L.
    - inversion L. subst. constructor.
    - inversion L as [|? y ? ys' Ry L']. subst. inversion B as [|? ? B1 B2]. subst. constructor; [apply (One 0 e y n); auto|]. apply IH; auto. intros i e0 y0 n0 H1 H2. apply (One (S i)); auto. }
  split; auto. unfold ring_circumference. rewrite (fold_map dadd). fold (ring_edge_lengths l).
  assert (forall ys ns t a, Forall2 is_int ys ns -> Forall (fun n => 0 <= n)%Z ns -> is_int t a -> (0 <= a)%Z -> (a + fold_right Z.add 0 ns < 2 ^ 53)%Z -> is_int (fold_left dadd ys t) (a + fold_right Z.add 0 ns)%Z) as G.
  { clear. intros ys ns t a H. revert t a. induction H as [|y n ys ns Hy H IH]; intros t a P T Pa L; cbn [fold_left fold_right] in *; [now rewrite Z.add_0_r|].
    inversion P as [|? ? P1 P2]. subst. rewrite Z.add_assoc in *. assert (0 <= fold_right Z.add 0 ns)%Z by (clear -P2; induction P2; cbn; lia). apply IH; auto; [apply int_add; auto; lia|lia]. }
  apply (G _ _ dzero 0%Z F P); [|lia|lia]. split; [reflexivity|]. exists 0%Q. split; reflexivity.
Qed.
Definition rect34 : list p2 := [P2 (qz 0) (qz 0); P2 (qz 3) (qz 0); P2 (qz 3) (qz 4); P2 (qz 0) (qz 4)].
Example C88_example : Forall2 axis_edge (closed_edges rect34) [3; 4; 3; 4]%Z /\ ring_edge_lengths rect34 = map dofZ [3; 4; 3; 4]%Z /\ ring_circumference rect34 = dofZ 14 /\
  ring_edge_lengths [P2 (qz 0) (qz 0); P2 (qz 3) (qz 4)] = [dofZ 5; dofZ 5] /\ ring_circumference [] = dzero.
Proof.
  split; [|repeat split; vm_compute; reflexivity].
  repeat constructor; [exists 0%Z, 0%Z, 3%Z, 0%Z|exists 3%Z, 0%Z, 3%Z, 4%Z|exists 3%Z, 4%Z, 0%Z, 4%Z|exists 0%Z, 4%Z, 0%Z, 0%Z]; (split; [reflexivity|split; [reflexivity|split; [lia|reflexivity]]]).
Qed.
(** sides whose squares are no doubles *)
Example C88_wide_example : let l := [P2 (qz 0) (qz 0); P2 (qz (2 ^ 40 + 1)) (qz 0); P2 (qz (2 ^ 40 + 1)) (qz 6543210987); P2 (qz 0) (qz 6543210987)] in
  Forall2 axis_edge (closed_edges l) [2 ^ 40 + 1; 6543210987; 2 ^ 40 + 1; 6543210987]%Z /\ ring_edge_lengths l = map dofZ [2 ^ 40 + 1; 6543210987; 2 ^ 40 + 1; 6543210987]%Z.
Proof.
  split; [|vm_compute; reflexivity].
  repeat constructor; [exists 0%Z, 0%Z, (2 ^ 40 + 1)%Z, 0%Z|exists (2 ^ 40 + 1)%Z, 0%Z, (2 ^ 40 + 1)%Z, 6543210987%Z|exists (2 ^ 40 + 1)%Z, 6543210987%Z, 0%Z, 6543210987%Z|exists 0%Z, 6543210987%Z, 0%Z, 0%Z]; (split; [reflexivity|split; [reflexivity|split; [lia|reflexivity]]]).
Qed.
(** holes do not count *)
Theorem C88_holes f g : outer (f_border f) = outer (f_border g) -> face_circumference f = face_circumference g.
Proof. unfold face_circumference. congruence. Qed.
Theorem C88_holes_refuted : ~ (forall f ns, Forall2 axis_edge (closed_edges (outer (f_border f)) ++ concat (map closed_edges (holes (f_border f)))) ns ->
  (fold_right Z.add 0 ns < 100)%Z -> is_int (face_circumference f) (fold_right Z.add 0%Z ns)).
Proof.
  intros H. specialize (H (mkFace2 0 (mkPoly rect34 [[P2 (qz 1) (qz 1); P2 (qz 1) (qz 2); P2 (qz 2) (qz 2); P2 (qz 2) (qz 1)]]) (mkPlane 0 0 1 0)%Qc) ([3; 4; 3; 4] ++ [1; 1; 1; 1])%Z).
  assert (is_int (ring_circumference rect34) 14) as E. { apply (C88_axis rect34 [3; 4; 3; 4]%Z); [apply C88_example|reflexivity]. }
  assert (18 = 14)%Z as C; [|discriminate]. apply (int_unique (ring_circumference rect34)); auto. apply H; [|reflexivity].
  apply Forall2_app; [apply C88_example|]. cbn [f_border holes map concat]. rewrite app_nil_r.
  repeat constructor; [exists 1%Z, 1%Z, 1%Z, 2%Z|exists 1%Z, 2%Z, 2%Z, 2%Z|exists 2%Z, 2%Z, 2%Z, 1%Z|exists 2%Z, 1%Z, 1%Z, 1%Z]; (split; [reflexivity|split; [reflexivity|split; [lia|reflexivity]]]).
Qed.
