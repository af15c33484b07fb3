(** * Edges_proofs: border lengths, coplanarity of four points, lists without repetition. *)
From Verif Require Import Base Dbl Geom Decimal Shadow Streams Spec_io Handlers Surface Spec_surface Surface_proofs Facet_geom Projection Raster Cli Edges Spec_edges.
From Coq Require Import QArith Qcanon.
Close Scope Q_scope.
Open Scope nat_scope.

Lemma NoDup_join {A} (a b : list A) : NoDup a -> NoDup b -> (forall x, In x a -> ~ In x b) -> NoDup (a ++ b).
Proof.
  induction 1 as [|x a Hx Na IH]; intros Nb D; auto. cbn [app]. constructor; [|apply IH; auto; intros; apply D; now right].
  intros H. apply in_app_or in H as [H|H]; auto. apply (D x); auto. now left.
Qed.
Lemma NoDup_map_on {A B} (f : A -> B) l : NoDup l -> (forall x y, In x l -> In y l -> f x = f y -> x = y) -> NoDup (map f l).
Proof.
  induction 1 as [|x l Hx N IH]; intros D; cbn [map]; constructor; [|apply IH; intros; apply D; auto; now right].
  intros H. apply in_map_iff in H as (y & E & Hy). apply D in E; [subst; auto|now right|now left].
Qed.
(** ** Borders *)
Lemma border_next s h : valid s -> In h (s_halfedges s) -> s_facet s h = None -> s_facet s (s_next s h) = None.
Proof.
  intros V Hh Hf. destruct (s_facet s (s_next s h)) as [f|] eqn:E; auto. exfalso.
  pose proof (va_next s V h Hh) as Hn. pose proof (va_facet s V _ f Hn E) as Hff. destruct (va_cycle s V f Hff) as (r & _ & [Nd C] & I).
  assert (In (s_next s h) (s_rep s f :: r)) as Hin by (apply I; auto).
  assert (In (s_next s h) (map (s_next s) (s_rep s f :: r))) as Hm. { rewrite C. apply in_or_app. destruct Hin as [<-|H]; [right; now left|now left]. }
  apply in_map_iff in Hm as (k & Ek & Hk). apply I in Hk as [Hk1 Hk2]. assert (k = h) as -> by (apply (va_inj s V); auto). congruence.
Qed.
Lemma next_len_side root s h : valid s -> In h (s_halfedges s) -> next_len root s h = side_length root s (s_next s h).
Proof.
  intros V Hh. unfold next_len, side_length, target, source. destruct (va_vert s V h Hh) as [E _]. rewrite E. f_equal. unfold sqdist, dot, vsub. cbn. ring.
Qed.
Lemma border_sum root s k B : valid s -> no_stray_edge s -> border_list s B -> normalized s k -> NoDup (skipn k (s_halfedges s)) ->
  border_length root (Some k) s = Ok (total_length root s B + total_length root s (map (fun h => s_next s (s_opp s h)) B))%Qc.
Proof.
  intros V NS [NB HB] Nm Nd. unfold normalized in Nm. unfold border_length. f_equal. rewrite fold_left_qsum, Qcplus_0_l.
  assert (Permutation (skipn k (s_halfedges s)) (B ++ map (s_opp s) B)) as P.
  { apply NoDup_Permutation; auto.
    - apply NoDup_join; auto.
      + apply NoDup_map_on; auto. intros x y Hx Hy E. apply HB in Hx as [Hx _]. apply HB in Hy as [Hy _]. destruct (va_opp s V x Hx) as (_ & <- & _). destruct (va_opp s V y Hy) as (_ & <- & _). now rewrite E.
      + intros x Hx Hm. apply in_map_iff in Hm as (y & <- & Hy). apply HB in Hx as [_ Hx]. apply HB in Hy as [Hy1 Hy2]. now apply (NS y Hy1 Hy2).
    - intros h. rewrite Nm, in_app_iff, in_map_iff, HB. split.
      + intros [Hh [E|E]]; [left; auto|right]. destruct (va_opp s V h Hh) as (O1 & O2 & _). exists (s_opp s h). split; auto. apply HB. auto.
      + intros [[Hh E]|(y & <- & Hy)]; [auto|]. apply HB in Hy as [Hy E]. destruct (va_opp s V y Hy) as (O1 & O2 & _). split; auto. right. now rewrite O2. }
  rewrite (qsum_perm _ _ (Permutation_map (next_len root s) P)), map_app, qsum_app. f_equal.
  - transitivity (qsum (map (side_length root s) (map (s_next s) B))).
    + f_equal. rewrite map_map. apply map_ext_in. intros h Hh. apply next_len_side; auto. now apply HB in Hh as [Hh _].
    + unfold total_length. apply qsum_perm. apply Permutation_map. apply NoDup_Permutation_bis.
      * apply NoDup_map_on; auto. intros x y Hx Hy E. apply HB in Hx as [Hx _]. apply HB in Hy as [Hy _]. now apply (va_inj s V).
      * now rewrite map_length.
      * intros h Hh. apply in_map_iff in Hh as (x & <- & Hx). apply HB in Hx as [Hx1 Hx2]. apply HB. split; [now apply (va_next s V)|now apply border_next].
  - unfold total_length. rewrite !map_map. f_equal. apply map_ext_in. intros h Hh. apply HB in Hh as [Hh _]. apply next_len_side; auto. now apply (va_opp s V).
Qed.

(** ** Planes *)
Open Scope Qc_scope.
Ltac vec := unfold det, cross, dot, vsub, vadd, vscale, v0 in *; cbn [x3 y3 z3] in *.
Lemma Qc_mul_0 a b : a * b = 0 -> a <> 0 -> b = 0.
Proof. intros H N. destruct (Qcmult_integral _ _ H); tauto. Qed.
Lemma p3_dec (a b : p3) : {a = b} + {a <> b}.
Proof. destruct (p3_eqb a b) eqn:E; [left; now apply p3_eqb_eq|right; now apply p3_eqb_neq]. Qed.
Lemma dot_self_0 a : dot a a = 0 -> a = v0.
Proof.
  intros H. assert (forall x : Qc, 0 <= x * x) as S. { intros x. destruct (Qclt_le_dec x 0) as [L|L]. - replace (x * x) with ((- x) * (- x)) by ring. apply Qclt_le_weak in L. apply Qcopp_le_compat in L. replace (- 0) with 0 in L by ring. rewrite <- (Qcmult_0_l (- x)). now apply Qcmult_le_compat_r. - rewrite <- (Qcmult_0_l x). now apply Qcmult_le_compat_r. }
  assert (forall x : Qc, x * x = 0 -> x = 0) as Z by (intros x E; destruct (Qcmult_integral _ _ E); auto).
  pose proof (S (x3 a)) as A. pose proof (S (y3 a)) as B. pose proof (S (z3 a)) as C. unfold dot in H.
  assert (forall p q : Qc, 0 <= p -> 0 <= q -> p + q = 0 -> p = 0 /\ q = 0) as K.
  { intros p q Hp Hq E. assert (p <= 0). { rewrite <- E. rewrite <- (Qcplus_0_r p) at 1. apply Qcplus_le_compat; [apply Qcle_refl|auto]. } assert (p = 0) by now apply Qcle_antisym. subst p. rewrite Qcplus_0_l in E. auto. }
  assert (0 <= x3 a * x3 a + y3 a * y3 a) as AB. { rewrite <- (Qcplus_0_l 0). now apply Qcplus_le_compat. }
  destruct (K _ _ AB C H) as [H1 H2]. destruct (K _ _ A B H1) as [H3 H4]. apply p3_eq; cbn; apply Z; auto.
Qed.
Lemma perp a : exists p, p <> v0 /\ dot p a = 0.
Proof.
  destruct (Qc_eq_dec (x3 a) 0) as [E|N].
  - exists (P3 1 0 0). split; [intros H; discriminate (f_equal x3 H)|]. vec. rewrite E. ring.
  - exists (P3 (- y3 a) (x3 a) 0). split; [intros H; apply (f_equal y3) in H; cbn in H; auto|]. vec. ring.
Qed.
Lemma parallel_perp u v p : cross u v = v0 -> u <> v0 -> dot p u = 0 -> dot p v = 0.
Proof.
  intros C N P. assert (dot u u <> 0) as Nu by (intros H; apply N; now apply dot_self_0). apply (Qc_mul_0 (dot u u)); auto.
  pose proof (f_equal x3 C) as C1. pose proof (f_equal y3 C) as C2. pose proof (f_equal z3 C) as C3. vec.
  replace ((x3 u * x3 u + y3 u * y3 u + z3 u * z3 u) * (x3 p * x3 v + y3 p * y3 v + z3 p * z3 v)) with
    ((x3 u * x3 v + y3 u * y3 v + z3 u * z3 v) * (x3 p * x3 u + y3 p * y3 u + z3 p * z3 u) +
     x3 p * (z3 u * (z3 u * x3 v - x3 u * z3 v) - y3 u * (x3 u * y3 v - y3 u * x3 v)) +
     y3 p * (x3 u * (x3 u * y3 v - y3 u * x3 v) - z3 u * (y3 u * z3 v - z3 u * y3 v)) +
     z3 p * (y3 u * (y3 u * z3 v - z3 u * y3 v) - x3 u * (z3 u * x3 v - x3 u * z3 v))) by ring.
  rewrite C1, C2, C3, P. ring.
Qed.
Lemma det_0_normal u v w : det u v w = 0 -> exists n, n <> v0 /\ dot n u = 0 /\ dot n v = 0 /\ dot n w = 0.
Proof.
  intros D. destruct (p3_dec (cross u v) v0) as [E1|N1]; [destruct (p3_dec (cross u w) v0) as [E2|N2]; [destruct (p3_dec (cross v w) v0) as [E3|N3]|]|].
  - destruct (p3_dec u v0) as [->|Nu]; [destruct (p3_dec v v0) as [->|Nv]|].
    + destruct (perp w) as (p & P1 & P2). exists p. split; auto. split; [clear; vec; ring|split; [clear; vec; ring|auto]].
    + destruct (perp v) as (p & P1 & P2). exists p. split; auto. split; [clear; vec; ring|]. split; auto. now apply (parallel_perp v).
    + destruct (perp u) as (p & P1 & P2). exists p. split; auto. split; auto. split; now apply (parallel_perp u).
  - exists (cross v w). split; auto. split; [rewrite <- D; vec; ring|split; vec; ring].
  - exists (cross u w). split; auto. split; [vec; ring|]. split; [|vec; ring]. replace (dot (cross u w) v) with (- det u v w) by (vec; ring). rewrite D. ring.
  - exists (cross u v). split; auto. split; [vec; ring|]. split; [vec; ring|exact D].
Qed.
Lemma normal_det_0 n u v w : n <> v0 -> dot n u = 0 -> dot n v = 0 -> dot n w = 0 -> det u v w = 0.
Proof.
  intros N A B C. destruct (Qc_eq_dec (det u v w) 0) as [|Nd]; auto. exfalso. apply N.
  apply p3_eq; cbn; apply (Qc_mul_0 (det u v w)); auto.
  - replace (det u v w * x3 n) with (dot n u * x3 (cross v w) + dot n v * x3 (cross w u) + dot n w * x3 (cross u v)) by (vec; ring). rewrite A, B, C. ring.
  - replace (det u v w * y3 n) with (dot n u * y3 (cross v w) + dot n v * y3 (cross w u) + dot n w * y3 (cross u v)) by (vec; ring). rewrite A, B, C. ring.
  - replace (det u v w * z3 n) with (dot n u * z3 (cross v w) + dot n v * z3 (cross w u) + dot n w * z3 (cross u v)) by (vec; ring). rewrite A, B, C. ring.
Qed.
Lemma dot_sub n p q : dot n (vsub p q) = dot n p - dot n q.
Proof. vec. ring. Qed.
Lemma coplanar4 a b c d : det (vsub b a) (vsub c a) (vsub d a) = 0 <-> coplanar [a; b; c; d].
Proof.
  split.
  - intros D. destruct (det_0_normal _ _ _ D) as (n & N & A & B & C). rewrite dot_sub in A, B, C.
    exists (mkPlane3 n (dot n a)). split; auto. assert (forall x y : Qc, x - y = 0 -> x = y) as S by (intros x y H; rewrite <- (Qcplus_0_l y), <- H; ring).
    intros p [<-|[<-|[<-|[<-|[]]]]]; unfold lies_on; cbn; auto.
  - intros (P & N & H). unfold lies_on in H. apply (normal_det_0 (normal3 P)); auto; rewrite dot_sub; rewrite !H by (cbn; auto 10); ring.
Qed.
Lemma plane_unique a b c P R p : proper_plane P -> proper_plane R -> ~ straight a b c ->
  lies_on P a -> lies_on P b -> lies_on P c -> lies_on R a -> lies_on R b -> lies_on R c -> lies_on P p -> lies_on R p.
Proof.
  unfold proper_plane, lies_on, straight. intros NP NR NS Pa Pb Pc Ra Rb Rc Pp. set (u := vsub b a) in *. set (v := vsub c a) in *. set (m := cross u v) in *.
  assert (forall n, dot n u = 0 -> dot n v = 0 -> cross n m = v0) as Par.
  { intros n A B. unfold m. apply p3_eq.
    - replace (x3 (cross n (cross u v))) with (x3 u * dot n v - x3 v * dot n u) by (vec; ring). rewrite A, B. cbn. ring.
    - replace (y3 (cross n (cross u v))) with (y3 u * dot n v - y3 v * dot n u) by (vec; ring). rewrite A, B. cbn. ring.
    - replace (z3 (cross n (cross u v))) with (z3 u * dot n v - z3 v * dot n u) by (vec; ring). rewrite A, B. cbn. ring. }
  assert (cross (normal3 P) m = v0) as C1 by (apply Par; unfold u, v; rewrite dot_sub, ?Pa, ?Pb, ?Pc; ring).
  assert (cross (normal3 R) m = v0) as C2 by (apply Par; unfold u, v; rewrite dot_sub, ?Ra, ?Rb, ?Rc; ring).
  set (q := vsub p a). assert (dot q (normal3 P) = 0) as Q1. { replace (dot q (normal3 P)) with (dot (normal3 P) q) by (vec; ring). unfold q. rewrite dot_sub, Pp, Pa. ring. }
  pose proof (parallel_perp _ _ q C1 NP Q1) as Q2.
  assert (cross m (normal3 R) = v0) as C3. { pose proof (f_equal x3 C2). pose proof (f_equal y3 C2). pose proof (f_equal z3 C2). apply p3_eq; [replace (x3 (cross m (normal3 R))) with (- x3 (cross (normal3 R) m)) by (vec; ring)|replace (y3 (cross m (normal3 R))) with (- y3 (cross (normal3 R) m)) by (vec; ring)|replace (z3 (cross m (normal3 R))) with (- z3 (cross (normal3 R) m)) by (vec; ring)]; rewrite C2; cbn; ring. }
  pose proof (parallel_perp _ _ q C3 NS Q2) as Q3. assert (dot (normal3 R) q = 0) as Q4. { rewrite <- Q3. vec. ring. }
  unfold q in Q4. rewrite dot_sub, Ra in Q4. rewrite <- (Qcplus_0_l (offset3 R)), <- Q4. ring.
Qed.
Open Scope nat_scope.
