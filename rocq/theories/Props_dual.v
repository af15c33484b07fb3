(** * Properties C93, C94: measures of facets, the dual graph file. *)
From Verif Require Import Base Dbl Decimal Shadow Streams Lines_proofs Handlers Spec_shadow Spec_text Spec_num Spec_arith Spec_io Off_proofs.
From Verif Require Import Geom Surface Spec_surface Surface_proofs Facet_geom Prune_proofs Unode_proofs Projection Raster Cli Edges Spec_edges Edges_proofs Props_surface.
From Verif Require Import Arith_proofs Nearest_proofs Dq_proofs Sum_proofs Tiny_proofs Props_edges Dual Spec_dual Props_textout.
From Coq Require Import QArith Qcanon Qabs Lqa.
Close Scope Q_scope.
Open Scope nat_scope.

(** ** Doubles as exact numbers *)
Lemma qd_value x : qd x = value x.
Proof.
  destruct x as [s|s| |s m e]; try reflexivity. unfold value. apply Qc_is_canon. rewrite qd_val. rewrite this_Q2Qc. rewrite dval_finite. destruct s; reflexivity.
Qed.
Lemma value_zero x : value x = 0%Qc <-> (dval x == 0)%Q.
Proof.
  unfold value. split.
  - intros E. assert (this (Q2Qc (dval x)) == this 0%Qc)%Q as H by now rewrite E. rewrite this_Q2Qc in H. exact H.
  - intros E. apply Qc_is_canon. rewrite this_Q2Qc. exact E.
Qed.
Lemma dq_converted q : converted q (dq q).
Proof. destruct (dq_correct q) as [A B]. split; auto. intros N. eexists. now apply B. Qed.
Lemma range_dec q : {in_range q} + {~ in_range q}.
Proof. unfold in_range. destruct (Qlt_le_dec (Qabs q) (inject_Z (2 ^ 1024 - 2 ^ 970))); [left|right]; auto. now apply Qle_not_lt. Qed.
Lemma dq_finite q : dfinite (dq q) = true <-> in_range (this q).
Proof.
  destruct (dq_correct q) as [A B]. split.
  - intros F. destruct (range_dec (this q)) as [|N]; auto. rewrite (B N) in F. discriminate.
  - intros I. now destruct (A I) as [[_ F] _].
Qed.
Lemma root_d_rounded x : (0 <= x)%Qc -> rounded_length x (root_d x).
Proof. apply rounded_edge. Qed.
Lemma root_d_real x : (0 <= x)%Qc -> (real_double (root_d x) <-> in_range (this x)).
Proof.
  intros P. pose proof (root_d_rounded x P) as [A B]. split.
  - intros [_ F]. destruct (range_dec (this x)) as [|N]; auto. rewrite (B N) in F. discriminate.
  - intros I. destruct (A I) as (d & _ & R & _). exact R.
Qed.
Lemma root_d_finite x : (0 <= x)%Qc -> (dfinite (root_d x) = true <-> in_range (this x)).
Proof.
  intros P. rewrite <- root_d_real by auto. split; [|now intros []]. intros F. split; auto.
  pose proof (root_d_rounded x P) as [A B]. destruct (range_dec (this x)) as [I|N]; [|rewrite (B N) in F; discriminate]. destruct (A I) as (d & _ & [V _] & _). exact V.
Qed.
Lemma root_d_zero x : (0 <= x)%Qc -> in_range (this x) -> (value (root_d x) = 0%Qc <-> (this x <= Round_proofs.pw 2 (-1075))%Q).
Proof.
  intros P I. rewrite value_zero. destruct (root_d_rounded x P) as [A _]. destruct (A I) as (d & Nd & Rt).
  assert (0 <= this x)%Q as P' by exact P. pose proof (nearest_zero _ _ Nd) as Z. rewrite (Qabs_pos _ P') in Z. rewrite <- Z. split.
  - intros E. pose proof (nearest_nonneg _ _ P' Nd) as Pd. destruct (Qlt_le_dec 0 (dval d)) as [L|]; [|lra]. pose proof (root_not_zero d _ (proj1 Nd) L Rt). lra.
  - intros E. now apply (root_of_zero d).
Qed.
Lemma exactly_Ok x q : exactly x = Ok q <-> dfinite x = true /\ q = value x.
Proof. unfold exactly. rewrite qd_value. destruct (dfinite x); split; try (intros H; apply Ok_inj in H; auto); try discriminate; intros [F ->]; congruence. Qed.
Lemma divisor_Ok x q : divisor x = Ok q <-> dfinite x = true /\ q = value x /\ q <> 0%Qc.
Proof.
  unfold divisor. split.
  - intros H. apply bind_Ok in H. destruct H as (r & E & H). apply exactly_Ok in E. destruct E as [F ->]. destruct (Qceqb (value x) 0) eqn:Z; [discriminate|]. apply Ok_inj in H. subst. split; auto. split; auto.
    intros C. assert (Qceqb (value x) 0 = true) by now apply Qceqb_eq. congruence.
  - intros (F & -> & N). rewrite (proj2 (exactly_Ok x _) (conj F eq_refl)). cbn [bind]. destruct (Qceqb (value x) 0) eqn:Z; auto. apply Qceqb_eq in Z. congruence.
Qed.

(** ** Geometry *)
Lemma dot_nonneg v : (0 <= dot v v)%Qc.
Proof.
  unfold dot. assert (forall x : Qc, 0 <= x * x)%Qc as S. { intros x. unfold Qcle. change (this 0%Qc) with 0%Q. unfold Qcmult. rewrite this_Q2Qc. nra. }
  rewrite <- (Qcplus_0_l 0). apply Qcplus_le_compat; [|apply S]. rewrite <- (Qcplus_0_l 0). apply Qcplus_le_compat; apply S.
Qed.
Lemma sq_area_tri a b c : sq_area a b c = tri_sq_area a b c.
Proof. unfold sq_area, tri_sq_area, cross, dot, vsub; cbn [x3 y3 z3]. unfold Qcdiv. ring. Qed.
Lemma tri_nonneg a b c : (0 <= tri_sq_area a b c)%Qc.
Proof.
  rewrite <- sq_area_tri. unfold sq_area. cbv zeta. set (v := cross _ _). pose proof (dot_nonneg v) as P. unfold Qcdiv. rewrite <- (Qcmult_0_l (/ qz 4)). apply Qcmult_le_compat_r; auto. discriminate.
Qed.
Lemma facet_area_corner s f : facet_area s f = root_d (corner_sq_area s f).
Proof. unfold facet_area, corner_sq_area, source, target. now rewrite sq_area_tri. Qed.
Lemma corner_nonneg s f : (0 <= corner_sq_area s f)%Qc.
Proof. exact (tri_nonneg _ _ _). Qed.
(** three points on a line: no area *)
Lemma straight_tri a b c : straight a b c -> tri_sq_area a b c = 0%Qc.
Proof. intros S. rewrite <- sq_area_tri. unfold sq_area. cbv zeta. rewrite S. unfold dot, v0, Qcdiv. cbn [x3 y3 z3]. ring. Qed.
Lemma sum_sq_zero v : dot v v = 0%Qc -> v = v0.
Proof.
  intros H. assert (this (dot v v) == 0)%Q as E by now rewrite H. unfold dot, Qcplus, Qcmult in E. rewrite !this_Q2Qc in E.
  assert (forall q : Qc, this q == 0 -> q = 0%Qc)%Q as Z by (intros q Hq; apply Qc_is_canon; exact Hq). apply p3_eq; cbn [v0 x3 y3 z3]; apply Z; nra.
Qed.
Lemma tri_straight a b c : tri_sq_area a b c = 0%Qc <-> straight a b c.
Proof.
  split; [|apply straight_tri]. rewrite <- sq_area_tri. unfold sq_area, straight. cbv zeta. set (v := cross _ _). intros H. apply sum_sq_zero.
  replace (dot v v) with (dot v v / qz 4 * qz 4)%Qc by (field; apply qz_nonzero; lia). rewrite H. ring.
Qed.
Lemma sqdist_sym a b : sqdist a b = sqdist b a.
Proof. unfold sqdist, dot, vsub. cbn [x3 y3 z3]. ring. Qed.
Lemma sides_fun s f l l' : sides_of s f l -> sides_of s f l' -> l = l'.
Proof. intros (r & -> & C) (r' & -> & C'). f_equal. eapply cycle_head_fun; eauto. Qed.
Lemma sides_around s f l : valid s -> In f (s_facets s) -> (sides_of s f l <-> around_facet s f = Ok l).
Proof.
  intros V I. split.
  - intros (r & -> & C). now apply around_facet_cycle.
  - intros E. destruct (around_facet_ok s f V I) as (r & _ & E' & C & _). rewrite E in E'. apply Ok_inj in E'. subst. now exists r.
Qed.
Lemma sides_lengths s l : Forall2 (fun h y => rounded_length (sqdist (source s h) (target s h)) y) l (map (side_d s) l).
Proof.
  induction l as [|h l IH]; cbn [map]; constructor; auto. unfold side_d. fold (target s h) (source s h). rewrite sqdist_sym. apply root_d_rounded, dot_nonneg.
Qed.
Lemma sides_fine s l : Forall fine (map (side_d s) l).
Proof. pose proof (sides_lengths s l) as H. induction H as [|e y es ys R _ IH]; constructor; auto. now apply rounded_fine in R. Qed.
Lemma sides_sum s l : rounded_perimeter s l (fold_left (fun t h => dadd t (side_d s h)) l dzero).
Proof. exists (map (side_d s) l). split; [apply sides_lengths|]. rewrite (fold_map dadd). apply sum_fine; [apply sides_fine|apply zero_fine]. Qed.

(** ** Normals *)
Lemma normalized_unit v n : normalized3 v = Ok n -> unit_of v n.
Proof.
  unfold normalized3. destruct (p3_eqb v v0) eqn:E.
  - apply p3_eqb_eq in E. intros H. apply Ok_inj in H. left. split; congruence.
  - apply p3_eqb_neq in E. intros H. apply bind_Ok in H. destruct H as (q & Q & H). apply exactly_Ok in Q. destruct Q as [F ->]. apply Ok_inj in H. right. split; auto. exists (root_d (dot v v)).
    split; [apply root_d_rounded, dot_nonneg|]. split; [apply root_d_real; [apply dot_nonneg|]; apply root_d_finite; [apply dot_nonneg|auto]|].
    destruct (Qceqb (value (root_d (dot v v))) 0) eqn:Z.
    + apply Qceqb_eq in Z. left. auto.
    + right. assert (value (root_d (dot v v)) <> 0%Qc) as N by (intros C; apply Qceqb_eq in C; congruence). split; auto. subst n. apply p3_eq; unfold vscale; cbn [x3 y3 z3]; field; auto.
Qed.
Lemma normalized_defined v : (exists n, normalized3 v = Ok n) <-> in_range (this (dot v v)).
Proof.
  unfold normalized3. destruct (p3_eqb v v0) eqn:E.
  - apply p3_eqb_eq in E. subst. split; [|eauto]. intros _. unfold in_range. reflexivity.
  - rewrite <- root_d_finite by apply dot_nonneg. split.
    + intros [n H]. apply bind_Ok in H. destruct H as (q & Q & _). now apply exactly_Ok in Q.
    + intros F. rewrite (proj2 (exactly_Ok _ _) (conj F eq_refl)). cbn [bind]. eauto.
Qed.
Lemma normalized_cases v : normalized3 v = UB \/ exists n, normalized3 v = Ok n.
Proof. unfold normalized3. destruct (p3_eqb v v0); eauto. unfold exactly. destruct (dfinite (root_d (dot v v))); cbn [bind]; eauto. Qed.
Lemma unit_normal_of s f pts : valid s -> In f (s_facets s) -> boundary s f pts -> unit_normal s f = normalized3 (area_vector pts).
Proof. intros V I B. unfold unit_normal, facet_normal. apply boundary_points in B; auto. rewrite B. cbn [bind]. now rewrite vector_area_newell. Qed.
Lemma boundary_exists s f : valid s -> In f (s_facets s) -> exists pts, boundary s f pts.
Proof. intros V I. destruct (around_facet_ok s f V I) as (r & _ & _ & C & _). eexists. exists r. eauto. Qed.

(** ** Centres *)
Lemma centre_sum n ps : forall c c', ofold (centre_step n) ps c = Ok c' <->
  Forall (fun pq => in_range (this (det (fst pq) (snd pq) n))) ps /\
  c' = vadd c (vscale (/ qz 6) (vsum (map (fun pq => vscale (value (dq (det (fst pq) (snd pq) n))) (vadd (fst pq) (snd pq))) ps))).
Proof.
  induction ps as [|pq ps IH]; intros c c'; cbn [ofold map].
  - split.
    + intros H. apply Ok_inj in H. subst. split; auto. unfold vsum; cbn [fold_right]. apply p3_eq; unfold vadd, vscale, v0; cbn [x3 y3 z3]; ring.
    + intros [_ ->]. f_equal. unfold vsum; cbn [fold_right]. apply p3_eq; unfold vadd, vscale, v0; cbn [x3 y3 z3]; ring.
  - change (vsum (?a :: ?l)) with (vadd a (vsum l)). split.
    + intros H. apply bind_Ok in H. destruct H as (c1 & H1 & H). unfold centre_step in H1. apply bind_Ok in H1. destruct H1 as (d & D & H1). apply exactly_Ok in D. destruct D as [F ->]. apply Ok_inj in H1.
      apply IH in H. destruct H as [Hf ->]. split; [constructor; auto; now apply dq_finite|]. subst c1. apply p3_eq; unfold vadd, vscale; cbn [x3 y3 z3]; ring.
    + intros [Hf ->]. inversion Hf as [|? ? H1 H2]; subst. unfold centre_step at 1. apply dq_finite in H1. rewrite (proj2 (exactly_Ok _ _) (conj H1 eq_refl)). cbn [bind]. apply IH. split; auto. apply p3_eq; unfold vadd, vscale; cbn [x3 y3 z3]; ring.
Qed.
Lemma combine_map_r {A B} (g : A -> B) l : combine l (map g l) = map (fun a => (a, g a)) l.
Proof. induction l; cbn; congruence. Qed.
(** ** C93: the line of a facet *)
Lemma around_ok s f : valid s -> In f (s_facets s) -> exists l, around_facet s f = Ok l.
Proof. intros V I. destruct (around_facet_ok s f V I) as (r & _ & E & _). eauto. Qed.
Lemma perimeter_ok s f l : around_facet s f = Ok l -> perimeter s f = Ok (fold_left (fun t h => dadd t (side_d s h)) l dzero).
Proof. intros E. unfold perimeter. now rewrite E. Qed.
Lemma no_throw_exactly x : exactly x = UB \/ exists q, exactly x = Ok q.
Proof. unfold exactly. destruct (dfinite x); eauto. Qed.
Lemma line_no_throw s f : valid s -> In f (s_facets s) -> facet_line s f = UB \/ exists t, facet_line s f = Ok t.
Proof.
  intros V I. destruct (around_ok s f V I) as [l E]. destruct (boundary_exists s f V I) as [pts B]. unfold facet_line. rewrite (perimeter_ok s f l E), E. cbn [bind].
  unfold facet_centre. rewrite (unit_normal_of s f pts V I B). apply boundary_points in B; auto. rewrite B. cbn [bind]. destruct (normalized_cases (area_vector pts)) as [->|[n ->]]; cbn [bind]; auto.
  assert (forall ps c, ofold (centre_step n) ps c = UB \/ exists c', ofold (centre_step n) ps c = Ok c') as F.
  { induction ps as [|q ps IH]; intros c; cbn [ofold]; eauto. unfold centre_step at 1 3. destruct (no_throw_exactly (dq (det (fst q) (snd q) n))) as [->|[d ->]]; cbn [bind]; auto. }
  destruct (F (pairs pts) v0) as [->|[c ->]]; cbn [bind]; auto. unfold divisor. destruct (no_throw_exactly (facet_area s f)) as [->|[d ->]]; cbn [bind]; auto. destruct (Qceqb d 0); cbn [bind]; eauto.
Qed.
(** the centre, the normal and what they need *)
Lemma centre_defined s f pts c n : valid s -> In f (s_facets s) -> boundary s f pts ->
  (facet_centre s f = Ok c /\ unit_normal s f = Ok n <->
   normalized3 (area_vector pts) = Ok n /\ Forall (fun pq => in_range (this (det (fst pq) (snd pq) n))) (cyclic_pairs pts) /\
   in_range (this (corner_sq_area s f)) /\ value (facet_area s f) <> 0%Qc /\
   c = vscale (/ value (facet_area s f)) (vscale (/ qz 6) (vsum (map (fun pq => vscale (value (dq (det (fst pq) (snd pq) n))) (vadd (fst pq) (snd pq))) (cyclic_pairs pts))))).
Proof.
  intros V I B. unfold facet_centre. rewrite (unit_normal_of s f pts V I B). pose proof B as B'. apply boundary_points in B'; auto. rewrite B'. cbn [bind].
  assert (forall v, vadd v0 v = v) as Z by (intros v; apply p3_eq; unfold vadd, v0; cbn [x3 y3 z3]; ring).
  assert (dfinite (facet_area s f) = true <-> in_range (this (corner_sq_area s f))) as Fa by (rewrite facet_area_corner; exact (root_d_finite _ (corner_nonneg s f))).
  split.
  - intros [H Hn]. rewrite Hn in H. cbn [bind] in H. apply bind_Ok in H. destruct H as (c1 & H1 & H). apply bind_Ok in H. destruct H as (a & Ha & H). apply Ok_inj in H. subst c.
    rewrite pairs_cyclic in H1. apply centre_sum in H1. destruct H1 as [Hf ->]. apply divisor_Ok in Ha. destruct Ha as (F & -> & N). split; auto. split; auto. split; [now apply Fa|]. split; auto. now rewrite Z.
  - intros (Hn & Hf & Ir & Na & ->). rewrite Hn. cbn [bind]. split; auto. rewrite pairs_cyclic. rewrite (proj2 (centre_sum n (cyclic_pairs pts) v0 _) (conj Hf eq_refl)). cbn [bind].
    rewrite (proj2 (divisor_Ok (facet_area s f) (value (facet_area s f)))) by (split; [now apply Fa|auto]). cbn [bind]. now rewrite Z.
Qed.
Lemma words_line id deg a p c n : print_N id ++ [ch_sp] ++ print_N deg ++ [ch_sp] ++ print_dbl a ++ [ch_sp] ++ print_dbl p ++ [ch_sp] ++ print_p3 c ++ [ch_sp] ++ print_p3 n ++ [ch_nl] =
  words (print_N id :: print_N deg :: map print_dbl [a; p; dq (x3 c); dq (y3 c); dq (z3 c); dq (x3 n); dq (y3 n); dq (z3 n)]) ++ [ch_nl].
Proof.
  unfold print_p3. cbn [words map]. repeat (rewrite <- app_assoc || rewrite <- app_comm_cons). reflexivity.
Qed.
(** every line that is written describes the facet *)
Theorem C93_line s f t : valid s -> In f (s_facets s) -> facet_line s f = Ok t ->
  exists d line, measured s f d /\ describes line d /\ t = line ++ [nl_char].
Proof.
  intros V I H. destruct (around_ok s f V I) as [l E]. destruct (boundary_exists s f V I) as [pts B]. unfold facet_line in H. rewrite (perimeter_ok s f l E), E in H. cbn [bind] in H.
  apply bind_Ok in H. destruct H as (c & Hc & H). apply bind_Ok in H. destruct H as (n & Hn & H). apply Ok_inj in H. rewrite words_line in H.
  destruct (proj1 (centre_defined s f pts c n V I B) (conj Hc Hn)) as (U & Hf & Ir & Na & Ec).
  exists (mkFacetData (s_id s f) (length l) (facet_area s f) (fold_left (fun t h => dadd t (side_d s h)) l dzero) c n). eexists. split; [|split; [|symmetry; exact H]].
  - constructor; cbn [fd_id fd_degree fd_area fd_perimeter fd_centre fd_normal].
    + reflexivity.
    + exists l. split; [now apply sides_around|]. split; auto. apply sides_sum.
    + rewrite facet_area_corner in *. split; [exact (root_d_rounded _ (corner_nonneg s f))|]. split; auto. now apply (root_d_real _ (corner_nonneg s f)).
    + exists pts. split; auto. now apply normalized_unit.
    + exists pts. split; auto. exists (map (fun pq => dq (det (fst pq) (snd pq) n)) (cyclic_pairs pts)). split.
      * clear -Hf. induction Hf as [|pq ps Hp _ IH]; cbn [map]; constructor; auto. now apply dq_correct.
      * rewrite combine_map_r, map_map. cbn [fst snd]. rewrite Ec. apply p3_eq; unfold vscale; cbn [x3 y3 z3]; field; (split; [apply qz_nonzero; lia|exact Na]).
  - exists (dq (x3 c)), (dq (y3 c)), (dq (z3 c)), (dq (x3 n)), (dq (y3 n)), (dq (z3 n)). do 6 (split; [apply dq_converted|]). cbn [fd_id fd_degree fd_area fd_perimeter fd_centre fd_normal]. reflexivity.
Qed.
(** the normal *)
Theorem C93_normal s f pts : valid s -> In f (s_facets s) -> boundary s f pts ->
  ((exists n, unit_normal s f = Ok n) <-> in_range (this (dot (area_vector pts) (area_vector pts)))) /\
  (forall n, unit_normal s f = Ok n -> unit_of (area_vector pts) n).
Proof. intros V I B. rewrite (unit_normal_of s f pts V I B). split; [apply normalized_defined|apply normalized_unit]. Qed.
(** the line can be written exactly if the first corner has an area that does not round to
    zero and no number is too large; in all other cases the behaviour is undefined *)
Theorem C93_defined s f pts : valid s -> In f (s_facets s) -> boundary s f pts ->
  ((exists t, facet_line s f = Ok t) <->
   ((inject_Z 2 ^ (-1075) < this (corner_sq_area s f))%Q /\ in_range (this (corner_sq_area s f)) /\
    exists n, unit_normal s f = Ok n /\ forall p q, In (p, q) (cyclic_pairs pts) -> in_range (this (det p q n)))) /\
  (~ (exists t, facet_line s f = Ok t) -> facet_line s f = UB).
Proof.
  intros V I B. split; [|intros N; destruct (line_no_throw s f V I) as [|X]; [auto|contradiction]].
  assert (in_range (this (corner_sq_area s f)) -> (value (facet_area s f) <> 0%Qc <-> (inject_Z 2 ^ (-1075) < this (corner_sq_area s f))%Q)) as Nz.
  { intros Ir. rewrite facet_area_corner, (root_d_zero _ (corner_nonneg s f) Ir). split; [apply Qnot_le_lt|apply Qlt_not_le]. }
  split.
  - intros [t H]. unfold facet_line in H. do 2 (apply bind_Ok in H; destruct H as (? & _ & H)). apply bind_Ok in H. destruct H as (c & Hc & H). apply bind_Ok in H. destruct H as (n & Hn & H). clear H.
    destruct (proj1 (centre_defined s f pts c n V I B) (conj Hc Hn)) as (U & Hf & Ir & Na & _). split; [now apply Nz|]. split; auto. exists n. split; auto. intros p q J. rewrite Forall_forall in Hf. exact (Hf _ J).
  - intros (Nn & Ir & n & Hn & Hd). destruct (around_ok s f V I) as [l E]. unfold facet_line. rewrite (perimeter_ok s f l E), E. cbn [bind].
    rewrite (unit_normal_of s f pts V I B) in Hn. assert (exists c, facet_centre s f = Ok c /\ unit_normal s f = Ok n) as (c & C1 & C2).
    { eexists. apply (centre_defined s f pts _ n V I B). split; [exact Hn|]. split; [apply Forall_forall; intros [p q] J; now apply Hd|]. split; [exact Ir|]. split; [now apply Nz|reflexivity]. }
    rewrite C1. cbn [bind]. rewrite C2. cbn [bind]. eauto.
Qed.
(** in particular nothing can be written about a facet whose first corner is straight *)
Theorem C93_straight_corner s f : valid s -> In f (s_facets s) ->
  straight (source s (s_rep s f)) (target s (s_rep s f)) (target s (s_next s (s_rep s f))) -> facet_line s f = UB.
Proof.
  intros V I S. destruct (boundary_exists s f V I) as [pts B]. destruct (C93_defined s f pts V I B) as [D U]. apply U. intros H. apply D in H. destruct H as [L _].
  unfold corner_sq_area in L. rewrite (straight_tri _ _ _ S) in L. revert L. apply Qle_not_lt. apply Qlt_le_weak. exact (Round_proofs.pw_pos 2 (-1075) eq_refl).
Qed.

(** ** C93: the text of the dual graph *)
Lemma nth_error_Some_lt {A} (l : list A) i a : nth_error l i = Some a -> i < length l.
Proof. intros H. apply nth_error_Some. congruence. Qed.
Lemma Forall2_places {A B} (R : A -> B -> Prop) l m : length l = length m -> (forall i a b, nth_error l i = Some a -> nth_error m i = Some b -> R a b) -> Forall2 R l m.
Proof.
  revert m. induction l as [|a l IH]; intros [|b m] L H; try discriminate; constructor.
  - apply (H 0); reflexivity.
  - apply IH; [now injection L|]. intros i. apply (H (S i)).
Qed.
Lemma concat_places {A} n (rows : list (list A)) : Forall (fun r => length r = n) rows -> forall i r j, nth_error rows i = Some r -> j < n -> nth_error (concat rows) (i * n + j) = nth_error r j.
Proof.
  induction 1 as [|r0 rows L H IH]; intros [|i] r j E J; try discriminate; cbn [concat nth_error] in *.
  - injection E as ->. cbn [Nat.mul Nat.add]. apply nth_error_app1. lia.
  - rewrite nth_error_app2 by (cbn [Nat.mul]; lia). replace (S i * n + j - length r0) with (i * n + j) by (cbn [Nat.mul]; lia). now apply IH.
Qed.
Lemma words_no_nl l : Forall (fun w => ~ In ch_nl w) l -> ~ In ch_nl (words l).
Proof.
  induction 1 as [|w l Hw Hl IH]; cbn [words]; auto. destruct l as [|v l]; auto. intros H. apply in_app_or in H. destruct H as [H|[H|H]]; auto. discriminate.
Qed.
Lemma describes_no_nl line d : describes line d -> ~ In ch_nl line.
Proof.
  intros (cx & cy & cz & nx & ny & nz & _ & _ & _ & _ & _ & _ & ->). apply words_no_nl. constructor; [apply print_N_no_nl|]. constructor; [apply print_N_no_nl|]. apply Forall_forall. intros w I. apply in_map_iff in I. destruct I as (x & <- & _). apply print_dbl_no_nl.
Qed.
Lemma spaced_no_nl r : ~ In ch_nl (spaced r).
Proof.
  induction r as [|b r IH]; cbn [spaced]; auto. destruct r as [|c r].
  - intros [H|[]]. destruct b; discriminate.
  - intros [H|[H|H]]; [destruct b; discriminate|discriminate|auto].
Qed.
Lemma lines_of s l ts : valid s -> incl l (s_facets s) -> Forall2 (fun f t => facet_line s f = Ok t) l ts ->
  exists lines, Forall2 (fun f line => exists d, measured s f d /\ describes line d) l lines /\ concat ts = concat (map print_line lines).
Proof.
  intros V. induction 2 as [|f t l ts E _ IH]; intros; [exists []; split; auto; constructor|].
  destruct (C93_line s f t V) as (d & line & M & D & ->); auto; [apply H; now left|]. destruct IH as (lines & F & C); [intros x X; apply H; now right|].
  exists (line :: lines). split; [constructor; eauto|]. cbn [concat map]. rewrite C. reflexivity.
Qed.
(** the lines of the file: one per facet, describing it; then one row of bits per facet, in the
    same order; then an empty line *)
Theorem C93_text s t : valid s -> dual_text facet_line s = Ok t ->
  exists lines rows, readlines t = lines ++ map spaced rows ++ [[]] /\
    Forall2 (fun f line => exists d, measured s f d /\ describes line d) (s_facets s) lines /\
    Forall2 (row_about s) (s_facets s) rows.
Proof.
  intros V H. unfold dual_text in H. apply bind_Ok in H. destruct H as (ls & L & H). apply omapM_Ok in L. apply bind_Ok in H. destruct H as (m & M & H). apply bind_Ok in H. destruct H as (u & U & H). apply Ok_inj in H.
  destruct (lines_of s _ ls V (incl_refl _) L) as (lines & F & C). destruct (C40_adjacency s V) as (m' & M' & Lm & Hm). rewrite M in M'. apply Ok_inj in M'. subst m'.
  destruct (C41_text m _ Lm) as (rows & Lr & Fr & Cr & Pr). rewrite Pr in U. apply Ok_inj in U. exists lines, rows. split; [|split; auto].
  - subst t u. rewrite C. change (fun r => spaced r ++ [nl_char]) with (fun r => print_line (spaced r)). rewrite <- (map_map spaced print_line). change [ch_nl] with (concat (map print_line [[]])).
    rewrite <- !concat_app, <- !map_app. apply readlines_text. apply Forall_app. split; [|apply Forall_app; split].
    + clear -F. induction F as [|f line l ls (d & _ & D) _ IH]; constructor; auto. now apply describes_no_nl in D.
    + apply Forall_forall. intros w I. apply in_map_iff in I. destruct I as (r & <- & _). apply spaced_no_nl.
    + constructor; auto.
  - apply Forall2_places; auto. intros i f row Hf Hr. pose proof (nth_error_Some_lt _ _ _ Hf) as Li. unfold row_about. rewrite Forall_forall in Fr. pose proof (Fr _ (nth_error_In _ _ Hr)) as Lrow.
    apply Forall2_places; auto. intros j g b Hg Hb. pose proof (nth_error_Some_lt _ _ _ Hg) as Lj. specialize (Hm i j f g Hf Hg). rewrite <- Cr in Hm. rewrite (concat_places (length (s_facets s)) rows) with (r := row) in Hm; auto; [|now apply Forall_forall].
    rewrite Hb in Hm. assert (b = true <-> Some b = Some true) as -> by (split; [now intros ->|now intros [= ->]]). rewrite Hm. split; intros [X|X]; auto.
    + left. subst j. congruence.
    + left. subst g. pose proof (va_fs s V) as Nd. rewrite NoDup_nth_error in Nd. apply Nd; auto. congruence.
Qed.
(** it is written exactly if every facet has a line, and undefined otherwise *)
Theorem C93_text_defined s : valid s ->
  ((exists t, dual_text facet_line s = Ok t) <-> forall f, In f (s_facets s) -> exists t, facet_line s f = Ok t) /\
  ((exists f, In f (s_facets s) /\ facet_line s f = UB) -> dual_text facet_line s = UB).
Proof.
  intros V. assert (forall l, incl l (s_facets s) -> (exists ts, omapM (facet_line s) l = Ok ts) \/ omapM (facet_line s) l = UB) as Cs.
  { induction l as [|f l IH]; intros J; [left; now exists []|]. cbn [omapM]. destruct (line_no_throw s f V) as [->|[t ->]]; [apply J; now left|now right|]. cbn [bind]. destruct IH as [[ts ->]| ->]; [intros x X; apply J; now right| |]; cbn [bind]; eauto. }
  assert ((exists t, dual_text facet_line s = Ok t) <-> exists ts, omapM (facet_line s) (s_facets s) = Ok ts) as Dt.
  { unfold dual_text. destruct (C40_adjacency s V) as (m & M & Lm & _). destruct (C41_text m _ Lm) as (rows & _ & _ & _ & Pr). rewrite M. split.
    - intros [t H]. apply bind_Ok in H. destruct H as (ts & H & _). eauto.
    - intros [ts ->]. cbn [bind]. rewrite Pr. cbn [bind]. eauto. }
  split.
  - rewrite Dt. split.
    + intros [ts H] f I. apply omapM_Ok in H. clear Cs Dt. revert I. induction H as [|g t l ts E _ IH]; intros J; [easy|]. destruct J as [<-|J]; eauto.
    + intros H. destruct (Cs _ (incl_refl _)) as [|U]; auto. exfalso. assert (forall l, (forall f, In f l -> exists t, facet_line s f = Ok t) -> omapM (facet_line s) l <> UB) as G; [|now apply (G _ H)].
      clear. induction l as [|f l IH]; intros H; cbn [omapM]; [discriminate|]. destruct (H f) as [t ->]; [now left|]. cbn [bind]. specialize (IH (fun x X => H x (or_intror X))). destruct (omapM (facet_line s) l); cbn [bind]; congruence.
  - intros (f & I & U). unfold dual_text. destruct (Cs _ (incl_refl _)) as [[ts H]| ->]; [|reflexivity]. exfalso. apply omapM_Ok in H. clear Cs Dt. revert I. induction H as [|g t l ts E _ IH]; [easy|]. intros [<-|J]; [congruence|auto].
Qed.
