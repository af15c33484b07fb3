(** * Proofs about heights, orthographic prints, equality, areas and footprints
    (C49-C51, C56-C58, C76) *)
From Verif Require Import Base Dbl Dbl_facts Geom Decimal Shadow Handlers Surface Spec_surface Surface_proofs Facet_geom Unode_proofs Projection Spec_projection Spec_ring Ring_proofs Strip Projection_proofs.
Open Scope nat_scope.

(** ** Planes *)
Lemma Qceqb_neq a b : Qceqb a b = false <-> a <> b.
Proof. rewrite <- not_true_iff_false, Qceqb_eq. tauto. Qed.
Lemma plane_height_value K f p z : pl_c (f_plane f) <> 0%Qc -> on_plane (f_plane f) (P3 (x2 p) (y2 p) z) -> plane_height K f p = Ok (k_tod K z).
Proof.
  intros N H. unfold plane_height. destruct (Qceqb (pl_c (f_plane f)) 0) eqn:E; [apply Qceqb_eq in E; contradiction|]. f_equal. f_equal.
  unfold on_plane in H. cbn [x3 y3 z3] in H.
  assert (X : (pl_c (f_plane f) * z = - pl_d (f_plane f) - pl_a (f_plane f) * x2 p - pl_b (f_plane f) * y2 p)%Qc).
  { match goal with |- ?l = ?r => replace l with (l - 0)%Qc by ring end. rewrite <- H. ring. }
  rewrite <- X. field. auto.
Qed.
Lemma plane_height_exists f p : pl_c (f_plane f) <> 0%Qc -> exists z, on_plane (f_plane f) (P3 (x2 p) (y2 p) z).
Proof.
  intros N. exists ((- pl_d (f_plane f) - pl_a (f_plane f) * x2 p - pl_b (f_plane f) * y2 p) / pl_c (f_plane f))%Qc. unfold on_plane. cbn [x3 y3 z3]. field. auto.
Qed.
Lemma plane_through_on p q r : on_plane (plane_through p q r) p /\ on_plane (plane_through p q r) q /\ on_plane (plane_through p q r) r.
Proof. unfold on_plane, plane_through. cbn [pl_a pl_b pl_c pl_d]. unfold dot, cross, vsub. cbn [x3 y3 z3]. repeat split; ring. Qed.

(** ** Rings *)
Lemma cross2_anti a b : cross2 b a = (- cross2 a b)%Qc.
Proof. unfold cross2. ring. Qed.
Fixpoint path_sum (l : list p2) : Qc := match l with a :: ((b :: _) as l') => (cross2 a b + path_sum l')%Qc | _ => 0%Qc end.
Lemma ring_path o l : forall a, ring_sum cross2 o a l = path_sum (a :: l ++ [o]).
Proof. induction l as [|b l IH]; intros a; cbn [ring_sum path_sum app]; [ring|]. rewrite IH. reflexivity. Qed.
Lemma path_snoc l : forall a b, path_sum (l ++ [a; b]) = (path_sum (l ++ [a]) + cross2 a b)%Qc.
Proof.
  induction l as [|x l IH]; intros a b; cbn [app path_sum]; [ring|]. destruct l as [|y l]; [cbn [app path_sum]; ring|].
  specialize (IH a b). cbn [app] in *. rewrite IH. ring.
Qed.
Lemma path_rev l : path_sum (rev l) = (- path_sum l)%Qc.
Proof.
  induction l as [|a l IH]; [cbn; ring|]. destruct l as [|b l]; [cbn; ring|]. cbn [rev] in *. rewrite <- app_assoc. cbn [app]. rewrite path_snoc, IH.
  cbn [path_sum]. rewrite (cross2_anti a b). ring.
Qed.
Lemma reverse_area l : ring_area (reverse_ring l) = (- ring_area l)%Qc.
Proof.
  destruct l as [|a l]; [reflexivity|]. cbn [reverse_ring ring_area]. rewrite !ring_path.
  assert (E : a :: rev l ++ [a] = rev (a :: l ++ [a])) by (cbn [rev]; rewrite rev_app_distr; reflexivity). rewrite E, path_rev. unfold Qcdiv. ring.
Qed.

(** ** Prints of facets *)
Lemma face_print_spec K s f : valid s -> In f (s_facets s) ->
  exists x, face_print K s f = Ok x /\ print_of K s f x.
Proof.
  intros V Hf. destruct (around_facet_ok s f V Hf) as (r & Nr & Ar & Cy).
  assert (B : boundary s f (map (fun h => s_point s (s_vert s h)) (s_rep s f :: r))) by (exists r; split; [apply Cy|auto]).
  assert (2 <= length (map (fun h => s_point s (s_vert s h)) (s_rep s f :: r))) as L by (rewrite map_length; destruct r; cbn [length]; [easy|lia]).
  remember (map (fun h => s_point s (s_vert s h)) (s_rep s f :: r)) as pts eqn:Ep.
  pose proof (proj1 (boundary_points s f pts V Hf) B) as FP. unfold face_print. rewrite FP. cbn [bind].
  destruct pts as [|p [|q rest]]; cbn [length] in L; try lia. clear L Ep.
  assert (trace (p :: q :: rest) = Ok (flatten (p :: q :: rest), plane_through p q (hd p rest))) as T by (now destruct rest).
  unfold face_of. rewrite T. cbn [bind]. eexists. split; [reflexivity|]. exists p, q, rest. cbv zeta. split; auto. cbn [f_id f_plane f_border outer holes].
  destruct (plane_through_on p q (hd p rest)) as (O1 & O2 & O3). split; auto. split; [repeat split|]. split; auto. split; auto. split; auto. split; auto. split.
  - rewrite <- ring_area_signed. intros S. rewrite S. cbn [andb]. destruct (Qcltb (ring_area (flatten (p :: q :: rest))) 0) eqn:E.
    + apply Qcltb_lt in E. rewrite reverse_area. apply Qclt_le_weak in E. apply Qcopp_le_compat in E. exact E.
    + now apply Qcltb_ge in E.
  - destruct (k_simple K (flatten (p :: q :: rest))) eqn:S; cbn [andb]; auto. destruct (Qcltb (ring_area (flatten (p :: q :: rest))) 0) eqn:E; auto.
    right. apply Qcltb_lt in E. rewrite <- ring_area_signed. repeat split; auto.
Qed.
Lemma orthoprint_spec K s : valid s ->
  exists prints, orthoprint K s = Ok (filter (fun x => negb (Qceqb (pl_c (f_plane x)) 0)) prints) /\ Forall2 (print_of K s) (s_facets s) prints.
Proof.
  intros V. unfold orthoprint.
  assert (E : exists prints, omapM (face_print K s) (s_facets s) = Ok prints /\ Forall2 (print_of K s) (s_facets s) prints).
  { assert (G : forall l, incl l (s_facets s) -> exists prints, omapM (face_print K s) l = Ok prints /\ Forall2 (print_of K s) l prints).
    { induction l as [|f l IH]; intros I; [exists []; split; [reflexivity|constructor]|].
      destruct (face_print_spec K s f V) as (x & Ex & Px); [apply I; left; auto|].
      destruct IH as (xs & Exs & Pxs); [intros y Hy; apply I; right; auto|]. exists (x :: xs). cbn [omapM]. rewrite Ex. cbn [bind]. rewrite Exs. cbn [bind]. split; auto. }
    apply G. intros y; auto. }
  destruct E as (prints & E & F). exists prints. rewrite E. cbn [bind]. split; auto. f_equal. unfold filter_facets. clear E V.
  revert F. generalize (s_facets s). induction prints as [|x xs IH]; intros l F; auto. inversion F as [|? ? ? ? Px Fx]; subst. cbn [filter]. rewrite (IH _ Fx).
  destruct Px as (p & q & rest & _ & _ & _ & _ & _ & _ & Hh & _ & Ho).
  assert (E1 : face_empty x = false). { unfold face_empty. destruct Ho as [->|(_ & _ & ->)]; reflexivity. }
  assert (E2 : is_degenerate K x = Qceqb (pl_c (f_plane x)) 0). { unfold is_degenerate, is_perpendicular. rewrite Hh. cbn [andb]. now rewrite orb_false_r. }
  now rewrite E1, E2.
Qed.

(** ** Heights of prints *)
Lemma perp_vertical f : is_perpendicular f = true <-> vertical (f_plane f).
Proof. unfold is_perpendicular, vertical. apply Qceqb_eq. Qed.
Lemma face_height_throw K f p : vertical (f_plane f) -> face_height K f p = Throw OverflowError.
Proof. intros V. apply perp_vertical in V. unfold is_perpendicular in V. unfold face_height, plane_height. now rewrite V. Qed.
Lemma face_height_zero K f p : ~ vertical (f_plane f) -> is_degenerate K f = true \/ ~ covered K (f_border f) p -> face_height K f p = Ok 0%Qc.
Proof.
  intros V D. unfold face_height, plane_height. destruct (Qceqb (pl_c (f_plane f)) 0) eqn:E; [apply Qceqb_eq in E; contradiction|]. cbn [bind].
  destruct D as [->|D]; auto. destruct (face_contains K f p) eqn:C; [apply contains_covered in C; contradiction|]. now rewrite andb_false_r.
Qed.
Lemma face_height_in K f p z : is_degenerate K f = false -> covered K (f_border f) p -> height_is K f p z -> face_height K f p = Ok z.
Proof. intros D C H. unfold face_height. unfold height_is in H. rewrite H. cbn [bind]. rewrite D. apply contains_covered in C. now rewrite C. Qed.
Lemma brick_sum K (R : rnd_ok K) p l : forall t, k_rnd K t = t -> (forall f, In f l -> ~ vertical (f_plane f)) ->
  forall zs, Forall2 (fun f z => height_is K f p z) (filter (fun f => face_contains K f p && negb (is_degenerate K f)) l) zs ->
  ofold (fun t f => let* z := face_height K f p in Ok (k_rnd K (t + z)%Qc)) l t = Ok (fold_left (fun t z => k_rnd K (t + z)%Qc) zs t).
Proof.
  induction l as [|f l IH]; intros t T V zs F; cbn [filter] in F.
  - inversion F. reflexivity.
  - cbn [ofold]. assert (Vf : ~ vertical (f_plane f)) by (apply V; left; auto). assert (Vl : forall g, In g l -> ~ vertical (f_plane g)) by (intros; apply V; right; auto).
    destruct (face_contains K f p) eqn:C; [destruct (is_degenerate K f) eqn:D|]; cbn [andb negb] in F.
    + rewrite face_height_zero by auto. cbn [bind]. rewrite Qcplus_0_r, T. exact (IH _ T Vl zs F).
    + inversion F as [|? z ? zs' Hz F']; subst. rewrite (face_height_in K f p z) by (auto; now apply contains_covered). cbn [bind fold_left]. exact (IH _ (rnd_rnd K R _) Vl zs' F').
    + rewrite face_height_zero; auto; [|right; rewrite <- contains_covered; congruence]. cbn [bind]. rewrite Qcplus_0_r, T. exact (IH _ T Vl zs F).
Qed.
Lemma brick_throw K p l : forall t, (exists f, In f l /\ vertical (f_plane f)) -> ofold (fun t f => let* z := face_height K f p in Ok (k_rnd K (t + z)%Qc)) l t = Throw OverflowError.
Proof.
  induction l as [|f l IH]; intros t (g & Hg & V); [destruct Hg|]. cbn [ofold]. destruct (is_perpendicular f) eqn:P.
  - apply perp_vertical in P. now rewrite face_height_throw.
  - destruct Hg as [<-|Hg]; [apply perp_vertical in V; congruence|]. unfold face_height at 1, plane_height at 1. unfold is_perpendicular in P. rewrite P. cbn [bind]. apply IH. eauto.
Qed.

(** ** Equality *)
Lemma sign_eqb_eq a b : sign_eqb a b = true <-> a = b.
Proof. destruct a, b; cbn; split; congruence. Qed.
Lemma qsign_scale k a : (0 < k)%Qc -> qsign (k * a) = qsign a.
Proof.
  intros Hk. unfold qsign. destruct (Qc_dec a 0) as [[H|H]|H].
  - rewrite (proj1 (Qclt_alt a 0) H). apply Qclt_alt. rewrite Qcmult_comm. rewrite <- (Qcmult_0_l k). now apply Qcmult_lt_compat_r.
  - assert (E : (a ?= 0)%Qc = Gt) by (now apply Qcgt_alt). rewrite E. apply Qcgt_alt. rewrite Qcmult_comm. rewrite <- (Qcmult_0_l k). now apply Qcmult_lt_compat_r.
  - subst. replace (k * 0)%Qc with 0%Qc by ring. reflexivity.
Qed.
Lemma qsign_ratio a b : a <> 0%Qc -> qsign a = qsign b -> (0 < b / a)%Qc.
Proof.
  intros N E. unfold qsign in E. destruct (Qc_trich a N) as [H|H].
  - assert (B : (0 < b)%Qc) by (apply Qcgt_alt; rewrite <- E; now apply Qcgt_alt).
    replace 0%Qc with (0 / a)%Qc by (field; auto). unfold Qcdiv. apply Qcmult_lt_compat_r; auto.
    destruct (Qc_trich (/ a)) as [I|I]; auto.
    + intros Z. assert (X : (a * / a = 1)%Qc) by (now apply Qcmult_inv_r). rewrite Z in X. ring_simplify in X. discriminate X.
    + exfalso. assert (X : (/ a * a < 0 * a)%Qc) by (apply Qcmult_lt_compat_r; auto). rewrite Qcmult_inv_l in X by auto. rewrite Qcmult_0_l in X. discriminate X.
  - assert (B : (b < 0)%Qc) by (apply Qclt_alt; rewrite <- E; now apply Qclt_alt).
    assert (Ha : (0 < - a)%Qc) by (apply Qclt_minus_iff in H; rewrite Qcplus_0_l in H; exact H).
    assert (Hb : (0 < - b)%Qc) by (apply Qclt_minus_iff in B; rewrite Qcplus_0_l in B; exact B).
    assert (Na : (- a <> 0)%Qc) by (intros Z; rewrite Z in Ha; discriminate Ha).
    assert (Eb : (b / a = - b / - a)%Qc) by (field; repeat split; assumption). rewrite Eb.
    replace 0%Qc with (0 / - a)%Qc by (field; auto). unfold Qcdiv. apply Qcmult_lt_compat_r; auto.
    destruct (Qc_trich (/ - a)) as [I|I]; auto.
    + intros Z. assert (X : (- a * / - a = 1)%Qc) by (now apply Qcmult_inv_r). rewrite Z in X. ring_simplify in X. discriminate X.
    + exfalso. assert (X : (/ - a * - a < 0 * - a)%Qc) by (apply Qcmult_lt_compat_r; auto). rewrite Qcmult_inv_l in X by auto. rewrite Qcmult_0_l in X. discriminate X.
Qed.
Lemma qsign_zero a : qsign a = qsign 0%Qc -> a = 0%Qc.
Proof. unfold qsign. intros E. rewrite (Qceq_alt) . exact E. Qed.
Lemma ratio_eq a b x y : a <> 0%Qc -> (a * y = b * x)%Qc -> y = (b / a * x)%Qc.
Proof. intros N E. assert (X : y = (a * y / a)%Qc) by (field; auto). rewrite X, E. field. auto. Qed.
Lemma plane_eqb_spec h p : plane_eqb h p = true <-> same_plane h p.
Proof.
  destruct h as [a b c d], p as [a' b' c' d']. unfold plane_eqb, same_plane. cbn [pl_a pl_b pl_c pl_d]. rewrite !andb_true_iff, !sign_eqb_eq, !Qceqb_eq. split.
  - intros ((((((S1 & S2) & S3) & E1) & E2) & E3) & E4). destruct (Qceqb a 0) eqn:Za; cbn [negb] in E4.
    + apply Qceqb_eq in Za. subst a. symmetry in S1. apply qsign_zero in S1. subst a'. destruct (Qceqb b 0) eqn:Zb; cbn [negb] in E4.
      * apply Qceqb_eq in Zb. subst b. symmetry in S2. apply qsign_zero in S2. subst b'. apply Qceqb_eq in E4. destruct (Qc_eq_dec c 0) as [Zc|Nc].
        -- subst c. symmetry in S3. apply qsign_zero in S3. subst c'. left. repeat split.
        -- right. exists (c' / c)%Qc. split; [now apply qsign_ratio|]. repeat split; try (field; auto). now apply ratio_eq.
      * apply Qceqb_neq in Zb. apply Qceqb_eq in E4. right. exists (b' / b)%Qc. split; [now apply qsign_ratio|]. repeat split; try (field; auto); now apply ratio_eq.
    + apply Qceqb_neq in Za. apply Qceqb_eq in E4. right. exists (a' / a)%Qc. split; [now apply qsign_ratio|]. repeat split; try (field; auto); now apply ratio_eq.
  - intros [(-> & -> & -> & -> & -> & ->)|(k & Hk & -> & -> & -> & ->)].
    + change (Qceqb 0 0) with true. cbn [negb]. rewrite Qceqb_eq. repeat split; ring.
    + repeat split; try (symmetry; now apply qsign_scale); try ring.
      destruct (negb (Qceqb a 0)); [apply Qceqb_eq; ring|]. destruct (negb (Qceqb b 0)); apply Qceqb_eq; ring.
Qed.
Lemma same_plane_refl h : same_plane h h.
Proof. right. exists 1%Qc. split; [reflexivity|]. repeat split; ring. Qed.
Lemma Qc_inv_pos k : (0 < k)%Qc -> (0 < / k)%Qc.
Proof. intros H. pose proof (qsign_ratio k 1) as X. replace (1 / k)%Qc with (/ k)%Qc in X. - apply X; [intros Z; subst; discriminate H|]. unfold qsign. rewrite (proj1 (Qcgt_alt k 0) H). reflexivity. - field. intros Z; subst; discriminate H. Qed.
Lemma same_plane_sym h p : same_plane h p -> same_plane p h.
Proof.
  intros [(A & B & C & D & E & F)|(k & Hk & A & B & C & D)]; [left; auto 10|]. right. exists (/ k)%Qc. split; [now apply Qc_inv_pos|].
  rewrite A, B, C, D. assert (N : k <> 0%Qc) by (intros Z; subst; discriminate Hk). repeat split; field; auto.
Qed.
Lemma same_plane_trans h p q : same_plane h p -> same_plane p q -> same_plane h q.
Proof.
  intros [(A & B & C & D & E & F)|(k & Hk & A & B & C & D)] [(A' & B' & C' & D' & E' & F')|(k' & Hk' & A' & B' & C' & D')].
  - left; auto 10.
  - left. rewrite A', B', C', D, E, F. repeat split; auto; ring.
  - left. assert (N : k <> 0%Qc) by (intros Z; subst; discriminate Hk).
    assert (Z : forall x y, y = (k * x)%Qc -> y = 0%Qc -> x = 0%Qc). { intros x y E1 E2. assert (X : x = (k * x / k)%Qc) by (field; auto). rewrite X, <- E1, E2. field. auto. }
    repeat split; auto; eapply Z; eauto.
  - right. exists (k' * k)%Qc. split.
    + rewrite <- (Qcmult_0_l k). apply Qcmult_lt_compat_r; auto.
    + rewrite A', B', C', D', A, B, C, D. repeat split; ring.
Qed.

(** rings *)
Lemma turn_to_spec a m : forall pre m', turn_to a pre m = Some m' -> exists u v, m = u ++ a :: v /\ m' = (a :: v) ++ pre ++ u /\ ~ In a u.
Proof.
  induction m as [|b m IH]; intros pre m' H; cbn [turn_to] in H; [discriminate|]. destruct (p2_eqb a b) eqn:E.
  - injection H as <-. apply p2_eqb_eq in E. subst b. exists [], m. rewrite app_nil_r. cbn. auto.
  - apply IH in H as (u & v & -> & -> & N). exists (b :: u), v. rewrite <- app_assoc. cbn. split; auto. split; auto. intros [X|X]; auto. subst.
    assert (X : p2_eqb a a = true) by (now apply p2_eqb_eq). congruence.
Qed.
Lemma turn_to_none a m : forall pre, turn_to a pre m = None -> ~ In a m.
Proof.
  induction m as [|b m IH]; intros pre H; cbn [turn_to] in H; auto. destruct (p2_eqb a b) eqn:E; [discriminate|]. intros [X|X]; [|eapply IH; eauto].
  subst. assert (X : p2_eqb a a = true) by (now apply p2_eqb_eq). congruence.
Qed.
Lemma ring_list_eq l m : list_eqb p2_eqb l m = true <-> l = m.
Proof. apply list_eqb_spec. apply p2_eqb_eq. Qed.
Lemma ring_eqb_rotated l m : ring_eqb l m = true -> rotated l m.
Proof.
  destruct l as [|a l]; [destruct m; [intros _; exists [], []; auto|discriminate]|]. unfold ring_eqb. rewrite andb_true_iff. intros [_ H].
  destruct (turn_to a [] m) as [m'|] eqn:T; [|discriminate]. apply ring_list_eq in H. apply turn_to_spec in T as (u & v & -> & -> & _). exists u, (a :: v). auto.
Qed.
Lemma rotated_ring_eqb l m : NoDup m -> rotated l m -> ring_eqb l m = true.
Proof.
  intros ND (u & v & -> & ->). destruct (v ++ u) as [|a l] eqn:E.
  - apply app_eq_nil in E as [-> ->]. reflexivity.
  - unfold ring_eqb. rewrite <- E, !app_length, Nat.add_comm, Nat.eqb_refl. cbn [andb].
    destruct (turn_to a [] (u ++ v)) as [m'|] eqn:T.
    + apply turn_to_spec in T as (u' & v' & E' & -> & _). cbn [app]. apply ring_list_eq. rewrite E. cbn [app].
      destruct v as [|b v].
      * cbn [app] in E. rewrite app_nil_r in *. subst u. destruct u' as [|c u']; cbn [app] in E'.
        -- injection E' as ->. now rewrite app_nil_r.
        -- injection E' as -> ->. exfalso. inversion ND as [|? ? N1 _]; subst. apply N1. apply in_or_app. cbn; auto.
      * cbn [app] in E. injection E as -> <-. destruct (NoDup_remove _ _ _ ND) as [_ Na].
        assert (U : u = u' /\ v = v').
        { clear -E' Na. revert u' E' Na. induction u as [|x u IH]; intros [|y u'] E' Na; cbn [app] in *.
          - injection E' as ->; auto.
          - injection E' as -> E'. exfalso. apply Na. rewrite E'. apply in_or_app; cbn; auto.
          - injection E' as -> E'. exfalso. apply Na. cbn; auto.
          - injection E' as -> E'. destruct (IH u' E') as [-> ->]; [|auto]. intros X. apply Na. cbn; auto. }
        destruct U as [-> ->]. reflexivity.
    + exfalso. apply turn_to_none in T. apply T. assert (I : In a (v ++ u)) by (rewrite E; left; auto). apply in_or_app. apply in_app_or in I. tauto.
Qed.
Lemma rotated_refl l : rotated l l.
Proof. exists [], l. rewrite app_nil_r. auto. Qed.
Lemma rotated_sym l m : rotated l m -> rotated m l.
Proof. intros (u & v & -> & ->). exists v, u. auto. Qed.
Lemma rotated_trans l m n : rotated l m -> rotated m n -> rotated l n.
Proof.
  intros (u & v & E1 & ->) (u' & v' & -> & E2). rewrite E1 in E2. apply app_eq_app in E2 as (w & [[-> E]|[-> E]]).
  - (* u = v' ++ w, u' = w ++ v *) subst u'. exists w, (v ++ v'). rewrite <- !app_assoc. auto.
  - (* v' = u ++ w, v = w ++ u' *) subst v. exists (u' ++ u), w. rewrite <- !app_assoc. auto.
Qed.
Lemma rotated_NoDup l m : rotated l m -> NoDup m -> NoDup l.
Proof. intros (u & v & -> & ->) H. eapply Permutation_NoDup; [|exact H]. apply Permutation_app_comm. Qed.
Lemma list_eqb_Forall2 {A} (eqb : A -> A -> bool) l : forall m, list_eqb eqb l m = true <-> Forall2 (fun a b => eqb a b = true) l m.
Proof.
  induction l as [|a l IH]; intros [|b m]; cbn [list_eqb]; split; intros H; try discriminate; try constructor; try (inversion H; fail); auto.
  - apply andb_true_iff in H. tauto.
  - apply andb_true_iff in H. apply IH. tauto.
  - inversion H; subst. apply andb_true_iff. split; auto. now apply IH.
Qed.
Lemma Forall2_impl_In {A B} (R S : A -> B -> Prop) l m : (forall x y, In x l -> In y m -> R x y -> S x y) -> Forall2 R l m -> Forall2 S l m.
Proof. intros H F. induction F as [|x y l m Hxy F IH]; constructor; [apply H; cbn; auto|]. apply IH. intros; apply H; cbn; auto. Qed.
Lemma Forall2_length {A B} (R : A -> B -> Prop) l m : Forall2 R l m -> length l = length m.
Proof. induction 1; cbn; auto. Qed.
Lemma face_eqb_spec f g : plain g -> (face_eqb f g = true <-> same_face f g).
Proof.
  intros [P1 P2]. unfold face_eqb, equal_border, same_face. rewrite !andb_true_iff, plane_eqb_spec, list_eqb_Forall2, Nat.eqb_eq. split.
  - intros [[_ [A B]] C]. split; [now apply ring_eqb_rotated|]. split; auto. eapply Forall2_impl_In; [|exact B]. intros; now apply ring_eqb_rotated.
  - intros (A & B & C). split; auto. split; [eapply Forall2_length; eauto|]. split; [now apply rotated_ring_eqb|].
    clear -B P2. revert P2. induction B; intros P2; constructor; inversion P2; subst; auto. now apply rotated_ring_eqb.
Qed.
Lemma Forall2_trans' {A} (R : A -> A -> Prop) l m n : (forall a b c, R a b -> R b c -> R a c) -> Forall2 R l m -> Forall2 R m n -> Forall2 R l n.
Proof. intros T H. revert n. induction H; intros n H'; inversion H'; subst; constructor; eauto. Qed.
Lemma same_face_refl f : same_face f f.
Proof. split; [apply rotated_refl|]. split; [|apply same_plane_refl]. induction (holes (f_border f)); constructor; auto. apply rotated_refl. Qed.
Lemma same_face_sym f g : same_face f g -> same_face g f.
Proof. intros (A & B & C). split; [now apply rotated_sym|]. split; [|now apply same_plane_sym]. clear -B. induction B; constructor; auto. now apply rotated_sym. Qed.
Lemma same_face_trans f g h : same_face f g -> same_face g h -> same_face f h.
Proof.
  intros (A & B & C) (A' & B' & C'). split; [eapply rotated_trans; eauto|]. split; [|eapply same_plane_trans; eauto].
  eapply Forall2_trans'; eauto. apply rotated_trans.
Qed.

(** std::is_permutation *)
Section PERM.
Context {A : Type} (eqb : A -> A -> bool) (D : A -> Prop).
Context (Hr : forall a, D a -> eqb a a = true) (Hs : forall a b, D a -> D b -> eqb a b = true -> eqb b a = true)
        (Ht : forall a b c, D a -> D b -> D c -> eqb a b = true -> eqb b c = true -> eqb a c = true).
Lemma eqb_congr a b x : D a -> D b -> D x -> eqb a b = true -> eqb x a = eqb x b.
Proof.
  intros Da Db Dx E. destruct (eqb x a) eqn:X; symmetry.
  - eapply Ht; [| | |exact X|exact E]; auto.
  - apply not_true_iff_false. intros Y. rewrite <- not_true_iff_false in X. apply X. eapply Ht; [| | |exact Y|]; auto.
Qed.
Lemma count_perm a l m : Permutation l m -> count_eq eqb a l = count_eq eqb a m.
Proof. unfold count_eq. induction 1; cbn [filter]; auto; repeat (destruct (eqb a _)); cbn [length]; auto; congruence. Qed.
Lemma count_cong a l m : D a -> (forall x, In x l -> D x) -> (forall x, In x m -> D x) -> Forall2 (fun x y => eqb x y = true) l m -> count_eq eqb a l = count_eq eqb a m.
Proof.
  intros Da Dl Dm F. unfold count_eq. revert Dl Dm. induction F as [|x y l m E F IH]; intros Dl Dm; auto. cbn [filter].
  assert (Dx : D x) by (apply Dl; cbn; auto). assert (Dy : D y) by (apply Dm; cbn; auto).
  rewrite (eqb_congr x y a Dx Dy Da E). assert (X : length (filter (eqb a) l) = length (filter (eqb a) m)).
  { apply IH; intros z Hz; [apply Dl|apply Dm]; cbn; auto. }
  destruct (eqb a y); cbn [length]; auto.
Qed.
(** every element is counted as often on both sides *)
Definition counts (l m : list A) : bool := (length l =? length m) && forallb (fun a => count_eq eqb a l =? count_eq eqb a m) l.
Lemma counts_spec l : forall m, (forall x, In x l -> D x) -> (forall x, In x m -> D x) ->
  (counts l m = true <-> exists m', Permutation m m' /\ Forall2 (fun x y => eqb x y = true) l m').
Proof.
  intros m Dl Dm. split.
  - unfold counts. rewrite andb_true_iff, Nat.eqb_eq, forallb_forall. intros [L H].
    assert (H' : forall a, In a l -> count_eq eqb a l = count_eq eqb a m) by (intros a Ha; apply Nat.eqb_eq; auto). clear H.
    revert m L H' Dl Dm. induction l as [|a l IH]; intros m L H Dl Dm.
    + destruct m; [|discriminate]. exists []. auto.
    + assert (Ex : exists b, In b m /\ eqb a b = true).
      { specialize (H a (or_introl eq_refl)). unfold count_eq in H. cbn [filter] in H. rewrite Hr in H by (apply Dl; left; auto). cbn [length] in H.
        destruct (filter (eqb a) m) as [|b r] eqn:E; [discriminate|]. assert (I : In b (filter (eqb a) m)) by (rewrite E; left; auto). apply filter_In in I. eauto. }
      destruct Ex as (b & Hb & Eab). apply in_split in Hb as (m1 & m2 & ->).
      assert (P : Permutation (m1 ++ b :: m2) (b :: m1 ++ m2)) by (symmetry; apply Permutation_middle).
      destruct (IH (m1 ++ m2)) as (m' & Pm & F).
      * rewrite app_length in *. cbn [length] in L. lia.
      * intros x Hx. specialize (H x (or_intror Hx)). rewrite (count_perm x _ _ P) in H. unfold count_eq in *. cbn [filter] in H.
        rewrite (eqb_congr a b x) in H; auto.
        -- destruct (eqb x b); cbn [length] in H; lia.
        -- apply Dl; left; auto.
        -- apply Dm. apply in_or_app; cbn; auto.
        -- apply Dl; right; auto.
      * intros x Hx. apply Dl; right; auto.
      * intros x Hx. apply Dm. apply in_app_or in Hx. apply in_or_app. cbn. tauto.
      * exists (b :: m'). split; [etransitivity; [exact P|constructor; auto]|constructor; auto].
  - intros (m' & P & F). unfold counts. assert (Dm' : forall x, In x m' -> D x) by (intros x Hx; apply Dm; eapply Permutation_in; [symmetry; exact P|auto]).
    apply andb_true_iff. split.
    + apply Nat.eqb_eq. rewrite (Permutation_length P). eapply Forall2_length; eauto.
    + apply forallb_forall. intros a Ha. apply Nat.eqb_eq. rewrite (count_perm a _ _ P). apply count_cong; auto.
Qed.
(** the algorithm finds the same *)
Lemma count_app a l m : count_eq eqb a (l ++ m) = count_eq eqb a l + count_eq eqb a m.
Proof. unfold count_eq. now rewrite filter_app, app_length. Qed.
Lemma perm_scan_spec m l : forall seen, (forall x, In x (seen ++ l) -> D x) -> (forall x, In x m -> D x) -> (forall a, In a seen -> count_eq eqb a (seen ++ l) = count_eq eqb a m) ->
  (perm_scan eqb seen l m = true <-> forall a, In a l -> count_eq eqb a (seen ++ l) = count_eq eqb a m).
Proof.
  induction l as [|a l IH]; intros seen Dl Dm H; cbn [perm_scan]; [split; [intros _ ? []|auto]|].
  assert (Da : D a) by (apply Dl; apply in_or_app; cbn; auto).
  assert (E : seen ++ a :: l = (seen ++ [a]) ++ l) by (now rewrite <- app_assoc). rewrite E in *.
  assert (R : count_eq eqb a ((seen ++ [a]) ++ l) = count_eq eqb a m -> perm_scan eqb (seen ++ [a]) l m = true <-> (forall x, In x l -> count_eq eqb x ((seen ++ [a]) ++ l) = count_eq eqb x m)).
  { intros Ha. apply IH; auto. intros x Hx. apply in_app_or in Hx as [Hx|[<-|[]]]; auto. }
  destruct (existsb (eqb a) seen) eqn:Sn.
  - apply existsb_exists in Sn as (b & Hb & Eab). assert (Db : D b) by (apply Dl; rewrite <- app_assoc; apply in_or_app; auto).
    assert (C : forall q, (forall x, In x q -> D x) -> count_eq eqb a q = count_eq eqb b q).
    { intros q Dq. unfold count_eq. f_equal. apply filter_ext_in. intros x Hx. specialize (Dq x Hx). destruct (eqb b x) eqn:X.
      - eapply Ht; [| | |exact Eab|exact X]; auto.
      - apply not_true_iff_false. intros Y. rewrite <- not_true_iff_false in X. apply X. eapply Ht; [| | |apply Hs; [| |exact Eab]|exact Y]; auto. }
    assert (Ha : count_eq eqb a ((seen ++ [a]) ++ l) = count_eq eqb a m) by (rewrite (C _ Dl), (C m Dm); auto).
    rewrite (R Ha). split; [intros X x [<-|Hx]; auto|intros X x Hx; apply X; now right].
  - assert (S0 : count_eq eqb a seen = 0).
    { unfold count_eq. assert (filter (eqb a) seen = []) as ->; auto. assert (forall x, In x seen -> eqb a x = false) as N. { intros x Hx. apply not_true_iff_false. intros X. apply not_true_iff_false in Sn. apply Sn. apply existsb_exists. eauto. }
      clear -N. induction seen as [|x l IH]; auto. cbn [filter]. rewrite (N x (or_introl eq_refl)). apply IH. intros y Hy. apply N. now right. }
    assert (T : count_eq eqb a ((seen ++ [a]) ++ l) = count_eq eqb a (a :: l)) by (rewrite <- app_assoc, count_app, S0; reflexivity).
    assert (P0 : count_eq eqb a (a :: l) <> 0) by (unfold count_eq; cbn [filter]; rewrite Hr by auto; discriminate).
    destruct (Nat.eqb_spec (count_eq eqb a m) 0) as [Z|NZ]; cbn [orb].
    + split; [discriminate|]. intros X. specialize (X a (or_introl eq_refl)). congruence.
    + destruct (Nat.eqb_spec (count_eq eqb a (a :: l)) (count_eq eqb a m)) as [Q|NQ]; cbn [negb].
      * rewrite (R (eq_trans T Q)). split; [intros X x [<-|Hx]; [congruence|auto]|intros X x Hx; apply X; now right].
      * split; [discriminate|]. intros X. specialize (X a (or_introl eq_refl)). congruence.
Qed.
Lemma skip_common_spec l : forall m, length l = length m -> (forall x, In x l -> D x) -> (forall x, In x m -> D x) ->
  let '(l', m') := skip_common eqb l m in exists p q, l = p ++ l' /\ m = q ++ m' /\ Forall2 (fun x y => eqb x y = true) p q /\ length l' = length m'.
Proof.
  induction l as [|a l IH]; intros [|b m] L Dl Dm; cbn [skip_common]; try discriminate; [exists [], []; auto|].
  destruct (eqb a b) eqn:E; [|exists [], []; auto]. injection L as L. specialize (IH m L (fun x Hx => Dl x (or_intror Hx)) (fun x Hx => Dm x (or_intror Hx))). destruct (skip_common eqb l m) as [l' m']. destruct IH as (p & q & -> & -> & F & L').
  exists (a :: p), (b :: q). repeat split; auto.
Qed.
Lemma is_permutation_counts l m : (forall x, In x l -> D x) -> (forall x, In x m -> D x) -> (is_permutation eqb l m = true <-> counts l m = true).
Proof.
  intros Dl Dm. unfold is_permutation, counts. destruct (Nat.eqb_spec (length l) (length m)) as [L|N]; cbn [andb]; [|tauto].
  pose proof (skip_common_spec l m L Dl Dm) as K. destruct (skip_common eqb l m) as [l' m']. destruct K as (p & q & -> & -> & F & L').
  assert (Dl' : forall x, In x l' -> D x) by (intros x Hx; apply Dl; apply in_or_app; auto). assert (Dm' : forall x, In x m' -> D x) by (intros x Hx; apply Dm; apply in_or_app; auto).
  assert (Dp : forall x, In x p -> D x) by (intros x Hx; apply Dl; apply in_or_app; auto). assert (Dq : forall x, In x q -> D x) by (intros x Hx; apply Dm; apply in_or_app; auto).
  rewrite (perm_scan_spec m' l' []); auto; [|intros ? []]. cbn [app].
  transitivity (counts l' m' = true); [unfold counts; rewrite L', Nat.eqb_refl; cbn [andb]; rewrite forallb_forall; split; intros H a Ha; [apply Nat.eqb_eq; auto|apply Nat.eqb_eq; auto]|].
  assert (C : forall a, D a -> count_eq eqb a p = count_eq eqb a q) by (intros a Da; apply count_cong; auto).
  rewrite forallb_forall. split.
  - intros H. apply counts_spec in H; auto. destruct H as (m2 & P & F2). intros a Ha. apply Nat.eqb_eq. assert (Da : D a) by auto. rewrite !count_app, C by auto. f_equal. rewrite (count_perm a _ _ P). apply count_cong; auto. intros x Hx. apply Dm'. eapply Permutation_in; [symmetry; exact P|auto].
  - intros H. unfold counts. rewrite L', Nat.eqb_refl. cbn [andb]. apply forallb_forall. intros a Ha. specialize (H a (in_or_app _ _ _ (or_intror Ha))). apply Nat.eqb_eq in H. apply Nat.eqb_eq. rewrite !count_app, (C a (Dl' a Ha)) in H. lia.
Qed.
Lemma is_permutation_spec l m : (forall x, In x l -> D x) -> (forall x, In x m -> D x) ->
  (is_permutation eqb l m = true <-> exists m', Permutation m m' /\ Forall2 (fun x y => eqb x y = true) l m').
Proof. intros Dl Dm. rewrite is_permutation_counts by auto. now apply counts_spec. Qed.
End PERM.
Lemma brick_eqb_spec b c : (forall f, In f (br_facets b) -> plain f) -> (forall f, In f (br_facets c) -> plain f) ->
  (brick_eqb b c = true <-> same_facets (br_facets b) (br_facets c)).
Proof.
  intros Pb Pc. unfold brick_eqb. rewrite (is_permutation_spec face_eqb plain); auto.
  - unfold same_facets. split; intros (m' & P & F); exists m'; split; auto.
    + eapply Forall2_impl_In; [|exact F]. intros x y Hx Hy H. apply face_eqb_spec; auto. apply Pc. eapply Permutation_in; [symmetry; exact P|auto].
    + eapply Forall2_impl_In; [|exact F]. intros x y Hx Hy H. apply face_eqb_spec; auto. apply Pc. eapply Permutation_in; [symmetry; exact P|auto].
  - intros a Pa. apply face_eqb_spec; auto. apply same_face_refl.
  - intros x y Px Py H. apply face_eqb_spec; auto. apply same_face_sym. now apply face_eqb_spec.
  - intros x y z Px Py Pz H1 H2. apply face_eqb_spec; auto. eapply same_face_trans; [apply face_eqb_spec; [|exact H1]|apply face_eqb_spec; [|exact H2]]; auto.
Qed.
