(** * Proofs about pruning (C42). *)
From Verif Require Import Base Geom Decimal Shadow Handlers Surface Spec_surface Surface_proofs Facet_geom.
Open Scope nat_scope.

(** ** Orbits of an injection of a finite set are cycles *)
Lemma NoDup_map_in {A B} (f : A -> B) l : NoDup l -> (forall x y, In x l -> In y l -> f x = f y -> x = y) -> NoDup (map f l).
Proof.
  induction 1 as [|a l Na N IH]; intros I; cbn; constructor.
  - intros H. apply in_map_iff in H as (b & E & Hb). apply Na. rewrite <- (I b a); auto; [right; auto|left; auto].
  - apply IH. intros x y Hx Hy. apply I; right; auto.
Qed.
Lemma orbit_cycle step l h : (forall k, In k l -> In (step k) l) -> (forall j k, In j l -> In k l -> step j = step k -> j = k) -> In h l ->
  exists r, cycle step (h :: r) /\ incl (h :: r) l.
Proof.
  intros C I Hh.
  assert (G : forall n q y, length l - length (h :: q) <= n -> NoDup (h :: q) -> incl (h :: q) l -> map step (h :: q) = q ++ [y] -> exists r, cycle step (h :: r) /\ incl (h :: r) l).
  { induction n as [|n IH]; intros q y L N J E.
    - destruct (Nat.eq_dec y h) as [->|Ny]; [exists q; split; auto; split; auto|]. exfalso.
      assert (N' : NoDup (q ++ [y])). { rewrite <- E. apply NoDup_map_in; auto. }
      assert (K : NoDup (h :: q ++ [y])). { constructor; auto. intros X. apply in_app_or in X as [X|[X|[]]]; auto. inversion N; auto. }
      assert (J' : incl (h :: q ++ [y]) l).
      { intros x [<-|Hx]; auto. rewrite <- E in Hx. apply in_map_iff in Hx as (z & <- & Hz). apply C. apply J. auto. }
      pose proof (NoDup_incl_length K J') as L'. cbn in L, L'. rewrite app_length in L'. cbn in L'. lia.
    - destruct (Nat.eq_dec y h) as [->|Ny]; [exists q; split; auto; split; auto|].
      assert (N' : NoDup (q ++ [y])). { rewrite <- E. apply NoDup_map_in; auto. }
      assert (K : NoDup (h :: q ++ [y])). { constructor; auto. intros X. apply in_app_or in X as [X|[X|[]]]; auto. inversion N; auto. }
      assert (J' : incl (h :: q ++ [y]) l).
      { intros x [<-|Hx]; auto. rewrite <- E in Hx. apply in_map_iff in Hx as (z & <- & Hz). apply C. apply J. auto. }
      apply (IH (q ++ [y]) (step y)); auto.
      + cbn. rewrite app_length. cbn in *. lia.
      + change (h :: q ++ [y]) with ((h :: q) ++ [y]). rewrite map_app, E. reflexivity. }
  apply (G (length l) [] (step h)); auto; [lia|repeat constructor; auto|intros x [<-|[]]; auto].
Qed.
Lemma vertex_step s h : valid s -> In h (s_halfedges s) -> In (s_opp s (s_next s h)) (s_halfedges s).
Proof. intros V H. apply (va_opp s V), (va_next s V), H. Qed.
Lemma degree_cycle s h : valid s -> In h (s_halfedges s) -> exists r, cycle (fun k => s_opp s (s_next s k)) (h :: r) /\ incl (h :: r) (s_halfedges s) /\ degree s h = Ok (length (h :: r)).
Proof.
  intros V H. destruct (orbit_cycle (fun k => s_opp s (s_next s k)) (s_halfedges s) h) as (r & C & J); auto.
  - intros k Hk. apply vertex_step; auto.
  - intros j k Hj Hk E. apply (va_inj s V); auto. assert (Nj := va_next s V j Hj). assert (Nk := va_next s V k Hk).
    destruct (va_opp s V _ Nj) as (_ & Ej & _). destruct (va_opp s V _ Nk) as (_ & Ek & _). congruence.
  - exists r. split; auto. split; auto. unfold degree, loop_from. destruct C as [N E]. rewrite (circulate_cycle _ _ r _ _ E); [reflexivity|inversion N; auto|].
    apply NoDup_incl_length; auto.
Qed.
Lemma degree_spec s h : valid s -> In h (s_halfedges s) -> exists d, degree s h = Ok d /\ degree_at s h d.
Proof. intros V H. destruct (degree_cycle s h V H) as (r & C & _ & E). exists (length (h :: r)). split; auto. exists r. auto. Qed.
Lemma degree_at_fun s h d d' : degree_at s h d -> degree_at s h d' -> d = d'.
Proof. intros (r & C & ->) (r' & C' & ->). now rewrite (cycle_head_fun _ _ _ _ C C'). Qed.
Lemma vertex_cycle_vert s h r : valid s -> incl (h :: r) (s_halfedges s) -> cycle (fun k => s_opp s (s_next s k)) (h :: r) -> forall k, In k (h :: r) -> s_vert s k = s_vert s h.
Proof.
  intros V J [_ E]. assert (G : forall q x, incl (x :: q) (s_halfedges s) -> map (fun k => s_opp s (s_next s k)) (x :: q) = q ++ [h] -> forall k, In k (x :: q) -> s_vert s k = s_vert s x).
  { induction q as [|y q IH]; intros x Jx Ex k [<-|Hk]; auto; [destruct Hk|]. cbn [map app] in Ex. injection Ex as E1 E2.
    rewrite (IH y); auto; [|intros z Hz; apply Jx; right; auto]. rewrite <- E1. apply (va_vert s V). apply Jx. left; auto. }
  intros k Hk. apply (G r h); auto.
Qed.

(** ** The test *)
Lemma facet_normal_ok s f : valid s -> In f (s_facets s) -> exists pts, boundary s f pts /\ facet_normal s f = Ok (newell pts).
Proof.
  intros V Hf. destruct (around_facet_ok s f V Hf) as (r & _ & E & C & _). exists (map (fun h => s_point s (s_vert s h)) (s_rep s f :: r)).
  split; [exists r; auto|]. unfold facet_normal, facet_points. rewrite E. cbn [bind]. f_equal. apply vector_area_newell.
Qed.
Lemma joinable_spec s h : valid s -> In h (s_halfedges s) -> exists b, joinable s h = Ok b /\ (b = true <-> flat_edge s h).
Proof.
  intros V H. unfold joinable. assert (Hg : In (s_opp s h) (s_halfedges s)) by (apply (va_opp s V); auto).
  destruct (s_facet s h) as [f|] eqn:Ef.
  2:{ exists false. split; auto. split; [discriminate|]. intros (? & ? & ? & ? & X & _). congruence. }
  destruct (s_facet s (s_opp s h)) as [g|] eqn:Eg.
  2:{ exists false. split; auto. split; [discriminate|]. intros (? & ? & ? & ? & _ & X & _). congruence. }
  destruct (facet_normal_ok s f V (va_facet s V h f H Ef)) as (pf & Bf & ->). destruct (facet_normal_ok s g V (va_facet s V _ g Hg Eg)) as (pg & Bg & ->).
  cbn [bind]. eexists. split; [reflexivity|]. rewrite p3_eqb_eq. split.
  - intros E. exists f, g, pf, pg. auto.
  - intros (f' & g' & pf' & pg' & F' & G' & Bf' & Bg' & E). rewrite Ef in F'. rewrite Eg in G'. injection F' as <-. injection G' as <-.
    rewrite (boundary_fun s f pf pf'), (boundary_fun s g pg pg'); auto.
Qed.
Lemma find_if_spec {A} (p : A -> outcome bool) (P : A -> Prop) l : (forall a, In a l -> exists b, p a = Ok b /\ (b = true <-> P a)) ->
  (find_if p l = Ok None /\ forall a, In a l -> ~ P a) \/ (exists a, find_if p l = Ok (Some a) /\ In a l /\ P a).
Proof.
  induction l as [|a l IH]; intros H; [left; split; [auto|intros a []]|]. destruct (H a (or_introl eq_refl)) as (b & E & Hb). cbn [find_if]. rewrite E. cbn [bind].
  destruct b.
  - right. exists a. split; auto. split; [left; auto|]. now apply Hb.
  - destruct IH as [[E' N]|(x & E' & Hx & Px)]; [intros x Hx; apply H; right; auto| |].
    + left. split; auto. intros x [<-|Hx]; auto. intros X. apply Hb in X. discriminate.
    + right. exists x. split; auto. split; [right; auto|auto].
Qed.
Lemma prunable_spec s : valid s -> (prunable s = Ok None /\ no_flat_edge s) \/ (exists h, prunable s = Ok (Some h) /\ In h (s_halfedges s) /\ flat_edge s h).
Proof.
  intros V. destruct (find_if_spec (joinable s) (flat_edge s) (s_halfedges s)) as [[E N]|X]; [intros; apply joinable_spec; auto| |]; auto.
Qed.

(** ** One join *)
(** what a join keeps *)
Definition joined (s s' : surface) (h : nat) : Prop :=
  s_vertices s' = s_vertices s /\ s_point s' = s_point s /\ s_vert s' = s_vert s /\ s_opp s' = s_opp s /\
  (forall k, In k (s_halfedges s') <-> In k (s_halfedges s) /\ k <> h /\ k <> s_opp s h) /\
  (forall k, In k (s_halfedges s') -> (s_facet s' k = None <-> s_facet s k = None)) /\
  length (s_halfedges s) = 2 + length (s_halfedges s') /\ length (s_facets s) = 1 + length (s_facets s') /\
  exists f e pf pe pj, s_facet s h = Some f /\ s_facet s (s_opp s h) = Some e /\ f <> e /\ In f (s_facets s) /\ In e (s_facets s) /\ boundary s f pf /\ boundary s e pe /\ boundary s' f pj /\
    newell pj = vadd (newell pf) (newell pe) /\ (forall x, In x (s_facets s') <-> In x (s_facets s) /\ x <> e) /\
    (forall x pts, In x (s_facets s) -> x <> f -> x <> e -> (boundary s' x pts <-> boundary s x pts)).
Lemma newell_rot s f l pts : valid s -> In f (s_facets s) -> boundary s f pts -> cycle (s_next s) l -> (forall k, In k l <-> In k (s_halfedges s) /\ s_facet s k = Some f) ->
  newell (map (at_h s) l) = newell pts.
Proof.
  intros V Hf (r & C & ->) Cl Fl. change (fun h => s_point s (s_vert s h)) with (at_h s). rewrite (newell_cycle s (s_next s) l Cl), (newell_cycle s (s_next s) _ C). apply vsum_perm, Permutation_map.
  destruct (va_cycle s V f Hf) as (r' & _ & C' & F'). pose proof (cycle_head_fun _ _ _ _ C C'). subst r'.
  apply NoDup_Permutation; [apply (cycle_NoDup _ _ Cl)|apply (cycle_NoDup _ _ C)|]. intros k. rewrite Fl, <- F'. reflexivity.
Qed.
Lemma join_spec s h : valid s -> In h (s_halfedges s) -> flat_edge s h ->
  (join_facet s h = UB /\ ((exists d, degree_at s h d /\ d < 3) \/ (exists d, degree_at s (s_opp s h) d /\ d < 3) \/ s_facet s h = s_facet s (s_opp s h))) \/
  (exists s', join_facet s h = Ok s' /\ valid s' /\ joined s s' h /\ (exists d, degree_at s h d /\ 3 <= d) /\ (exists d, degree_at s (s_opp s h) d /\ 3 <= d)).
Proof.
  intros V H (f & e & pf & pe & Ef & Ee & Bf & Be & _). assert (Hg : In (s_opp s h) (s_halfedges s)) by (apply (va_opp s V); auto).
  destruct (degree_spec s h V H) as (dh & Dh & Ah). destruct (degree_spec s _ V Hg) as (dg & Dg & Ag).
  destruct (Nat.eq_dec f e) as [->|Hfe].
  { left. split; [|right; right; congruence]. unfold join_facet. cbv zeta. rewrite Dh, Dg. cbn [bind]. rewrite Ef, Ee. cbn [same_facet].
    rewrite Nat.eqb_refl, orb_true_r. reflexivity. }
  destruct (cycle_through s h f V H Ef) as (A & hp & CA & FA). destruct (cycle_through s _ e V Hg Ee) as (B & gp & CB & FB).
  rewrite (j_join s V h f e Ef Ee Hfe A hp CA FA B gp CB FB). rewrite Dh, Dg. cbn [bind].
  destruct (dh <? 3) eqn:E1; cbn [orb].
  { left. split; auto. left. exists dh. split; auto. now apply Nat.ltb_lt. }
  destruct (dg <? 3) eqn:E2.
  { left. split; auto. right; left. exists dg. split; auto. now apply Nat.ltb_lt. }
  apply Nat.ltb_ge in E1, E2. right. eexists. split; [reflexivity|].
  assert (V' := j_valid s V h H f e Ef Ee Hfe A hp CA FA B gp CB FB). split; [exact V'|].
  split; [|split; [exists dh|exists dg]; auto]. split; [reflexivity|]. split; [reflexivity|]. split; [reflexivity|]. split; [reflexivity|].
  split; [intros k; apply (j_hs' s h)|]. split.
  { intros k Hk. eapply j_border; eassumption. }
  destruct (j_sizes s V h H f e Ee Hfe hp B gp) as [S1 S2]. split; [exact S1|]. split; [exact S2|].
  exists f, e, pf, pe, (map (at_h s) (hp :: B ++ gp :: A)). split; auto. split; auto. split; auto.
  assert (If : In f (s_facets s)) by (apply (va_facet s V h); auto). assert (Ie : In e (s_facets s)) by (apply (va_facet s V (s_opp s h)); auto).
  split; auto. split; auto. split; auto. split; auto.
  split.
  { exists (B ++ gp :: A). cbn [s_rep s_next s_point s_vert]. rewrite upd_same. split; [|reflexivity].
    eapply j_cycle; eassumption. }
  split.
  { rewrite (j_newell s V h H f e Hfe A hp CA FA B gp CB FB).
    rewrite (newell_rot s f _ pf V If Bf CA FA), (newell_rot s e _ pe V Ie Be CB FB). reflexivity. }
  split.
  { intros x. cbn [s_facets]. rewrite filter_In, negb_true_iff, Nat.eqb_neq. reflexivity. }
  intros x pts Hx Hxf Hxe. destruct (va_cycle s V x Hx) as (r & Hr & C & F).
  assert (C' : cycle (upd (upd (s_next s) hp (s_next s (s_opp s h))) gp (s_next s h)) (s_rep s x :: r)).
  { eapply cycle_ext; [|exact C]. intros k Hk. apply F in Hk as [_ Hk]. rewrite !upd_other; auto; intros ->.
    - assert (X : In hp (h :: A ++ [hp])) by (right; apply in_or_app; right; left; auto). apply FA in X as [_ X]. congruence.
    - assert (X : In gp (s_opp s h :: B ++ [gp])) by (right; apply in_or_app; right; left; auto). apply FB in X as [_ X]. congruence. }
  unfold boundary. cbn [s_rep s_next s_point s_vert]. rewrite (upd_other (s_rep s) f hp x Hxf). split; intros (q & Cq & ->).
  - rewrite <- (cycle_head_fun _ _ _ _ C' Cq). exists r. auto.
  - rewrite <- (cycle_head_fun _ _ _ _ C Cq). exists r. auto.
Qed.

(** ** The loop *)
Lemma kept_refl s : kept s s 0.
Proof. repeat (split; auto); auto using incl_refl; tauto. Qed.
Lemma kept_step s s1 s' h n : valid s -> In h (s_halfedges s) -> joined s s1 h -> kept s1 s' n -> kept s s' (S n).
Proof.
  intros V Hh (J1 & J2 & J3 & J4 & J5 & J6 & J7 & J8 & f & e & pf & pe & pj & Jf & Je & _ & _ & _ & _ & _ & _ & _ & Jx & _) (K1 & K2 & K3 & K4 & K5 & K6 & K7 & K8 & K9).
  split; [congruence|]. split; [congruence|]. split; [congruence|]. split; [congruence|]. split; [|split; [|split; [|lia]]].
  - intros k Hk. destruct (K5 k Hk) as [A B]. split; [now apply J5|]. rewrite B. now apply J6.
  - intros k Hk B. apply K6.
    + apply J5. split; auto. split; intros ->.
      * destruct B; congruence.
      * destruct (va_opp s V h Hh) as (_ & E & _). rewrite E in B. destruct B; congruence.
    + destruct (va_opp s V k Hk) as (O1 & O2 & _).
      assert (Ik : In k (s_halfedges s1)).
      { apply J5. split; auto. split; intros ->; [destruct B; congruence|]. destruct (va_opp s V h Hh) as (_ & E & _). rewrite E in B. destruct B; congruence. }
      assert (Io : In (s_opp s k) (s_halfedges s1)).
      { apply J5 in Ik as (_ & N1 & N2). apply J5. split; auto. split; intros X; [apply N2|apply N1]; [rewrite <- X; auto|].
        destruct (va_opp s V h Hh) as (_ & E & _). congruence. }
      rewrite J4. rewrite (J6 k Ik), (J6 _ Io). auto.
  - intros x Hx. apply Jx. apply K7. auto.
Qed.
Lemma prune_total : forall s, valid s -> exists n r, prune_run s n r.
Proof.
  intros s. remember (length (s_halfedges s)) as m. revert s Heqm. induction m as [m IH] using lt_wf_ind. intros s Em V.
  destruct (prunable_spec s V) as [[E _]|(h & E & Hh & F)]; [exists 0, (Ok s); now constructor|].
  destruct (join_spec s h V Hh F) as [[J _]|(s' & J & V' & K & _)].
  - exists 0, UB. econstructor 3; eauto.
  - assert (L : length (s_halfedges s) = 2 + length (s_halfedges s')) by apply K.
    destruct (IH (length (s_halfedges s'))) with (s := s') as (n & r & R); [lia|auto|auto|]. exists (S n), r. econstructor 4; eauto.
Qed.
Lemma prune_fun s n r : prune_run s n r -> forall n' r', prune_run s n' r' -> n' = n /\ r' = r.
Proof.
  induction 1 as [s E|s E|s h E J|s h s' n r E J R IH]; intros n' r' R'; inversion R' as [s0 E0|s0 E0|s0 h0 E0 J0|s0 h0 s0' n0 r0 E0 J0 R0]; subst;
    rewrite E in E0; try discriminate E0; auto; injection E0 as <-; rewrite J in J0; try discriminate J0; auto.
  apply Ok_inj in J0. subst s0'. destruct (IH _ _ R0) as [-> ->]. auto.
Qed.
Lemma prune_ok_spec s n r : prune_run s n r -> forall s', r = Ok s' -> valid s -> valid s' /\ no_flat_edge s' /\ kept s s' n.
Proof.
  induction 1 as [s E|s E|s h E J|s h s1 n r E J R IH]; intros s' Er V; try discriminate.
  - apply Ok_inj in Er. subst s'. split; auto. split; [|apply kept_refl]. destruct (prunable_spec s V) as [[_ N]|(h & E' & _)]; auto. congruence.
  - destruct (prunable_spec s V) as [[E' _]|(h' & E' & Hh & F)]; [congruence|]. assert (h' = h) by congruence. subst h'.
    destruct (join_spec s h V Hh F) as [[J' _]|(s2 & J' & V2 & K & _)]; [congruence|]. assert (s2 = s1) by congruence. subst s2.
    destruct (IH s' Er V2) as (A & B & C). split; auto. split; auto. eapply kept_step; eauto.
Qed.
(** where the loop leaves the defined behaviour *)
Lemma prune_ub_spec s n r : prune_run s n r -> r = UB -> valid s -> exists s1 h, valid s1 /\ kept s s1 n /\ In h (s_halfedges s1) /\ flat_edge s1 h /\
  ((exists d, degree_at s1 h d /\ d < 3) \/ (exists d, degree_at s1 (s_opp s1 h) d /\ d < 3) \/ s_facet s1 h = s_facet s1 (s_opp s1 h)).
Proof.
  induction 1 as [s E|s E|s h E J|s h s1 n r E J R IH]; intros Er V; try discriminate.
  - destruct (prunable_spec s V) as [[E' _]|(h' & E' & _)]; congruence.
  - destruct (prunable_spec s V) as [[E' _]|(h' & E' & Hh & F)]; [congruence|]. assert (h' = h) by congruence. subst h'.
    destruct (join_spec s h V Hh F) as [[_ X]|(s2 & J' & _)]; [|congruence]. exists s, h. split; auto. split; [apply kept_refl|auto].
  - destruct (prunable_spec s V) as [[E' _]|(h' & E' & Hh & F)]; [congruence|]. assert (h' = h) by congruence. subst h'.
    destruct (join_spec s h V Hh F) as [[J' _]|(s2 & J' & V2 & K & _)]; [congruence|]. assert (s2 = s1) by congruence. subst s2.
    destruct (IH Er V2) as (s3 & h3 & A & B & C). exists s3, h3. split; auto. split; auto. eapply kept_step; eauto.
Qed.
Lemma prune_ok_or_ub s n r : prune_run s n r -> r = UB \/ exists s', r = Ok s'.
Proof. induction 1; eauto. Qed.

(** ** Facet numbers *)
Lemma number_from_other l : forall k id x, ~ In x l -> number_from l k id x = id x.
Proof.
  induction l as [|f l IH]; intros k id x H; auto. cbn [number_from]. rewrite IH; [|intros X; apply H; right; auto]. apply upd_other. intros ->. apply H. left; auto.
Qed.
Lemma number_from_nth l : forall k id i f, NoDup l -> nth_error l i = Some f -> number_from l k id f = k + i.
Proof.
  induction l as [|g l IH]; intros k id i f N E; [destruct i; discriminate|]. inversion N as [|? ? Ng N']; subst. cbn [number_from]. destruct i as [|i]; cbn in E.
  - injection E as <-. rewrite number_from_other by auto. rewrite upd_same. lia.
  - rewrite (IH (S k) _ i f N' E). lia.
Qed.

(** ** Vector area *)
Lemma vsum_filter_out (F : nat -> p3) l e : NoDup l -> In e l -> vsum (map F l) = vadd (F e) (vsum (map F (filter (fun x => negb (x =? e)) l))).
Proof.
  intros N He. apply in_split in He as (l1 & l2 & ->). assert (P : Permutation (l1 ++ e :: l2) (e :: l1 ++ l2)) by (symmetry; apply Permutation_middle).
  rewrite (vsum_perm _ _ (Permutation_map F P)). cbn [map]. change (vsum (F e :: ?x)) with (vadd (F e) (vsum x)). f_equal. f_equal. f_equal.
  assert (N' := Permutation_NoDup P N). inversion N' as [|? ? Ne Nl]; subst. rewrite filter_app. cbn [filter]. rewrite Nat.eqb_refl. cbn [negb]. rewrite <- filter_app.
  generalize dependent (l1 ++ l2). clear. intros l _ _ Ne _. symmetry. induction l as [|a l IH]; auto. cbn [filter]. destruct (a =? e) eqn:E; cbn [negb].
  - apply Nat.eqb_eq in E. exfalso; apply Ne; left; auto.
  - f_equal. apply IH. intros X; apply Ne; right; auto.
Qed.
Lemma total_area_fun s v w : total_area s v -> total_area s w -> v = w.
Proof. intros (F & HF & ->) (G & HG & ->). f_equal. apply map_ext_in. intros f Hf. f_equal. eapply boundary_fun; eauto. Qed.
Lemma total_area_exists s : valid s -> exists v, total_area s v.
Proof.
  intros V. assert (X : exists F : nat -> list p3, forall f, In f (s_facets s) -> boundary s f (F f)).
  { exists (fun f => match facet_points s f with Ok p => p | _ => [] end). intros f Hf. destruct (around_facet_ok s f V Hf) as (r & _ & E & C & _).
    unfold facet_points. rewrite E. cbn [bind]. exists r. auto. }
  destruct X as (F & HF). eexists. exists F. split; auto.
Qed.
Lemma filter_perm_In (l l' : list nat) e : NoDup l -> NoDup l' -> (forall x, In x l' <-> In x l /\ x <> e) -> Permutation l' (filter (fun x => negb (x =? e)) l).
Proof.
  intros N N' H. apply NoDup_Permutation; auto using NoDup_filter. intros x. rewrite H, filter_In, negb_true_iff, Nat.eqb_neq. reflexivity.
Qed.
Lemma total_area_join s s' h v : valid s -> valid s' -> joined s s' h -> total_area s v -> total_area s' v.
Proof.
  intros V V' (_ & _ & _ & _ & _ & _ & _ & _ & f & e & pf & pe & pj & Ef & Ee & Nfe & If & Ie & Bf & Be & Bj & En & Hx & Ho) (F & HF & ->).
  exists (fun x => if x =? f then pj else F x). split.
  - intros x X. destruct (x =? f) eqn:E; [apply Nat.eqb_eq in E; subst; auto|]. apply Nat.eqb_neq in E. apply Hx in X as [X1 X2]. apply Ho; auto.
  - set (G := fun x => newell (if x =? f then pj else F x)).
    rewrite (vsum_perm (map G (s_facets s')) _ (Permutation_map G (filter_perm_In (s_facets s) (s_facets s') e (va_fs s V) (va_fs s' V') Hx))).
    assert (Ne : NoDup (filter (fun x => negb (x =? e)) (s_facets s))) by (apply NoDup_filter, (va_fs s V)).
    assert (Fe : In f (filter (fun x => negb (x =? e)) (s_facets s))) by (apply filter_In; split; auto; apply negb_true_iff, Nat.eqb_neq; auto).
    rewrite (vsum_filter_out (fun f => newell (F f)) (s_facets s) e (va_fs s V) Ie).
    rewrite (vsum_filter_out (fun f => newell (F f)) _ f Ne Fe), (vsum_filter_out G _ f Ne Fe).
    assert (X : map G (filter (fun x => negb (x =? f)) (filter (fun x => negb (x =? e)) (s_facets s))) = map (fun f => newell (F f)) (filter (fun x => negb (x =? f)) (filter (fun x => negb (x =? e)) (s_facets s)))).
    { apply map_ext_in. intros x Hi. apply filter_In in Hi as [_ Hi]. unfold G. destruct (x =? f); [discriminate|reflexivity]. }
    rewrite X. unfold G at 1. rewrite Nat.eqb_refl, En.
    rewrite (boundary_fun s f pf (F f)), (boundary_fun s e pe (F e)) by auto. apply p3_eq; cbn; ring.
Qed.
Lemma prune_area s n r : prune_run s n r -> forall s' v, r = Ok s' -> valid s -> total_area s v -> total_area s' v.
Proof.
  induction 1 as [s E|s E|s h E J|s h s1 n r E J R IH]; intros s' v Er V T; try discriminate.
  - apply Ok_inj in Er. now subst s'.
  - destruct (prunable_spec s V) as [[E' _]|(h' & E' & Hh & F)]; [congruence|]. assert (h' = h) by congruence. subst h'.
    destruct (join_spec s h V Hh F) as [[J' _]|(s2 & J' & V2 & K & _)]; [congruence|]. assert (s2 = s1) by congruence. subst s2.
    apply (IH s' v Er V2). apply (total_area_join s s1 h); auto.
Qed.

(** ** A flat surface with an interior vertex *)
Lemma parallel_scale d a : d <> v0 -> parallel d a -> exists k, a = vscale k d.
Proof.
  unfold parallel, v0. destruct d as [dx dy dz], a as [ax ay az]. intros N Ha.
  assert (A1 := f_equal x3 Ha). assert (A2 := f_equal y3 Ha). assert (A3 := f_equal z3 Ha). clear Ha. cbn [cross x3 y3 z3] in A1, A2, A3.
  assert (D : forall u v w k : Qc, k <> 0%Qc -> (u * k = v * w)%Qc -> u = (v / k * w)%Qc).
  { intros u v w k Hk E. transitivity ((u * k) / k)%Qc; [field; auto|]. rewrite E. field. auto. }
  assert (S : forall u v : Qc, (u - v = 0 -> u = v)%Qc) by (intros u v E; rewrite <- (Qcplus_0_l v), <- E; ring).
  apply S in A1, A2, A3.
  destruct (Qc_eq_dec dx 0) as [X|X]; [destruct (Qc_eq_dec dy 0) as [Y|Y]; [destruct (Qc_eq_dec dz 0) as [Z|Z]; [subst; congruence|]|]|].
  - exists (az / dz)%Qc. apply p3_eq; cbn [vscale x3 y3 z3]; apply D; auto; ring.
  - exists (ay / dy)%Qc. apply p3_eq; cbn [vscale x3 y3 z3]; apply D; auto; ring.
  - exists (ax / dx)%Qc. apply p3_eq; cbn [vscale x3 y3 z3]; apply D; auto; ring.
Qed.
Lemma parallel_cross d a b : d <> v0 -> parallel d a -> parallel d b -> cross a b = v0.
Proof. intros N Ha Hb. destruct (parallel_scale d a N Ha) as (k & ->). destruct (parallel_scale d b N Hb) as (m & ->). apply p3_eq; cbn; ring. Qed.
Lemma flat_join s s' h d : valid s -> joined s s' h -> flat s d -> flat s' d.
Proof.
  intros V (_ & _ & _ & _ & _ & _ & _ & _ & f & e & pf & pe & pj & Ef & Ee & Nfe & If & Ie & Bf & Be & Bj & En & Hx & Ho) F x pts X B.
  apply Hx in X as [X Xe]. destruct (Nat.eq_dec x f) as [->|Xf].
  - rewrite (boundary_fun s' f pts pj), En by auto. assert (A1 := F f pf If Bf). assert (A2 := F e pe Ie Be). unfold parallel in *.
    transitivity (vadd (cross (newell pf) d) (cross (newell pe) d)); [apply p3_eq; cbn; ring|]. rewrite A1, A2. apply p3_eq; cbn; ring.
  - apply (F x pts X). apply Ho; auto.
Qed.
Lemma interior_join s s' h v : valid s -> In h (s_halfedges s) -> joined s s' h -> (exists d, degree_at s h d /\ 3 <= d) -> (exists d, degree_at s (s_opp s h) d /\ 3 <= d) ->
  interior_vertex s v -> interior_vertex s' v.
Proof.
  intros V Hh (_ & _ & J3 & J4 & J5 & J6 & _) D1 D2 ((k & Hk & Ek) & Q).
  assert (Hg : In (s_opp s h) (s_halfedges s)) by (apply (va_opp s V); auto).
  assert (R : forall x y, In x (s_halfedges s) -> s_vert s x = v -> (exists d, degree_at s x d /\ 3 <= d) -> exists z, In z (s_halfedges s) /\ s_vert s z = v /\ z <> x /\ z <> y).
  { intros x y Hx Ex (d & D & L). destruct (degree_cycle s x V Hx) as (r & C & J & _). assert (A : degree_at s x (length (x :: r))) by (exists r; auto).
    rewrite (degree_at_fun s x d _ D A) in L. assert (W := vertex_cycle_vert s x r V J C). destruct C as [N _].
    destruct r as [|a [|b r]]; cbn in L; try lia.
    assert (Na : a <> x) by (intros ->; inversion N as [|? ? Z _]; apply Z; left; auto).
    assert (Nb : b <> x) by (intros ->; inversion N as [|? ? Z _]; apply Z; right; left; auto).
    assert (Nab : a <> b) by (intros ->; inversion N as [|? ? _ Z]; inversion Z as [|? ? Z' _]; apply Z'; left; auto).
    destruct (Nat.eq_dec a y) as [->|Ny].
    - exists b. split; [apply J; right; right; left; auto|]. split; [rewrite W; auto; right; right; left; auto|auto].
    - exists a. split; [apply J; right; left; auto|]. split; [rewrite W; auto; right; left; auto|auto]. }
  split.
  - rewrite J3. destruct (Nat.eq_dec k h) as [->|N1]; [|destruct (Nat.eq_dec k (s_opp s h)) as [->|N2]].
    + destruct (R h (s_opp s h) Hh Ek D1) as (z & Z1 & Z2 & Z3 & Z4). exists z. split; auto. apply J5; auto.
    + destruct (R (s_opp s h) h Hg Ek D2) as (z & Z1 & Z2 & Z3 & Z4). exists z. split; auto. apply J5; auto.
    + exists k. split; auto. apply J5; auto.
  - rewrite J3, J4. intros x Hx Ex. assert (Hx' := Hx). apply J5 in Hx' as (X1 & X2 & X3). destruct (Q x X1 Ex) as [A B]. split.
    + rewrite (J6 x Hx). auto.
    + destruct (va_opp s V x X1) as (O1 & O2 & _). destruct (va_opp s V h Hh) as (_ & O3 & _).
      assert (Ho : In (s_opp s x) (s_halfedges s')) by (apply J5; split; auto; split; intros Y; [apply X3|apply X2]; congruence).
      rewrite (J6 _ Ho). auto.
Qed.
Lemma flat_inner_edge s d h : valid s -> d <> v0 -> flat s d -> In h (s_halfedges s) -> s_facet s h <> None -> s_facet s (s_opp s h) <> None -> flat_edge s h.
Proof.
  intros V N F Hh A B. destruct (s_facet s h) as [f|] eqn:Ef; [|congruence]. destruct (s_facet s (s_opp s h)) as [e|] eqn:Ee; [|congruence].
  assert (Hg : In (s_opp s h) (s_halfedges s)) by (apply (va_opp s V); auto).
  assert (If := va_facet s V h f Hh Ef). assert (Ie := va_facet s V _ e Hg Ee).
  destruct (facet_normal_ok s f V If) as (pf & Bf & _). destruct (facet_normal_ok s e V Ie) as (pe & Be & _).
  exists f, e, pf, pe. split; auto. split; auto. split; auto. split; auto. apply (parallel_cross d); auto; [apply (F f)|apply (F e)]; auto.
Qed.
Lemma flat_interior_ub s n r : prune_run s n r -> forall d v, valid s -> d <> v0 -> flat s d -> interior_vertex s v -> r = UB.
Proof.
  induction 1 as [s E|s E|s h E J|s h s1 n r E J R IH]; intros d v V N F I; auto.
  - exfalso. destruct (prunable_spec s V) as [[_ NF]|(h & E' & _)]; [|congruence]. destruct I as ((k & Hk & Ek) & Q). destruct (Q k Hk Ek) as [A B].
    apply (NF k Hk). eapply flat_inner_edge; eauto.
  - destruct (prunable_spec s V) as [[E' _]|(h' & E' & Hh & Fl)]; [congruence|]. assert (h' = h) by congruence. subst h'.
    destruct (join_spec s h V Hh Fl) as [[J' _]|(s2 & J' & V2 & K & D1 & D2)]; [congruence|]. assert (s2 = s1) by congruence. subst s2.
    apply (IH d v); auto; [apply (flat_join s s1 h)|apply (interior_join s s1 h)]; auto.
Qed.
