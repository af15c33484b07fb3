(** * Proofs about surfaces: adjacency and pruning (C40, C42). *)
From Verif Require Import Base Geom Decimal Shadow Handlers Surface Spec_surface.
Open Scope nat_scope.

(** ** Cycles *)
Lemma circulate_cycle next a : forall q x fuel, map next (x :: q) = q ++ [a] -> ~ In a q -> length (x :: q) <= fuel ->
  circulate next fuel a x = Some (x :: q).
Proof.
  induction q as [|y q IH]; intros x fuel E Na L; (destruct fuel as [|fuel]; [cbn in L; lia|]); cbn [circulate]; cbn [map app] in E.
  - injection E as E. rewrite E, Nat.eqb_refl. reflexivity.
  - injection E as E1 E2. rewrite E1. destruct (y =? a) eqn:Ey; [apply Nat.eqb_eq in Ey; exfalso; apply Na; left; auto|].
    rewrite IH; auto. intros H; apply Na; right; auto. cbn in *; lia.
Qed.
Lemma circulate_sound next a : forall fuel x l, circulate next fuel a x = Some l -> exists q, l = x :: q /\ map next l = q ++ [a].
Proof.
  induction fuel as [|fuel IH]; intros x l H; cbn in H; [discriminate|]. destruct (next x =? a) eqn:E.
  - injection H as <-. exists []. apply Nat.eqb_eq in E. cbn. now rewrite E.
  - destruct (circulate next fuel a (next x)) as [l'|] eqn:E'; [|discriminate]. injection H as <-. apply IH in E' as (q & -> & E').
    exists (next x :: q). split; auto. cbn [map app]. f_equal. exact E'.
Qed.
Lemma cycle_rot next a r : cycle next (a :: r) -> cycle next (r ++ [a]).
Proof.
  intros [N E]. assert (P : Permutation (a :: r) (r ++ [a])) by apply Permutation_cons_append.
  destruct r as [|b r]; [split; auto|]. cbn [app]. split; [now apply (Permutation_NoDup P)|]. cbn [map app] in E. injection E as E1 E2.
  change (b :: r ++ [a]) with ((b :: r) ++ [a]). rewrite map_app. cbn [map]. rewrite E1. rewrite <- E2. reflexivity.
Qed.
Lemma cycle_at next h : forall l, cycle next l -> In h l -> exists r, cycle next (h :: r) /\ Permutation l (h :: r).
Proof.
  intros l H Hi. apply in_split in Hi as (a & b & ->). revert b H. induction a as [|x a IH] using rev_ind; intros b H.
  - exists b. auto.
  - assert (G : forall p q, cycle next (p ++ q) -> p ++ q <> [] -> cycle next (q ++ p)).
    { clear. induction p as [|x p IH]; intros q H N; [rewrite app_nil_r; auto|]. cbn [app] in H. apply cycle_rot in H. rewrite <- app_assoc in H.
      change (x :: p) with ([x] ++ p). rewrite app_assoc. apply IH; auto. destruct p; cbn; [destruct q; discriminate|discriminate]. }
    apply G in H; [|destruct a; discriminate]. cbn [app] in H. exists (b ++ a ++ [x]). split; auto.
    rewrite (Permutation_app_comm (a ++ [x])). reflexivity.
Qed.
Lemma cycle_incl next l : cycle next l -> forall h, In h l -> In (next h) l.
Proof.
  destruct l as [|a r]; [intros []|]. intros [N E] h H. assert (G : In (next h) (map next (a :: r))) by (apply in_map; auto).
  rewrite E in G. apply in_app_or in G as [G|[<-|[]]]; [right; auto|left; auto].
Qed.
Lemma cycle_ext next next' l : (forall h, In h l -> next' h = next h) -> cycle next l -> cycle next' l.
Proof. destruct l as [|a r]; auto. intros H [N E]. split; auto. rewrite <- E. apply map_ext_in. auto. Qed.
Lemma cycle_head_fun next a r r' : cycle next (a :: r) -> cycle next (a :: r') -> r = r'.
Proof.
  intros [N E] [N' E']. assert (G : forall q q' x, map next (x :: q) = q ++ [a] -> map next (x :: q') = q' ++ [a] -> ~ In a q -> ~ In a q' -> q = q').
  { induction q as [|y q IH]; intros q' x H H' Na Na'; destruct q' as [|z q']; auto; cbn [map app] in H, H'; injection H as H1; injection H' as H1'.
    - exfalso. apply Na'. left. congruence.
    - exfalso. apply Na. left. congruence.
    - assert (Y : y = z) by congruence. clear H1 H1'. subst z. f_equal. apply (IH q' y); auto; intros X; [apply Na|apply Na']; right; auto. }
  apply (G r r' a); auto; [inversion N; auto|inversion N'; auto].
Qed.

(** ** Walking around a facet *)
Lemma around_facet_cycle s f r : valid s -> In f (s_facets s) -> cycle (s_next s) (s_rep s f :: r) -> around_facet s f = Ok (s_rep s f :: r).
Proof.
  intros V Hf C. destruct (va_cycle s V f Hf) as (r' & _ & C' & F). pose proof (cycle_head_fun _ _ _ _ C C'). subst r'.
  unfold around_facet, loop_from. destruct C as [N E]. rewrite (circulate_cycle _ _ r _ _ E); auto.
  - inversion N; auto.
  - apply NoDup_incl_length; auto. intros h Hh. apply F in Hh as [H _]. auto.
Qed.
Lemma around_facet_ok s f : valid s -> In f (s_facets s) -> exists r, r <> [] /\ around_facet s f = Ok (s_rep s f :: r) /\ cycle (s_next s) (s_rep s f :: r) /\
  forall h, In h (s_rep s f :: r) <-> In h (s_halfedges s) /\ s_facet s h = Some f.
Proof.
  intros V Hf. destruct (va_cycle s V f Hf) as (r & Hr & C & F). exists r. split; auto. split; auto. now apply around_facet_cycle.
Qed.
Lemma boundary_fun s f p q : boundary s f p -> boundary s f q -> p = q.
Proof. intros (r & C & ->) (r' & C' & ->). now rewrite (cycle_head_fun _ _ _ _ C C'). Qed.
Lemma boundary_points s f pts : valid s -> In f (s_facets s) -> (boundary s f pts <-> facet_points s f = Ok pts).
Proof.
  intros V Hf. destruct (around_facet_ok s f V Hf) as (r & _ & E & C & _). unfold facet_points. rewrite E. cbn [bind]. split.
  - intros B. f_equal. apply (boundary_fun s f); auto. exists r; auto.
  - intros H. apply Ok_inj in H. subst. exists r; auto.
Qed.

(** ** C40: the adjacency matrix *)
Lemma set_true_spec m : forall i m', set_true m i = Ok m' -> i < length m /\ length m' = length m /\ forall j, nth_error m' j = if j =? i then Some true else nth_error m j.
Proof.
  induction m as [|b m IH]; intros i m' H; [destruct i; discriminate|]. destruct i as [|i]; cbn [set_true] in H.
  - apply Ok_inj in H. subst. cbn. split; [lia|]. split; auto. intros [|j]; reflexivity.
  - apply bind_Ok in H as (m1 & E & H). apply Ok_inj in H. subst m'. apply IH in E as (A & B & C). cbn. split; [lia|]. split; [lia|].
    intros [|j]; [reflexivity|]. cbn. apply C.
Qed.
Lemma set_true_ok m : forall i, i < length m -> exists m', set_true m i = Ok m'.
Proof.
  induction m as [|b m IH]; intros i H; [cbn in H; lia|]. destruct i as [|i]; [eexists; reflexivity|].
  destruct (IH i) as [m' E]; [cbn in H; lia|]. cbn. rewrite E. eexists; reflexivity.
Qed.
(** setting a list of positions *)
Definition set_all (l : list nat) (m : list bool) : outcome (list bool) := ofold set_true l m.
Lemma set_all_ok l : forall m, (forall i, In i l -> i < length m) -> exists m', set_all l m = Ok m' /\ length m' = length m /\
  forall j, nth_error m' j = Some true <-> (In j l /\ j < length m) \/ nth_error m j = Some true.
Proof.
  induction l as [|i l IH]; intros m H; [exists m; split; [reflexivity|]; split; auto; intros j; intuition; destruct H0|].
  destruct (set_true_ok m i) as [m1 E1]; [apply H; left; auto|]. pose proof (set_true_spec _ _ _ E1) as (A & B & C).
  destruct (IH m1) as (m' & E & L & G); [intros k Hk; rewrite B; apply H; right; auto|]. exists m'. cbn [set_all ofold]. fold (set_all l).
  rewrite E1. cbn [bind]. split; [exact E|]. split; [congruence|]. intros j. rewrite G, C, B. destruct (j =? i) eqn:Ej.
  - apply Nat.eqb_eq in Ej. subst j. split; intros _; [left; split; auto; left; auto|right; reflexivity].
  - apply Nat.eqb_neq in Ej. cbn [In]. intuition congruence.
Qed.
Lemma ofold_app {A B} (f : A -> B -> outcome A) l1 l2 : forall a, ofold f (l1 ++ l2) a = bind (ofold f l1 a) (ofold f l2).
Proof. induction l1 as [|b l1 IH]; intros a; cbn; auto. destruct (f a b); cbn; auto. Qed.
Lemma ofold_map {A B C} (f : A -> C -> outcome A) (g : B -> C) l : forall a, ofold (fun x b => f x (g b)) l a = ofold f (map g l) a.
Proof. induction l as [|b l IH]; intros a; cbn; auto. destruct (f a (g b)); cbn; auto. Qed.
Lemma ofold_ext {A B} (f g : A -> B -> outcome A) l : (forall a b, In b l -> f a b = g a b) -> forall a, ofold f l a = ofold g l a.
Proof. induction l as [|b l IH]; intros H a; cbn; auto. rewrite H by (left; auto). destruct (g a b); cbn; auto. apply IH. intros; apply H; right; auto. Qed.
Lemma position_Some f l : forall i, position f l = Some i -> nth_error l i = Some f.
Proof.
  induction l as [|a l IH]; intros i H; cbn in H; [discriminate|]. destruct (a =? f) eqn:E.
  - apply Nat.eqb_eq in E. injection H as <-. cbn. congruence.
  - destruct (position f l) as [k|]; [|discriminate]. injection H as <-. cbn. auto.
Qed.
Lemma position_nth f l i : NoDup l -> nth_error l i = Some f -> position f l = Some i.
Proof.
  revert i. induction l as [|a l IH]; intros i N H; [destruct i; discriminate|]. inversion N; subst. destruct i as [|i]; cbn in *.
  - injection H as ->. now rewrite Nat.eqb_refl.
  - destruct (a =? f) eqn:E; [apply Nat.eqb_eq in E; subst; exfalso; apply H2; eapply nth_error_In; eauto|]. rewrite (IH i); auto.
Qed.
Lemma position_In f l : In f l -> exists i, position f l = Some i /\ i < length l.
Proof.
  induction l as [|a l IH]; intros H; [destruct H|]. cbn. destruct (a =? f) eqn:E; [exists 0; split; auto; lia|].
  destruct H as [H|H]; [apply Nat.eqb_neq in E; congruence|]. destruct (IH H) as (i & Ei & L). rewrite Ei. exists (S i). split; auto. lia.
Qed.
Definition adj_list (s : surface) (f : nat) : list nat :=
  match around_facet s f with Ok l => flat_map (fun h => match s_facet s (s_opp s h) with Some g => if is_border s h then [] else [g] | None => [] end) l | _ => [] end.
Lemma adj_list_spec s f : valid s -> In f (s_facets s) -> facet_adjacents s f = Ok (adj_list s f) /\ forall g, In g (adj_list s f) <-> share_edge s f g.
Proof.
  intros V Hf. destruct (around_facet_ok s f V Hf) as (r & _ & E & C & F). unfold facet_adjacents, adj_list. rewrite E. cbn [bind]. split; auto.
  intros g. rewrite in_flat_map. unfold share_edge. split.
  - intros (h & Hh & G). exists h. apply F in Hh as [H1 H2]. split; auto. split; auto. destruct (s_facet s (s_opp s h)); [|destruct G].
    destruct (is_border s h); [destruct G|]. destruct G as [<-|[]]; auto.
  - intros (h & H1 & H2 & H3). exists h. split; [apply F; auto|]. rewrite H3. unfold is_border. rewrite H2. left; auto.
Qed.
Definition cells (s : surface) (line : nat) : list nat :=
  match nth_error (s_facets s) line with
  | Some f => flat_map (fun g => match position g (s_facets s) with Some d => [line * length (s_facets s) + d] | None => [] end) (adj_list s f)
  | None => []
  end.
Lemma adjacency_line_cells s m line : valid s -> line < length (s_facets s) -> adjacency_line s m line = set_all (cells s line) m.
Proof.
  intros V L. unfold adjacency_line, cells, vat. destruct (nth_error (s_facets s) line) as [f|] eqn:E; [|apply nth_error_None in E; lia]. cbn [bind].
  assert (Hf : In f (s_facets s)) by (eapply nth_error_In; eauto). destruct (adj_list_spec s f V Hf) as [-> _]. cbn [bind].
  revert m. induction (adj_list s f) as [|g l IH]; intros m; [reflexivity|]. cbn [ofold flat_map].
  unfold set_all. rewrite ofold_app. destruct (position g (s_facets s)) as [d|]; cbn [ofold bind].
  - destruct (set_true m (line * length (s_facets s) + d)); cbn [bind]; auto.
  - apply IH.
Qed.
Lemma set_all_concat s ls : forall m, (forall i, In i ls -> i < length (s_facets s)) -> valid s ->
  ofold (adjacency_line s) ls m = set_all (flat_map (cells s) ls) m.
Proof.
  induction ls as [|i ls IH]; intros m H V; [reflexivity|]. cbn [ofold flat_map]. rewrite adjacency_line_cells by (auto; apply H; left; auto).
  unfold set_all. rewrite ofold_app. fold (set_all (cells s i) m). destruct (set_all (cells s i) m); cbn [bind]; auto.
  apply IH; auto. intros; apply H; right; auto.
Qed.
Lemma cell_unique n i j i' j' : j < n -> j' < n -> i * n + j = i' * n + j' -> i = i' /\ j = j'.
Proof.
  intros H1 H2 E. assert (i = i').
  { destruct (Nat.lt_trichotomy i i') as [L|[L|L]]; auto; exfalso; nia. }
  subst; split; auto; lia.
Qed.
Lemma nth_repeat_false n j : nth_error (repeat false n) j <> Some true.
Proof. intros H. apply nth_error_In, repeat_spec in H. discriminate. Qed.
Lemma C40_proof : forall s, valid s -> exists m, facet_adjacency_matrix s = Ok m /\ length m = length (s_facets s) * length (s_facets s) /\
  forall i j f g, nth_error (s_facets s) i = Some f -> nth_error (s_facets s) j = Some g ->
    (nth_error m (i * length (s_facets s) + j) = Some true <-> i = j \/ share_edge s f g).
Proof.
  intros s V. set (n := length (s_facets s)). unfold facet_adjacency_matrix. fold n. cbv zeta.
  rewrite (ofold_map set_true (fun d => d * n + d)). fold (set_all (map (fun d => d * n + d) (seq 0 n)) (repeat false (n * n))).
  destruct (set_all_ok (map (fun d => d * n + d) (seq 0 n)) (repeat false (n * n))) as (m1 & E1 & L1 & G1).
  { intros i Hi. apply in_map_iff in Hi as (d & <- & Hd). apply in_seq in Hd. rewrite repeat_length. nia. }
  rewrite E1. cbn [bind]. rewrite repeat_length in L1. rewrite set_all_concat; auto; [|intros i Hi; apply in_seq in Hi; fold n; lia].
  assert (CI : forall k, In k (flat_map (cells s) (seq 0 n)) <-> exists i f d g, nth_error (s_facets s) i = Some f /\ nth_error (s_facets s) d = Some g /\ share_edge s f g /\ k = i * n + d).
  { intros k. rewrite in_flat_map. split.
    - intros (i & Hi & Hk). unfold cells in Hk. destruct (nth_error (s_facets s) i) as [f|] eqn:Ef; [|destruct Hk].
      apply in_flat_map in Hk as (g & Hg & Hk). destruct (position g (s_facets s)) as [d|] eqn:Ed; [|destruct Hk]. destruct Hk as [<-|[]].
      apply position_Some in Ed. exists i, f, d, g. split; auto. split; auto. split; auto. apply adj_list_spec in Hg; auto. eapply nth_error_In; eauto.
    - intros (i & f & d & g & Hi & Hd & Hs & ->). exists i. split; [apply in_seq; assert (i < n) by (apply nth_error_Some; congruence); lia|].
      unfold cells. rewrite Hi. apply in_flat_map. exists g. split; [apply adj_list_spec; auto; eapply nth_error_In; eauto|].
      rewrite (position_nth g _ d); auto; [left; reflexivity|apply va_fs; auto]. }
  destruct (set_all_ok (flat_map (cells s) (seq 0 n)) m1) as (m & E & L & G).
  { intros k Hk. apply CI in Hk as (i & f & d & g & Hi & Hd & _ & ->). rewrite L1.
    assert (i < n) by (apply nth_error_Some; congruence). assert (d < n) by (apply nth_error_Some; congruence). nia. }
  exists m. split; [exact E|]. split; [congruence|]. intros i j f g Hi Hj.
  assert (Li : i < n) by (apply nth_error_Some; congruence). assert (Lj : j < n) by (apply nth_error_Some; congruence).
  rewrite G, G1, L1, repeat_length, CI, in_map_iff. split.
  - intros [[(i' & f' & j' & g' & Hi' & Hj' & Hs & K) _]|[[(d & K & Hd) _]|K]].
    + assert (j' < n) by (apply nth_error_Some; congruence). apply cell_unique in K as [<- <-]; auto. right. congruence.
    + apply in_seq in Hd. apply cell_unique in K as [<- <-]; auto; lia.
    + exfalso. now apply nth_repeat_false in K.
  - intros [->|Hs].
    + right. left. split; [|nia]. exists j. split; auto. apply in_seq. lia.
    + left. split; [|nia]. exists i, f, j, g. auto.
Qed.
Lemma share_edge_sym s f g : valid s -> share_edge s f g -> share_edge s g f.
Proof.
  intros V (h & H1 & H2 & H3). destruct (va_opp s V h H1) as (A & B & _). exists (s_opp s h). split; auto. split; auto. now rewrite B.
Qed.

(** ** Joining facets *)
Lemma upd_same {A} (f : nat -> A) k a : upd f k a k = a.
Proof. unfold upd. now rewrite Nat.eqb_refl. Qed.
Lemma upd_other {A} (f : nat -> A) k a x : x <> k -> upd f k a x = f x.
Proof. unfold upd. intros H. apply Nat.eqb_neq in H. now rewrite H. Qed.
Lemma NoDup_split_head {A} (a : A) l : NoDup (a :: l) -> ~ In a l /\ NoDup l.
Proof. inversion 1; auto. Qed.
Lemma find_unique (p : nat -> bool) l a : In a l -> p a = true -> (forall b, In b l -> p b = true -> b = a) -> find p l = Some a.
Proof.
  intros H1 H2 H3. destruct (find p l) as [b|] eqn:E.
  - apply find_some in E as [E1 E2]. f_equal. auto.
  - pose proof (find_none _ _ E a H1). congruence.
Qed.
Lemma walk_path next b : forall l x fuel, map next (x :: l) = l ++ [b] -> x <> b -> ~ In b l -> length l < fuel -> walk next fuel x b = Some (l ++ [b]).
Proof.
  induction l as [|y l IH]; intros x fuel E Hx Nb L; cbn [map app] in E; (destruct fuel as [|fuel]; [cbn in L; lia|]); cbn [walk];
    (apply Nat.eqb_neq in Hx; rewrite Hx).
  - injection E as ->. cbn [option_map]. destruct fuel; cbn [walk]; rewrite Nat.eqb_refl; reflexivity.
  - injection E as E1 E2. rewrite E1. rewrite IH; auto; [intros ->; apply Nb; left; auto|intros H; apply Nb; right; auto|cbn in L; lia].
Qed.
Lemma exists_last' {A} (l : list A) : l <> [] -> exists l' a, l = l' ++ [a].
Proof. intros H. destruct (exists_last H) as (l' & a & E). eauto. Qed.
Lemma app_last_inj {A} (l1 l2 : list A) a b : l1 ++ [a] = l2 ++ [b] -> l1 = l2 /\ a = b.
Proof. apply app_inj_tail. Qed.
Lemma filter_negb_length {A} (eqd : forall x y : A, {x = y} + {x <> y}) (p : A -> bool) l a : NoDup l -> In a l -> (forall x, p x = true <-> x = a) ->
  length (filter (fun x => negb (p x)) l) = length l - 1.
Proof.
  intros N H P. induction N as [|b l Nb N IH]; [destruct H|]. cbn [filter length]. destruct (p b) eqn:E; cbn [negb].
  - apply P in E. subst b. assert (filter (fun x => negb (p x)) l = l) as ->; [|lia].
    clear IH H N. induction l as [|c l IH]; auto. cbn. destruct (p c) eqn:Ec; cbn.
    + apply P in Ec. subst. exfalso; apply Nb; left; auto.
    + f_equal. apply IH. intros X; apply Nb; right; auto.
  - destruct H as [->|H]; [assert (p a = true) by (apply P; reflexivity); congruence|]. cbn [length]. rewrite IH by auto.
    destruct l; [destruct H|cbn; lia].
Qed.

Lemma cycle_NoDup next l : cycle next l -> NoDup l.
Proof. destruct l; [intros []|]. intros [N _]; auto. Qed.
(** the cycle of the facet of [h], starting at [h] *)
Lemma cycle_through s h f : valid s -> In h (s_halfedges s) -> s_facet s h = Some f ->
  exists A hp, cycle (s_next s) (h :: A ++ [hp]) /\ forall k, In k (h :: A ++ [hp]) <-> In k (s_halfedges s) /\ s_facet s k = Some f.
Proof.
  intros V Hh Hf. destruct (va_cycle s V f (va_facet s V h f Hh Hf)) as (r & Hr & C & F).
  assert (Hi : In h (s_rep s f :: r)) by (apply F; auto). destruct (cycle_at _ _ _ C Hi) as (r' & C' & P).
  assert (r' <> []) as Hr'. { intros ->. apply Permutation_length in P. cbn in P. destruct r; [congruence|cbn in P; lia]. }
  destruct (exists_last' r' Hr') as (A & hp & ->). exists A, hp. split; auto. intros k. rewrite <- F. split; intros H.
  - apply (Permutation_in _ (Permutation_sym P)); auto.
  - apply (Permutation_in _ P); auto.
Qed.
Lemma cycle_shape next h A hp : cycle next (h :: A ++ [hp]) -> next hp = h /\ next h :: map next A = A ++ [hp].
Proof.
  intros [_ E]. cbn [map] in E. rewrite map_app in E. cbn [map] in E.
  change (next h :: map next A ++ [next hp]) with ((next h :: map next A) ++ [next hp]) in E. apply app_inj_tail in E as [E1 E2]. auto.
Qed.

(** the Newell vector of a facet as a sum over its halfedges, in any order *)
Definition at_h (s : surface) (k : nat) : p3 := s_point s (s_vert s k).
Definition side_term (s : surface) (next : nat -> nat) (k : nat) : p3 := cross (at_h s k) (at_h s (next k)).
Lemma vsum_perm a b : Permutation a b -> vsum a = vsum b.
Proof.
  induction 1; auto; try congruence.
  - change (vadd x (vsum l) = vadd x (vsum l')). congruence.
  - change (vadd y (vadd x (vsum l)) = vadd x (vadd y (vsum l))). apply p3_eq; cbn; ring.
Qed.
Lemma newell_cycle s next l : cycle next l -> newell (map (at_h s) l) = vsum (map (side_term s next) l).
Proof.
  destruct l as [|a r]; [intros []|]. intros [_ E]. unfold newell. cbn [map cyclic_pairs]. f_equal.
  change [at_h s a] with (map (at_h s) [a]). rewrite <- map_app, <- E.
  change (at_h s a :: map (at_h s) r) with (map (at_h s) (a :: r)). change (side_term s next a :: map (side_term s next) r) with (map (side_term s next) (a :: r)). clear E.
  generalize (a :: r) as l. clear. induction l as [|k l IH]; auto. cbn [map combine]. f_equal. exact IH.
Qed.

Section JOIN.
  Context (s : surface) (V : valid s) (h : nat) (Hh : In h (s_halfedges s)) (f e : nat)
          (Hf : s_facet s h = Some f) (He : s_facet s (s_opp s h) = Some e) (Hfe : f <> e).
  Let g := s_opp s h.
  Context (A : list nat) (hp : nat) (CA : cycle (s_next s) (h :: A ++ [hp]))
          (FA : forall k, In k (h :: A ++ [hp]) <-> In k (s_halfedges s) /\ s_facet s k = Some f).
  Context (B : list nat) (gp : nat) (CB : cycle (s_next s) (g :: B ++ [gp]))
          (FB : forall k, In k (g :: B ++ [gp]) <-> In k (s_halfedges s) /\ s_facet s k = Some e).
  Let next' := upd (upd (s_next s) hp (s_next s g)) gp (s_next s h).
  Let hs' := filter (fun k => negb ((k =? h) || (k =? g))) (s_halfedges s).
  Let facet' := fun k => if existsb (Nat.eqb k) (B ++ [gp]) then s_facet s h else s_facet s k.
  Let s' := mkSurf hs' (s_opp s) next' (s_vert s) facet' (filter (fun f => negb (f =? e)) (s_facets s)) (upd (s_rep s) f hp) (s_id s) (s_vertices s) (s_point s).

  Lemma j_g : In g (s_halfedges s) /\ s_opp s g = h /\ g <> h.
  Proof. destruct (va_opp s V h Hh) as (X & Y & Z). auto. Qed.
  Lemma j_inA k : In k (A ++ [hp]) -> In k (s_halfedges s) /\ s_facet s k = Some f /\ k <> h.
  Proof.
    intros H. assert (G : In k (h :: A ++ [hp])) by (right; auto). apply FA in G as [G1 G2]. split; auto. split; auto. intros ->.
    apply cycle_NoDup, NoDup_split_head in CA as [X _]. auto.
  Qed.
  Lemma j_inB k : In k (B ++ [gp]) -> In k (s_halfedges s) /\ s_facet s k = Some e /\ k <> g.
  Proof.
    intros H. assert (G : In k (g :: B ++ [gp])) by (right; auto). apply FB in G as [G1 G2]. split; auto. split; auto. intros ->.
    apply cycle_NoDup, NoDup_split_head in CB as [X _]. auto.
  Qed.
  Lemma j_hp : In hp (s_halfedges s) /\ s_facet s hp = Some f /\ hp <> h.
  Proof. apply j_inA. apply in_or_app; right; left; auto. Qed.
  Lemma j_gp : In gp (s_halfedges s) /\ s_facet s gp = Some e /\ gp <> g.
  Proof. apply j_inB. apply in_or_app; right; left; auto. Qed.
  Lemma j_next_hp : s_next s hp = h. Proof. apply (cycle_shape _ _ _ _ CA). Qed.
  Lemma j_next_gp : s_next s gp = g. Proof. apply (cycle_shape _ _ _ _ CB). Qed.
  Lemma j_hp_gp : hp <> gp.
  Proof. intros E. destruct j_hp as (_ & X & _), j_gp as (_ & Y & _). rewrite E in X. congruence. Qed.
  Lemma j_next'_hp : next' hp = s_next s g.
  Proof. unfold next'. rewrite upd_other by apply j_hp_gp. apply upd_same. Qed.
  Lemma j_next'_gp : next' gp = s_next s h.
  Proof. apply upd_same. Qed.
  Lemma j_next'_other k : k <> hp -> k <> gp -> next' k = s_next s k.
  Proof. intros H1 H2. unfold next'. rewrite !upd_other; auto. Qed.
  Lemma j_hs' k : In k hs' <-> In k (s_halfedges s) /\ k <> h /\ k <> g.
  Proof. unfold hs'. rewrite filter_In, negb_true_iff, orb_false_iff, !Nat.eqb_neq. tauto. Qed.
  Lemma j_prev_h : find_prev s h = Ok hp.
  Proof.
    unfold find_prev. rewrite (find_unique _ _ hp); auto; [apply j_hp|apply Nat.eqb_eq, j_next_hp|].
    intros b Hb E. apply Nat.eqb_eq in E. apply (va_inj s V); auto; [apply j_hp|]. now rewrite j_next_hp.
  Qed.
  Lemma j_prev_g : find_prev s g = Ok gp.
  Proof.
    unfold find_prev. rewrite (find_unique _ _ gp); auto; [apply j_gp|apply Nat.eqb_eq, j_next_gp|].
    intros b Hb E. apply Nat.eqb_eq in E. apply (va_inj s V); auto; [apply j_gp|]. now rewrite j_next_gp.
  Qed.
  Lemma j_in_gp : In gp (B ++ [gp]). Proof. apply in_or_app; right; left; auto. Qed.
  Lemma j_map_B : map next' B = map (s_next s) B.
  Proof.
    apply map_ext_in. intros k Hk. apply j_next'_other.
    - intros ->. destruct (j_inB hp) as (_ & X & _); [apply in_or_app; auto|]. destruct j_hp as (_ & Y & _). congruence.
    - intros ->. apply cycle_NoDup, NoDup_split_head in CB as [_ X]. apply NoDup_remove_2 in X. apply X. rewrite app_nil_r. auto.
  Qed.
  Lemma j_map_A : map next' A = map (s_next s) A.
  Proof.
    apply map_ext_in. intros k Hk. apply j_next'_other.
    - intros ->. apply cycle_NoDup, NoDup_split_head in CA as [_ X]. apply NoDup_remove_2 in X. apply X. rewrite app_nil_r. auto.
    - intros ->. destruct (j_inA gp) as (_ & X & _); [apply in_or_app; auto|]. destruct j_gp as (_ & Y & _). congruence.
  Qed.
  Lemma j_walk : walk next' (length (s_halfedges s)) hp gp = Some (B ++ [gp]).
  Proof.
    apply walk_path.
    - cbn [map]. rewrite j_next'_hp, j_map_B. apply (cycle_shape _ _ _ _ CB).
    - apply j_hp_gp.
    - apply cycle_NoDup, NoDup_split_head in CB as [_ X]. apply NoDup_remove_2 in X. rewrite app_nil_r in X. auto.
    - assert (L : length (g :: B ++ [gp]) <= length (s_halfedges s)).
      { apply NoDup_incl_length; [apply (cycle_NoDup _ _ CB)|]. intros k Hk. apply FB in Hk as [Hk _]. auto. }
      cbn in L. rewrite app_length in L. cbn in L. lia.
  Qed.
  Lemma j_join : join_facet s h = (let* dh := degree s h in let* dg := degree s g in if (dh <? 3) || (dg <? 3) then UB else Ok s').
  Proof.
    unfold join_facet. fold g. cbv zeta. destruct (degree s h) as [dh| |]; cbn [bind]; auto. destruct (degree s g) as [dg| |]; cbn [bind]; auto.
    assert (same_facet (s_facet s h) (s_facet s g) = false) as -> by (rewrite Hf; fold g in He; rewrite He; cbn; now apply Nat.eqb_neq).
    rewrite orb_false_r. destruct ((dh <? 3) || (dg <? 3)); auto. rewrite j_prev_h. cbn [bind]. rewrite j_prev_g. cbn [bind].
    fold next'. rewrite j_walk. fold g in He. rewrite He. unfold s', facet'. rewrite Hf. reflexivity.
  Qed.
  Lemma j_facet'_B k : In k (B ++ [gp]) -> facet' k = Some f.
  Proof. intros H. unfold facet'. replace (existsb (Nat.eqb k) (B ++ [gp])) with true; auto. symmetry. apply existsb_exists. exists k. split; auto. apply Nat.eqb_refl. Qed.
  Lemma j_facet'_other k : ~ In k (B ++ [gp]) -> facet' k = s_facet s k.
  Proof.
    intros H. unfold facet'. destruct (existsb (Nat.eqb k) (B ++ [gp])) eqn:E; auto. apply existsb_exists in E as (x & Hx & E). apply Nat.eqb_eq in E. subst. contradiction.
  Qed.
  Lemma j_cycle : cycle next' (hp :: B ++ gp :: A).
  Proof.
    split.
    - assert (P : Permutation (hp :: B ++ gp :: A) ((A ++ [hp]) ++ (B ++ [gp]))).
      { change (hp :: B ++ gp :: A) with ([hp] ++ B ++ [gp] ++ A). rewrite !app_assoc. rewrite (Permutation_app_comm _ A). rewrite !app_assoc. reflexivity. }
      apply (Permutation_NoDup (Permutation_sym P)). pose proof (cycle_NoDup _ _ CA) as NA. pose proof (cycle_NoDup _ _ CB) as NB.
      apply NoDup_split_head in NA as [_ NA]. apply NoDup_split_head in NB as [_ NB].
      assert (D : forall l1 l2 : list nat, NoDup l1 -> NoDup l2 -> (forall x, In x l1 -> ~ In x l2) -> NoDup (l1 ++ l2)).
      { clear. induction l1 as [|a l1 IH]; intros l2 N1 N2 H; auto. inversion N1; subst. cbn. constructor.
        - intros X. apply in_app_or in X as [X|X]; auto. apply (H a); auto. left; auto.
        - apply IH; auto. intros x Hx. apply H. right; auto. }
      apply D; auto. intros x X Y. apply j_inA in X as (_ & X & _). apply j_inB in Y as (_ & Y & _). congruence.
    - cbn [map]. rewrite map_app. cbn [map]. rewrite j_next'_hp, j_next'_gp, j_map_B, j_map_A.
      destruct (cycle_shape _ _ _ _ CA) as [_ EA]. destruct (cycle_shape _ _ _ _ CB) as [_ EB].
      change (s_next s g :: map (s_next s) B ++ s_next s h :: map (s_next s) A) with ((s_next s g :: map (s_next s) B) ++ (s_next s h :: map (s_next s) A)).
      rewrite EA, EB. rewrite <- !app_assoc. reflexivity.
  Qed.
  Lemma j_members k : In k (hp :: B ++ gp :: A) <-> In k hs' /\ facet' k = Some f.
  Proof.
    assert (X : In k (hp :: B ++ gp :: A) <-> In k (A ++ [hp]) \/ In k (B ++ [gp])).
    { cbn [In]. rewrite !in_app_iff. cbn [In]. tauto. }
    rewrite X, j_hs'. split.
    - intros [H|H].
      + destruct (j_inA k H) as (H1 & H2 & H3). split; [split; auto; split; auto; intros ->; fold g in He; congruence|].
        rewrite j_facet'_other; auto. intros Y. apply j_inB in Y as (_ & Y & _). congruence.
      + destruct (j_inB k H) as (H1 & H2 & H3). split; [split; auto; split; auto; intros ->; congruence|]. now apply j_facet'_B.
    - intros ((H1 & H2 & H3) & H4). destruct (in_dec Nat.eq_dec k (B ++ [gp])) as [I|I]; auto. left.
      rewrite j_facet'_other in H4 by auto. assert (Y : In k (h :: A ++ [hp])) by (apply FA; auto). destruct Y as [Y|Y]; [congruence|auto].
  Qed.
  Lemma j_valid : valid s'.
  Proof.
    destruct j_g as (Hg & Hog & Hgh). destruct j_hp as (P1 & P2 & P3'). destruct j_gp as (Q1 & Q2 & Q3).
    assert (Ng_h : s_next s g <> h). { intros X. assert (Y : In (s_next s g) (g :: B ++ [gp])) by (apply (cycle_incl _ _ CB); left; auto). apply FB in Y as [_ Y]. congruence. }
    assert (Nh_g : s_next s h <> g). { intros X. assert (Y : In (s_next s h) (h :: A ++ [hp])) by (apply (cycle_incl _ _ CA); left; auto). apply FA in Y as [_ Y]. fold g in He. congruence. }
    assert (Nh_h : s_next s h <> h). { intros X. assert (Y : h = hp) by (apply (va_inj s V); auto; rewrite j_next_hp; auto). congruence. }
    assert (Ng_g : s_next s g <> g). { intros X. assert (Y : g = gp) by (apply (va_inj s V); auto; rewrite j_next_gp; auto). congruence. }
    constructor; cbn [s_halfedges s_opp s_next s_vert s_facet s_facets s_rep s_vertices s'].
    - unfold hs'. apply NoDup_filter. apply (va_hs s V).
    - intros k Hk. apply j_hs' in Hk as (H1 & H2 & H3). destruct (va_opp s V k H1) as (X & Y & Z). split; auto. apply j_hs'. split; auto.
      split; intros W; [apply H3; unfold g; congruence|apply H2; congruence].
    - intros k Hk. apply j_hs' in Hk as (H1 & H2 & H3). apply j_hs'. destruct (Nat.eq_dec k gp) as [->|N1]; [|destruct (Nat.eq_dec k hp) as [->|N2]].
      + rewrite j_next'_gp. split; [apply (va_next s V); auto|auto].
      + rewrite j_next'_hp. split; [apply (va_next s V); auto|auto].
      + rewrite j_next'_other by auto. split; [apply (va_next s V); auto|]. split; intros W.
        * apply N2. apply (va_inj s V); auto. now rewrite j_next_hp.
        * apply N1. apply (va_inj s V); auto. now rewrite j_next_gp.
    - intros k l Hk Hl E. apply j_hs' in Hk as (H1 & H2 & H3). apply j_hs' in Hl as (K1 & K2 & K3).
      assert (I := va_inj s V).
      destruct (Nat.eq_dec k gp) as [->|N1]; [|destruct (Nat.eq_dec k hp) as [->|N2]];
        (destruct (Nat.eq_dec l gp) as [->|M1]; [|destruct (Nat.eq_dec l hp) as [->|M2]]); auto;
        rewrite ?j_next'_gp, ?j_next'_hp, ?j_next'_other in E by auto.
      + exfalso. apply Hgh. symmetry. apply I; auto.
      + exfalso. apply K2. symmetry. apply I; auto.
      + exfalso. apply Hgh. apply I; auto.
      + exfalso. apply K3. symmetry. apply I; auto.
      + exfalso. apply H2. apply I; auto.
      + exfalso. apply H3. apply I; auto.
      + apply I; auto.
    - intros k Hk. apply j_hs' in Hk as (H1 & H2 & H3). split; [|apply (va_vert s V); auto].
      destruct (Nat.eq_dec k gp) as [->|N1]; [|destruct (Nat.eq_dec k hp) as [->|N2]].
      + rewrite j_next'_gp. destruct (va_vert s V h Hh) as [-> _]. destruct (va_vert s V gp Q1) as [<- _]. rewrite j_next_gp. now rewrite Hog.
      + rewrite j_next'_hp. destruct (va_vert s V g Hg) as [-> _]. destruct (va_vert s V hp P1) as [<- _]. now rewrite j_next_hp.
      + rewrite j_next'_other by auto. apply (va_vert s V); auto.
    - apply NoDup_filter. apply (va_fs s V).
    - intros k x Hk E. apply j_hs' in Hk as (H1 & H2 & H3). apply filter_In.
      destruct (in_dec Nat.eq_dec k (B ++ [gp])) as [I|I].
      + rewrite j_facet'_B in E by auto. injection E as <-. split; [apply (va_facet s V h); auto|]. apply negb_true_iff, Nat.eqb_neq. auto.
      + rewrite j_facet'_other in E by auto. split; [apply (va_facet s V k); auto|]. apply negb_true_iff, Nat.eqb_neq. intros ->.
        assert (Y : In k (g :: B ++ [gp])) by (apply FB; auto). destruct Y as [Y|Y]; [congruence|contradiction].
    - intros x Hx. apply filter_In in Hx as [Hx Hxe]. apply negb_true_iff, Nat.eqb_neq in Hxe. destruct (Nat.eq_dec x f) as [->|Hxf].
      + rewrite upd_same. exists (B ++ gp :: A). split; [destruct B; discriminate|]. split; [apply j_cycle|apply j_members].
      + rewrite upd_other by auto. destruct (va_cycle s V x Hx) as (r & Hr & C & F). exists r. split; auto. split.
        * eapply cycle_ext; [|exact C]. intros k Hk. apply F in Hk as [_ Hk]. apply j_next'_other; intros ->; congruence.
        * intros k. rewrite F, j_hs'. split.
          -- intros [H1 H2]. assert (~ In k (B ++ [gp])) by (intros Y; apply j_inB in Y as (_ & Y & _); congruence).
             split; [split; auto; split; intros ->; fold g in He; congruence|]. now rewrite j_facet'_other.
          -- intros [(H1 & _) H2]. split; auto. destruct (in_dec Nat.eq_dec k (B ++ [gp])) as [I|I].
             ++ rewrite j_facet'_B in H2 by auto. congruence.
             ++ now rewrite j_facet'_other in H2.
  Qed.
  Lemma j_sizes : length (s_halfedges s) = S (S (length (s_halfedges s'))) /\ length (s_facets s) = S (length (s_facets s')).
  Proof.
    destruct j_g as (Hg & Hog & Hgh). cbn [s_halfedges s_facets s']. split.
    - unfold hs'. assert (E : filter (fun k => negb ((k =? h) || (k =? g))) (s_halfedges s) = filter (fun k => negb (k =? g)) (filter (fun k => negb (k =? h)) (s_halfedges s))).
      { clear. induction (s_halfedges s) as [|k l IH]; auto. cbn [filter]. destruct (k =? h); cbn [orb negb filter]; [auto|]. destruct (k =? g); cbn [negb]; [auto|f_equal; auto]. }
      rewrite E. assert (N := va_hs s V).
      rewrite (filter_negb_length Nat.eq_dec (fun k => k =? g) _ g); [|apply NoDup_filter; auto|apply filter_In; split; auto; apply negb_true_iff, Nat.eqb_neq; auto|intros; apply Nat.eqb_eq].
      rewrite (filter_negb_length Nat.eq_dec (fun k => k =? h) _ h); [|auto|auto|intros; apply Nat.eqb_eq].
      assert (L : length [h; g] <= length (s_halfedges s)). { apply NoDup_incl_length; [repeat constructor; cbn; intuition|]. intros k [<-|[<-|[]]]; auto. }
      cbn in L. lia.
    - assert (He' : In e (s_facets s)) by (apply (va_facet s V g); auto).
      rewrite (filter_negb_length Nat.eq_dec (fun k => k =? e) _ e); [|apply (va_fs s V)|auto|intros; apply Nat.eqb_eq].
      destruct (s_facets s); [destruct He'|cbn; lia].
  Qed.
  Lemma j_border k : In k hs' -> (facet' k = None <-> s_facet s k = None).
  Proof.
    intros H. destruct (in_dec Nat.eq_dec k (B ++ [gp])) as [I|I]; [|now rewrite j_facet'_other].
    rewrite j_facet'_B by auto. apply j_inB in I as (_ & -> & _). split; discriminate.
  Qed.
  Lemma vsum_cons x l : vsum (x :: l) = vadd x (vsum l). Proof. reflexivity. Qed.
  Lemma j_newell : newell (map (at_h s) (hp :: B ++ gp :: A)) = vadd (newell (map (at_h s) (h :: A ++ [hp]))) (newell (map (at_h s) (g :: B ++ [gp]))).
  Proof.
    destruct j_g as (Hg & Hog & Hgh). destruct j_hp as (P1 & _). destruct j_gp as (Q1 & _).
    rewrite (newell_cycle s next' _ j_cycle), (newell_cycle s (s_next s) _ CA), (newell_cycle s (s_next s) _ CB).
    assert (EA : map (side_term s next') A = map (side_term s (s_next s)) A).
    { assert (M := j_map_A). clear - M. revert M. generalize next' as n. intros n. induction A as [|k l IH]; auto. cbn [map]. intros M. injection M as M1 M2.
      f_equal; auto. unfold side_term. now rewrite M1. }
    assert (EB : map (side_term s next') B = map (side_term s (s_next s)) B).
    { assert (M := j_map_B). clear - M. revert M. generalize next' as n. intros n. induction B as [|k l IH]; auto. cbn [map]. intros M. injection M as M1 M2.
      f_equal; auto. unfold side_term. now rewrite M1. }
    cbn [map]. rewrite !map_app. cbn [map]. rewrite !vsum_cons, !vsum_app, !vsum_cons. rewrite EA, EB.
    assert (Hv : at_h s hp = at_h s g). { unfold at_h. destruct (va_vert s V hp P1) as [E _]. rewrite j_next_hp in E. fold g in E. now rewrite E. }
    assert (Gv : at_h s gp = at_h s h). { unfold at_h. destruct (va_vert s V gp Q1) as [E _]. rewrite j_next_gp, Hog in E. now rewrite E. }
    assert (T1 : side_term s next' hp = side_term s (s_next s) g) by (unfold side_term; rewrite j_next'_hp, Hv; reflexivity).
    assert (T2 : side_term s next' gp = side_term s (s_next s) h) by (unfold side_term; rewrite j_next'_gp, Gv; reflexivity).
    assert (T3 : side_term s (s_next s) hp = vneg (side_term s (s_next s) gp)).
    { unfold side_term. rewrite j_next_hp, j_next_gp, Hv, Gv. apply p3_eq; cbn; ring. }
    rewrite T1, T2, T3. apply p3_eq; cbn; ring.
  Qed.
End JOIN.
