(** * Properties C40-C47: facet adjacency, pruning, lengths, transformations, scenes. *)
From Verif Require Import Base Dbl Geom Decimal Shadow Streams Handlers Surface Spec_surface
  Surface_proofs Facet_geom Prune_proofs Unode_proofs.
Open Scope nat_scope.

(** ** Concrete surfaces for the examples *)
(** a surface from a list of points and of facets (vertex numbers, in order).  Facet sides
    are numbered in order; side i without opposite side gets the border halfedge K + i. *)
Section BUILD.
  Context (pts : list p3) (fs : list (list nat)).
  Definition sides : list (nat * nat * nat * nat) := (* source, target, facet, number of the next side *)
    (fix go (fs : list (list nat)) (f k : nat) :=
      match fs with
      | [] => []
      | c :: fs => map (fun i => (nth i c 0, nth ((i + 1) mod length c) c 0, f, k + (i + 1) mod length c)) (seq 0 (length c)) ++ go fs (S f) (k + length c)
      end) fs 0 0.
  Definition K := length sides.
  Definition side i := nth i sides (0, 0, 0, 0).
  Definition src i := fst (fst (fst (side i))).
  Definition tgt i := snd (fst (fst (side i))).
  Definition partner i := find (fun j => (src j =? tgt i) && (tgt j =? src i)) (seq 0 K).
  Definition lonely := filter (fun i => match partner i with None => true | _ => false end) (seq 0 K).
  Definition build_surface : surface := mkSurf (seq 0 K ++ map (Nat.add K) lonely)
    (fun h => if h <? K then match partner h with Some j => j | None => K + h end else h - K)
    (fun h => if h <? K then snd (side h) else match find (fun j => tgt j =? src (h - K)) lonely with Some j => K + j | None => 0 end)
    (fun h => if h <? K then tgt h else src (h - K))
    (fun h => if h <? K then Some (snd (fst (side h))) else None)
    (seq 0 (length fs)) (fun f => match find (fun h => snd (fst (side h)) =? f) (seq 0 K) with Some h => h | None => 0 end) (fun _ => 0)
    (seq 0 (length pts)) (fun v => nth v pts v0).
End BUILD.
Definition mem (k : nat) (l : list nat) : bool := existsb (Nat.eqb k) l.
Lemma mem_In k l : mem k l = true <-> In k l.
Proof.
  unfold mem. rewrite existsb_exists. split; [intros (x & H & E); apply Nat.eqb_eq in E; subst; auto|intros H; exists k; split; auto; apply Nat.eqb_refl].
Qed.
Fixpoint nodup_b (l : list nat) : bool := match l with [] => true | a :: l => negb (mem a l) && nodup_b l end.
Lemma nodup_b_NoDup l : nodup_b l = true -> NoDup l.
Proof.
  induction l as [|a l IH]; intros H; [constructor|]. cbn in H. apply andb_true_iff in H as [H1 H2]. constructor; auto. intros X. apply mem_In in X. rewrite X in H1. discriminate.
Qed.
Definition facet_is s h f : bool := match s_facet s h with Some g => g =? f | None => false end.
Lemma facet_is_spec s h f : facet_is s h f = true <-> s_facet s h = Some f.
Proof. unfold facet_is. destruct (s_facet s h); [rewrite Nat.eqb_eq; split; congruence|split; discriminate]. Qed.
Definition check (s : surface) : bool :=
  let hs := s_halfedges s in
  nodup_b hs && nodup_b (s_facets s) &&
  forallb (fun h => mem (s_opp s h) hs && (s_opp s (s_opp s h) =? h) && negb (s_opp s h =? h) && mem (s_next s h) hs &&
     (s_vert s (s_opp s (s_next s h)) =? s_vert s h) && mem (s_vert s h) (s_vertices s) &&
     match s_facet s h with Some f => mem f (s_facets s) | None => true end &&
     forallb (fun k => negb (s_next s h =? s_next s k) || (h =? k)) hs) hs &&
  forallb (fun f => match around_facet s f with
     | Ok (a :: b :: r) => (a =? s_rep s f) && nodup_b (a :: b :: r) && list_eqb Nat.eqb (map (s_next s) (a :: b :: r)) (b :: r ++ [a]) &&
        forallb (fun h => mem h hs && facet_is s h f) (a :: b :: r) && forallb (fun h => negb (facet_is s h f) || mem h (a :: b :: r)) hs
     | _ => false end) (s_facets s).
Lemma check_valid s : check s = true -> valid s.
Proof.
  unfold check. cbv zeta. rewrite !andb_true_iff, !forallb_forall. intros (((C1 & C2) & C3) & C4).
  assert (P : forall h, In h (s_halfedges s) -> In (s_opp s h) (s_halfedges s) /\ s_opp s (s_opp s h) = h /\ s_opp s h <> h /\ In (s_next s h) (s_halfedges s) /\
     s_vert s (s_opp s (s_next s h)) = s_vert s h /\ In (s_vert s h) (s_vertices s) /\ (forall f, s_facet s h = Some f -> In f (s_facets s)) /\
     forall k, In k (s_halfedges s) -> s_next s h = s_next s k -> h = k).
  { intros h Hh. apply C3 in Hh. rewrite !andb_true_iff, !mem_In, !Nat.eqb_eq, negb_true_iff, Nat.eqb_neq, forallb_forall in Hh.
    destruct Hh as (((((((A & B) & C) & D) & E) & F) & G) & I). repeat (split; auto).
    - intros f Ef. rewrite Ef in G. now apply mem_In.
    - intros k Hk Ek. specialize (I k Hk). rewrite Ek, Nat.eqb_refl in I. cbn in I. now apply Nat.eqb_eq. }
  constructor.
  - now apply nodup_b_NoDup.
  - intros h Hh. apply P in Hh. tauto.
  - intros h Hh. apply P in Hh. tauto.
  - intros h k Hh Hk. apply P in Hh as (_ & _ & _ & _ & _ & _ & _ & Hh). auto.
  - intros h Hh. apply P in Hh. tauto.
  - now apply nodup_b_NoDup.
  - intros h f Hh E. apply P in Hh as (_ & _ & _ & _ & _ & _ & Hh & _). auto.
  - intros f Hf. apply C4 in Hf. destruct (around_facet s f) as [[|a [|b r]]| |] eqn:E; try discriminate.
    rewrite !andb_true_iff, Nat.eqb_eq, !forallb_forall in Hf. destruct Hf as ((((A & B) & C) & D) & F). subst a. exists (b :: r). split; [discriminate|].
    split; [split; [now apply nodup_b_NoDup|]|].
    + apply (list_eqb_spec Nat.eqb Nat.eqb_eq) in C. exact C.
    + intros h. split.
      * intros Hh. specialize (D h Hh). apply andb_true_iff in D as [D1 D2]. split; [now apply mem_In|now apply facet_is_spec].
      * intros [Hh Hf]. specialize (F h Hh). apply facet_is_spec in Hf. rewrite Hf in F. cbn [negb orb] in F. now apply mem_In in F.
Qed.
Definition pt (x y z : Z) : p3 := P3 (qz x) (qz y) (qz z).
(** a tetrahedron *)
Definition tetra : surface := build_surface [pt 0 0 0; pt 1 0 0; pt 0 1 0; pt 0 0 1] [[0; 2; 1]; [0; 1; 3]; [1; 2; 3]; [2; 0; 3]].
Lemma tetra_valid : valid tetra. Proof. apply check_valid. vm_compute. reflexivity. Qed.
(** a square cut along a diagonal *)
Definition square2 : surface := build_surface [pt 0 0 0; pt 1 0 0; pt 1 1 0; pt 0 1 0] [[0; 1; 2]; [2; 3; 0]].
Lemma square2_valid : valid square2. Proof. apply check_valid. vm_compute. reflexivity. Qed.
(** the same square, the points of the diagonal duplicated: two separate triangles *)
Definition split_square : surface := build_surface [pt 0 0 0; pt 1 0 0; pt 1 1 0; pt 1 1 0; pt 0 1 0; pt 0 0 0] [[0; 1; 2]; [3; 4; 5]].
Lemma split_square_valid : valid split_square. Proof. apply check_valid. vm_compute. reflexivity. Qed.
(** a square cut into four triangles around its centre *)
Definition square4 : surface := build_surface [pt 0 0 0; pt 2 0 0; pt 2 2 0; pt 0 2 0; pt 1 1 0] [[0; 1; 4]; [1; 2; 4]; [2; 3; 4]; [3; 0; 4]].
Lemma square4_valid : valid square4. Proof. apply check_valid. vm_compute. reflexivity. Qed.

(** C40: the adjacency matrix *)
Theorem C40_adjacency : forall s, valid s -> exists m, facet_adjacency_matrix s = Ok m /\ length m = length (s_facets s) * length (s_facets s) /\
  forall i j f g, nth_error (s_facets s) i = Some f -> nth_error (s_facets s) j = Some g ->
    (nth_error m (i * length (s_facets s) + j) = Some true <-> i = j \/ share_edge s f g).
Proof. exact C40_proof. Qed.
Print Assumptions C40_adjacency.
Theorem C40_symmetric : forall s f g, valid s -> share_edge s f g -> share_edge s g f.
Proof. exact share_edge_sym. Qed.
Print Assumptions C40_symmetric.
Example C40_example : facet_adjacency_matrix tetra = Ok (repeat true 16) /\
  facet_adjacency_matrix square4 = Ok [true; true; false; true; true; true; true; false; false; true; true; true; true; false; true; true] /\
  facet_adjacency_matrix split_square = Ok [true; false; false; true].
Proof. vm_compute. auto. Qed.

(** C41: its text *)
Theorem C41_text : forall m n, length m = n * n -> exists rows, length rows = n /\ Forall (fun r => length r = n) rows /\ concat rows = m /\
  adjacency_print m = Ok (concat (map (fun r => spaced r ++ [nl_char]) rows)).
Proof. exact C41_text_proof. Qed.
Print Assumptions C41_text.
Theorem C41_not_square : forall m, (forall n, length m <> n * n) -> adjacency_print m = Throw LogicError.
Proof. exact C41_not_square_proof. Qed.
Print Assumptions C41_not_square.
Theorem C41_readable : forall m t, adjacency_print m = Ok t -> bits_of t = m.
Proof. exact C41_back_proof. Qed.
Print Assumptions C41_readable.
Example C41_example : adjacency_print [true; false; false; true] = Ok ["1"; " "; "0"; "010"; "0"; " "; "1"; "010"]%char /\
  adjacency_print [true; false; false] = Throw LogicError.
Proof. vm_compute. auto. Qed.

(** C42: pruning *)
Theorem C42_terminates : forall s, valid s -> exists n r, prune_run s n r /\ 2 * n <= length (s_halfedges s) /\ (r = UB \/ exists s', r = Ok s') /\
  forall n' r', prune_run s n' r' -> n' = n /\ r' = r.
Proof.
  intros s V. destruct (prune_total s V) as (n & r & R). exists n, r. split; auto.
  assert (O := prune_ok_or_ub s n r R). split; [|split; [auto|intros; eapply prune_fun; eauto]].
  destruct O as [->|(s' & ->)].
  - destruct (prune_ub_spec s n UB R eq_refl V) as (s1 & h & _ & (_ & _ & _ & _ & _ & _ & _ & L & _) & _). lia.
  - destruct (prune_ok_spec s n (Ok s') R s' eq_refl V) as (_ & _ & (_ & _ & _ & _ & _ & _ & _ & L & _)). lia.
Qed.
Print Assumptions C42_terminates.
Theorem C42_loop_result : forall s n s', valid s -> prune_run s n (Ok s') -> valid s' /\ no_flat_edge s' /\ kept s s' n /\ forall v, total_area s v -> total_area s' v.
Proof.
  intros s n s' V R. destruct (prune_ok_spec s n (Ok s') R s' eq_refl V) as (A & B & C). repeat (split; auto). intros v. eapply prune_area; eauto.
Qed.
Print Assumptions C42_loop_result.
(** when the loop leaves defined behaviour: an edge to remove ends in a vertex of degree less than 3, or has the same facet on both sides *)
Theorem C42_undefined : forall s n, valid s -> prune_run s n UB -> exists s1 h, valid s1 /\ kept s s1 n /\ In h (s_halfedges s1) /\ flat_edge s1 h /\
  ((exists d, degree_at s1 h d /\ d < 3) \/ (exists d, degree_at s1 (s_opp s1 h) d /\ d < 3) \/ s_facet s1 h = s_facet s1 (s_opp s1 h)).
Proof. intros s n V R. eapply prune_ub_spec; eauto. Qed.
Print Assumptions C42_undefined.
(** and it always does on a flat surface with an interior vertex *)
Theorem C42_flat_interior_refuted : forall s d v, valid s -> d <> v0 -> flat s d -> interior_vertex s v -> forall n r, prune_run s n r -> r = UB.
Proof. intros s d v V N F I n r R. eapply flat_interior_ub; eauto. Qed.
Print Assumptions C42_flat_interior_refuted.
(** facet numbers at the end *)
Theorem C42_ids : forall stitch s s', prune_surface stitch s (Ok s') -> NoDup (s_facets s') ->
  forall i f, nth_error (s_facets s') i = Some f -> s_id s' f = i.
Proof.
  intros stitch s s' H N i f E. inversion H as [n s1 R E'|]; subst. cbn [set_face_ids s_id s_facets] in *. now rewrite (number_from_nth _ 0 _ i f).
Qed.
Print Assumptions C42_ids.
(** nothing is left to prune when there is no border to stitch *)
Theorem C42_closed : forall stitch s s', (forall t, valid t -> (forall h, In h (s_halfedges t) -> s_facet t h <> None) -> stitch t = t) ->
  valid s -> (forall h, In h (s_halfedges s) -> s_facet s h <> None) -> prune_surface stitch s (Ok s') -> no_flat_edge s'.
Proof.
  intros stitch s s' St V C H. inversion H as [n s1 R E|]; subst. destruct (C42_loop_result s n s1 V R) as (V1 & N1 & K & _).
  rewrite St; auto. destruct K as (_ & _ & _ & _ & K & _). intros h Hh. destruct (K h Hh) as [A B]. rewrite B. auto.
Qed.
Print Assumptions C42_closed.
(** borders are stitched after the loop: two parallel facets along a duplicated border are left with a flat edge *)
Theorem C42_stitch_refuted : forall stitch s s1 n g h f e pf pe, valid s -> prune_run s n (Ok s1) -> stitched s1 (stitch s1) ->
  free_side s1 g -> free_side s1 h -> facing s1 g h -> (forall k, free_side s1 k -> facing s1 g k -> k = h) -> (forall k, free_side s1 k -> facing s1 k h -> k = g) ->
  s_facet s1 g = Some f -> s_facet s1 h = Some e -> boundary s1 f pf -> boundary s1 e pe -> cross (newell pf) (newell pe) = v0 ->
  exists s', prune_surface stitch s (Ok s') /\ In g (s_halfedges s') /\ flat_edge s' g.
Proof.
  intros stitch s s1 n g h f e pf pe V R (S1 & S2 & S3 & S4) Fg Fh Fa U1 U2 Eg Eh Bf Be C.
  destruct (C42_loop_result s n s1 V R) as (V1 & _).
  exists (set_face_ids (stitch s1)). split; [econstructor; eauto|]. destruct Fg as (G1 & G2 & G3), Fh as (H1 & H2 & H3).
  destruct (S3 g G1 G2) as [A1 A2]. destruct (S3 h H1 H2) as [B1 B2]. split; [exact A1|].
  exists f, e, pf, pe. cbn [set_face_ids s_facet s_opp]. rewrite (S4 g h) by (auto; repeat split; auto). split; [congruence|]. split; [congruence|].
  assert (If := va_facet s1 V1 g f G1 Eg). assert (Ie := va_facet s1 V1 h e H1 Eh). split; [exact (S2 f pf If Bf)|]. split; [exact (S2 e pe Ie Be)|auto].
Qed.
Print Assumptions C42_stitch_refuted.
(** the loop as a function, for the example *)
Fixpoint run_fuel (fuel n : nat) (s : surface) : option (nat * outcome surface) :=
  match fuel with
  | O => None
  | S fuel => match prunable s with
    | Ok None => Some (n, Ok s)
    | Ok (Some h) => match join_facet s h with Ok s' => run_fuel fuel (S n) s' | UB => Some (n, UB) | Throw _ => None end
    | UB => Some (n, UB)
    | Throw _ => None end
  end.
Lemma run_fuel_sound : forall fuel n s m r, run_fuel fuel n s = Some (m, r) -> exists k, m = n + k /\ prune_run s k r.
Proof.
  induction fuel as [|fuel IH]; intros n s m r H; cbn [run_fuel] in H; [discriminate|]. destruct (prunable s) as [[h|]| |] eqn:E; try discriminate.
  - destruct (join_facet s h) as [s'| |] eqn:J; try discriminate.
    + apply IH in H as (k & -> & R). exists (S k). split; [lia|]. econstructor 4; eauto.
    + injection H as <- <-. exists 0. split; [lia|]. econstructor 3; eauto.
  - injection H as <- <-. exists 0. split; [lia|]. now constructor.
  - injection H as <- <-. exists 0. split; [lia|]. now constructor.
Qed.
(** the diagonal of the square goes; the tetrahedron stays; the flat square with a centre is undefined after two joins *)
Example C42_example : (exists s', prune_run square2 1 (Ok s') /\ length (s_facets s') = 1 /\ length (s_halfedges s') = 8) /\
  (exists s', prune_run tetra 0 (Ok s')) /\ prune_run square4 2 UB /\ exists s', prune_run split_square 0 (Ok s').
Proof.
  assert (A : forall s n (P : surface -> bool), match run_fuel 9 0 s with Some (m, Ok s') => (m =? n) && P s' | _ => false end = true -> exists s', prune_run s n (Ok s') /\ P s' = true).
  { intros s n P H. destruct (run_fuel 9 0 s) as [[m [s'| |]]|] eqn:E; try discriminate. apply andb_true_iff in H as [H1 H2]. apply Nat.eqb_eq in H1. subst m.
    apply run_fuel_sound in E as (k & -> & R). exists s'. auto. }
  split; [|split; [|split]].
  - destruct (A square2 1 (fun s' => (length (s_facets s') =? 1) && (length (s_halfedges s') =? 8))) as (s' & R & P); [vm_compute; reflexivity|].
    apply andb_true_iff in P as [P1 P2]. apply Nat.eqb_eq in P1, P2. eauto.
  - destruct (A tetra 0 (fun _ => true)) as (s' & R & _); [vm_compute; reflexivity|eauto].
  - assert (E : run_fuel 9 0 square4 = Some (2, UB)) by (vm_compute; reflexivity). apply run_fuel_sound in E as (k & E & R). cbn in E. now subst k.
  - destruct (A split_square 0 (fun _ => true)) as (s' & R & _); [vm_compute; reflexivity|eauto].
Qed.
(** the hypotheses of C42_stitch_refuted on the separate triangles: stitching them gives [square2] *)
Lemma all_In (P : nat -> Prop) l : Forall P l -> forall k, In k l -> P k.
Proof. intros H. now apply Forall_forall. Qed.
Example C42_stitch_example : stitched split_square square2 /\ free_side split_square 2 /\ free_side split_square 5 /\ facing split_square 2 5 /\
  (forall k, free_side split_square k -> facing split_square 2 k -> k = 5) /\ (forall k, free_side split_square k -> facing split_square k 5 -> k = 2) /\
  (exists pf pe, boundary split_square 0 pf /\ boundary split_square 1 pe /\ cross (newell pf) (newell pe) = v0) /\ In 2 (s_halfedges square2) /\ joinable square2 2 = Ok true.
Proof.
  assert (FS : forall k, free_side split_square k -> In k [0; 1; 2; 3; 4; 5]).
  { intros k (H & N & _). cbn in H. cbn [In]. intuition subst; try (exfalso; apply N; vm_compute; reflexivity); auto 10. }
  assert (T : forall a b : p3, p3_eqb a b = false -> a <> b) by (intros a b H; now apply p3_eqb_neq).
  assert (Q : forall a b : p3, p3_eqb a b = true -> a = b) by (intros a b H; now apply p3_eqb_eq).
  assert (U : forall g h, In g [0;1;2;3;4;5] -> In h [0;1;2;3;4;5] -> facing split_square g h -> (g = 2 /\ h = 5) \/ (g = 5 /\ h = 2)).
  { intros g h Hg Hh [F1 F2]. apply p3_eqb_eq in F1, F2. revert F1 F2.
    cbn in Hg, Hh; repeat (destruct Hg as [<-|Hg]; [repeat (destruct Hh as [<-|Hh]; [vm_compute; intros; try discriminate; auto|]); contradiction|]); contradiction. }
  split.
  { split; [reflexivity|]. split; [|split].
    - intros f pts Hf B. apply (boundary_points square2 f pts square2_valid); [exact Hf|]. apply (boundary_points split_square f pts split_square_valid Hf) in B. rewrite <- B.
      cbn in Hf. destruct Hf as [<-|[<-|[]]]; vm_compute; reflexivity.
    - intros h Hh. cbn in Hh. intros N. repeat (destruct Hh as [<-|Hh]; [split; [apply mem_In; vm_compute; reflexivity|vm_compute; reflexivity || (exfalso; apply N; vm_compute; reflexivity)] || (exfalso; apply N; vm_compute; reflexivity)|]). destruct Hh.
    - intros g h Fg Fh F _ _. destruct (U g h (FS g Fg) (FS h Fh) F) as [[-> ->]|[-> ->]]; vm_compute; reflexivity. }
  split; [split; [vm_compute; tauto|split; vm_compute; [discriminate|reflexivity]]|].
  split; [split; [vm_compute; tauto|split; vm_compute; [discriminate|reflexivity]]|].
  split; [split; apply Q; vm_compute; reflexivity|].
  split; [intros k Fk F; destruct (U 2 k ltac:(cbn; auto) (FS k Fk) F) as [[_ ->]|[X _]]; [auto|discriminate]|].
  split; [intros k Fk F; destruct (U k 5 (FS k Fk) ltac:(cbn; auto 10) F) as [[-> _]|[_ X]]; [auto|discriminate]|].
  split; [|split; [vm_compute; tauto|vm_compute; reflexivity]].
  do 2 eexists. split; [apply (boundary_points split_square 0); [apply split_square_valid|vm_compute; auto|vm_compute; reflexivity]|].
  split; [apply (boundary_points split_square 1); [apply split_square_valid|vm_compute; auto|vm_compute; reflexivity]|]. apply Q. vm_compute. reflexivity.
Qed.
Example C42_flat_example : flat square4 (pt 0 0 1) /\ interior_vertex square4 4.
Proof.
  split.
  - intros f pts Hf B. apply (boundary_points square4 f pts square4_valid Hf) in B. unfold parallel. apply p3_eqb_eq. cbn in Hf.
    repeat (destruct Hf as [<-|Hf]; [vm_compute in B; apply Ok_inj in B; subst pts; vm_compute; reflexivity|]). destruct Hf.
  - split; [exists 1; split; vm_compute; tauto|]. intros k Hk. cbn in Hk. repeat (destruct Hk as [<-|Hk]; [vm_compute; intros; try discriminate; split; discriminate|]). destruct Hk.
Qed.

(** C43: every edge is counted twice *)
Theorem C43_doubled : forall root s E, valid s -> Permutation (s_halfedges s) (E ++ map (s_opp s) E) ->
  total_edge_length root s = (qz 2 * qsum (map (edge_len root s) E))%Qc.
Proof. exact C43_proof. Qed.
Print Assumptions C43_doubled.
Theorem C43_edges_exist : forall s, valid s -> exists E, Permutation (s_halfedges s) (E ++ map (s_opp s) E).
Proof. exact C43_exists_proof. Qed.
Print Assumptions C43_edges_exist.
(** squared lengths of the square and its diagonal: 4*1 + 2, doubled *)
Example C43_example : total_edge_length (fun x => x) square2 = qz 12.
Proof. apply Qceqb_eq. vm_compute. reflexivity. Qed.

(** C44: transformations *)
Theorem C44_points_only : forall t u, same_connectivity (b_surface (u_surf u)) (b_surface (u_surf (affine_transform t u))) /\
  (forall v, s_point (b_surface (u_surf (affine_transform t u))) v = aff_apply t (s_point (b_surface (u_surf u)) v)) /\
  u_name (affine_transform t u) = u_name u /\ u_ref (affine_transform t u) = u_ref u /\ u_epsg (affine_transform t u) = u_epsg u /\
  b_box (u_surf (affine_transform t u)) = b_box (u_surf u).
Proof. intros t u. repeat split. Qed.
Print Assumptions C44_points_only.
Theorem C44_meaning : forall v k p, aff_apply (aff_translation v) p = vadd p v /\ aff_apply (aff_scaling k) p = vscale k p /\ aff_apply aff_id p = p.
Proof. intros v k p. split; [apply aff_translation_apply|split; [apply aff_scaling_apply|apply aff_id_apply]]. Qed.
Print Assumptions C44_meaning.
Theorem C44_compose : forall t1 t2 u v, s_point (b_surface (u_surf (affine_transform t2 (affine_transform t1 u)))) v =
  s_point (b_surface (u_surf (affine_transform (aff_mul t2 t1) u))) v.
Proof. intros t1 t2 u v. cbn [affine_transform u_surf b_surface map_points s_point]. symmetry. apply aff_mul_apply. Qed.
Print Assumptions C44_compose.
Theorem C44_translate_back : forall d u v, s_point (b_surface (u_surf (translate (vneg d) (translate d u)))) v = s_point (b_surface (u_surf u)) v.
Proof.
  intros d u v. unfold translate. cbn [affine_transform u_surf b_surface map_points s_point]. rewrite !aff_translation_apply.
  apply p3_eq; cbn [vadd vneg x3 y3 z3]; ring.
Qed.
Print Assumptions C44_translate_back.
Theorem C44_box_stale : forall v u, tight (b_box (u_surf u)) (points (b_surface (u_surf u))) -> v <> v0 ->
  exists p, In p (points (b_surface (u_surf (translate v u)))) /\ ~ inside (b_box (u_surf (translate v u))) p.
Proof. exact C44_box_proof. Qed.
Print Assumptions C44_box_stale.
Example C44_example : tight (mkBox3 (pt 0 0 0) (pt 1 1 1)) (points tetra).
Proof.
  assert (L : forall a b, Qcleb a b = true -> (a <= b)%Qc) by (intros a b; now rewrite Qcleb_le).
  split.
  - intros p Hp. cbn in Hp. repeat (destruct Hp as [<-|Hp]; [repeat split; apply L; vm_compute; reflexivity|]). destruct Hp.
  - assert (E : forall a b, Qceqb a b = true -> a = b) by (intros a b; now rewrite Qceqb_eq).
    repeat split.
    + exists (pt 0 0 0). split; [left|]; reflexivity.
    + exists (pt 1 0 0). split; [right; left|]; reflexivity.
    + exists (pt 0 0 0). split; [left|]; reflexivity.
    + exists (pt 0 1 0). split; [right; right; left|]; reflexivity.
    + exists (pt 0 0 0). split; [left|]; reflexivity.
    + exists (pt 0 0 1). split; [right; right; right; left|]; reflexivity.
Qed.

(** C45: the centroid of a facet *)
Theorem C45_height : forall n l h, (forall p, In p l -> dot n p = h) -> poly_area n l <> 0%Qc ->
  dot n (centroid n (poly_area n l) l) = (qz 2 / qz 3 * h)%Qc.
Proof. exact C45_height_proof. Qed.
Print Assumptions C45_height.
Theorem C45_in_plane_part : forall n l u, dot u n = 0%Qc -> dot u (centroid n (poly_area n l) l) = dot u (poly_center n l).
Proof. exact C45_in_plane_proof. Qed.
Print Assumptions C45_in_plane_part.
Theorem C45_off_plane : forall n l h, (forall p, In p l -> dot n p = h) -> poly_area n l <> 0%Qc ->
  (dot n (centroid n (poly_area n l) l) = h <-> h = 0%Qc).
Proof.
  intros n l h H A. rewrite (C45_height n l h H A). split.
  - intros E. assert (Z : (h = qz 3 * (h - qz 2 / qz 3 * h))%Qc).
    { transitivity ((qz 3 - qz 2) * h)%Qc; [|field; apply qz_nonzero; lia]. replace (qz 3 - qz 2)%Qc with 1%Qc by (apply Qceqb_eq; vm_compute; reflexivity). ring. }
    rewrite Z. rewrite E. ring.
  - intros ->. ring.
Qed.
Print Assumptions C45_off_plane.
Example C45_example : let l := [pt 0 0 3; pt 3 0 3; pt 0 3 3] in poly_area (pt 0 0 1) l = (qz 9 / qz 2)%Qc /\ centroid (pt 0 0 1) (qz 9 / qz 2) l = pt 1 1 2 /\
  poly_center (pt 0 0 1) l = pt 1 1 3.
Proof. cbv zeta. split; [apply Qceqb_eq; vm_compute; reflexivity|split; apply p3_eqb_eq; vm_compute; reflexivity]. Qed.

(** C46: rotations *)
Theorem C46_no_rotation : forall matrix u, rotate_map matrix [] u = Ok (affine_transform aff_id u) /\
  forall v, s_point (b_surface (u_surf (affine_transform aff_id u))) v = s_point (b_surface (u_surf u)) v.
Proof. intros matrix u. split; [reflexivity|]. intros v. cbn [affine_transform u_surf b_surface map_points s_point]. apply aff_id_apply. Qed.
Print Assumptions C46_no_rotation.
Theorem C46_undefined : forall matrix rotations u, rotations <> [] -> rotation_transform matrix rotations = UB /\ rotate_map matrix rotations u = UB.
Proof. intros matrix [|r l] u H; [congruence|]. split; reflexivity. Qed.
Print Assumptions C46_undefined.
Theorem C46_axis_undefined : forall matrix axis angle u, rotate_axis matrix axis angle u = UB.
Proof. reflexivity. Qed.
Print Assumptions C46_axis_undefined.

(** C47: scenes *)
Theorem C47_construction : forall S (build : mesh -> outcome S) bs t pivot epsg s, scene_make build bs t pivot epsg = Ok s ->
  sc_pivot s = pivot /\ sc_epsg s = epsg /\ identifiers s = map m_name bs /\
  Forall2 (fun m u => u_name u = m_name m /\ u_ref u = pivot /\ u_epsg u = epsg /\ build m = Ok (u_surf u)) bs (sc_buildings s) /\
  u_name (sc_terrain s) = m_name t /\ u_ref (sc_terrain s) = pivot /\ u_epsg (sc_terrain s) = epsg /\ build t = Ok (u_surf (sc_terrain s)).
Proof.
  intros S build bs t pivot epsg s H. unfold scene_make in H. apply bind_Ok in H as (us & E1 & H). apply bind_Ok in H as (ut & E2 & H). apply Ok_inj in H. subst s.
  cbn [sc_pivot sc_epsg sc_buildings sc_terrain]. split; [auto|]. split; [auto|].
  assert (F : Forall2 (fun m u => u_name u = m_name m /\ u_ref u = pivot /\ u_epsg u = epsg /\ build m = Ok (u_surf u)) bs us).
  { apply omapM_Ok in E1. induction E1 as [|m u bs us E F IH]; constructor; auto. unfold unode_of_mesh in E. apply bind_Ok in E as (x & Ex & E). apply Ok_inj in E. subst u. auto. }
  split; [|split; [auto|]].
  - unfold identifiers. cbn [sc_buildings]. clear - F. induction F as [|m u bs us (E & _) F IH]; auto. cbn [map]. congruence.
  - unfold unode_of_mesh in E2. apply bind_Ok in E2 as (x & Ex & E). apply Ok_inj in E. subst ut. auto.
Qed.
Print Assumptions C47_construction.
(** the construction fails with the first mesh, in order, whose surface cannot be built *)
Theorem C47_outcome : forall S (build : mesh -> outcome S) bs t pivot epsg,
  ((exists s, scene_make build bs t pivot epsg = Ok s) <-> forall m, In m (bs ++ [t]) -> exists x, build m = Ok x) /\
  (forall pre m post, bs ++ [t] = pre ++ m :: post -> (forall n, In n pre -> exists x, build n = Ok x) ->
     (forall e, build m = Throw e -> scene_make build bs t pivot epsg = Throw e) /\
     (build m = UB -> scene_make build bs t pivot epsg = UB)).
Proof.
  intros S build bs t pivot epsg. unfold scene_make. split.
  - split.
    + intros [s E]. apply bind_Ok in E as (us & E1 & E). apply bind_Ok in E as (ut & E2 & _).
      intros m Hm. apply in_app_or in Hm as [Hm|[<-|[]]].
      * revert us E1. induction bs as [|b bs IH]; intros us E1; [destruct Hm|]. cbn [omapM] in E1.
        apply bind_Ok in E1 as (u & Eu & E1). apply bind_Ok in E1 as (l & El & _). destruct Hm as [->|Hm]; [|now apply (IH Hm l)].
        unfold unode_of_mesh in Eu. apply bind_Ok in Eu as (x & Ex & _). eauto.
      * unfold unode_of_mesh in E2. apply bind_Ok in E2 as (x & Ex & _). eauto.
    + intros H. assert (exists us, omapM (unode_of_mesh build pivot epsg) bs = Ok us) as [us ->].
      { assert (Hb : forall m, In m bs -> exists x, build m = Ok x) by (intros m Hm; apply H, in_or_app; auto). clear H.
        induction bs as [|b bs IH]; cbn [omapM]; [eauto|]. destruct (Hb b (or_introl eq_refl)) as [x Ex]. unfold unode_of_mesh at 1. rewrite Ex. cbn [bind].
        destruct IH as [us ->]; [intros; apply Hb; right; auto|]. cbn [bind]. eauto. }
      cbn [bind]. destruct (H t) as [x Ex]; [apply in_or_app; right; left; auto|]. unfold unode_of_mesh. rewrite Ex. cbn [bind]. eauto.
  - intros pre m post E Hp. revert bs E. induction pre as [|a pre IH]; intros bs E.
    + destruct bs as [|b bs]; cbn [app] in E; injection E as -> E; cbn [omapM bind].
      * unfold unode_of_mesh. split; [intros e ->|intros ->]; reflexivity.
      * split; [intros e He|intros He]; unfold unode_of_mesh at 1; rewrite He; reflexivity.
    + destruct bs as [|b bs]; cbn [app] in E.
      * injection E as -> E. destruct pre; discriminate.
      * injection E as -> E. destruct (Hp a (or_introl eq_refl)) as [x Ex]. destruct (IH (fun n Hn => Hp n (or_intror Hn)) bs E) as [I1 I2].
        cbn [omapM]. split; [intros e He; specialize (I1 e He)|intros He; specialize (I2 He)]; unfold unode_of_mesh at 1; rewrite Ex; cbn [bind].
        -- destruct (omapM (unode_of_mesh build pivot epsg) bs); cbn [bind] in *; auto; destruct (unode_of_mesh build pivot epsg t); cbn [bind] in *; congruence.
        -- destruct (omapM (unode_of_mesh build pivot epsg) bs); cbn [bind] in *; auto; destruct (unode_of_mesh build pivot epsg t); cbn [bind] in *; congruence.
Qed.
Example C47_outcome_example : scene_make (fun m => match m_points m with [] => Throw LogicError | _ => Ok tt end) [mesh_make [] [point_default] []; mesh_empty] mesh_empty point_default 2154 = Throw LogicError.
Proof. reflexivity. Qed.
Theorem C47_prune : forall S (p : S -> outcome S) s flag s', scene_prune (unode_prune p) s flag = Ok s' ->
  sc_pivot s' = sc_pivot s /\ sc_epsg s' = sc_epsg s /\ identifiers s' = identifiers s /\
  Forall2 (fun u u' => u_name u' = u_name u /\ u_ref u' = u_ref u /\ u_epsg u' = u_epsg u /\ p (u_surf u) = Ok (u_surf u')) (sc_buildings s) (sc_buildings s') /\
  (flag = false -> sc_terrain s' = sc_terrain s) /\
  (flag = true -> u_name (sc_terrain s') = u_name (sc_terrain s) /\ u_ref (sc_terrain s') = u_ref (sc_terrain s) /\ u_epsg (sc_terrain s') = u_epsg (sc_terrain s) /\
     p (u_surf (sc_terrain s)) = Ok (u_surf (sc_terrain s'))).
Proof.
  intros S p s flag s' H. unfold scene_prune in H. apply bind_Ok in H as (us & E1 & H). apply bind_Ok in H as (ut & E2 & H). apply Ok_inj in H. subst s'.
  cbn [sc_pivot sc_epsg sc_buildings sc_terrain]. split; [auto|]. split; [auto|].
  assert (F : Forall2 (fun u u' => u_name u' = u_name u /\ u_ref u' = u_ref u /\ u_epsg u' = u_epsg u /\ p (u_surf u) = Ok (u_surf u')) (sc_buildings s) us).
  { apply omapM_Ok in E1. induction E1 as [|m u bs us E F IH]; constructor; auto. unfold unode_prune in E. apply bind_Ok in E as (x & Ex & E). apply Ok_inj in E. subst u. auto. }
  split; [|split; [auto|]].
  - unfold identifiers. cbn [sc_buildings]. clear - F. induction F as [|m u bs us (E & _) F IH]; auto. cbn [map]. congruence.
  - split; intros ->.
    + now apply Ok_inj in E2.
    + unfold unode_prune in E2. apply bind_Ok in E2 as (x & Ex & E). apply Ok_inj in E. subst ut. auto.
Qed.
Print Assumptions C47_prune.
Example C47_example : exists s s', scene_make (fun m => Ok (length (m_faces m))) [mesh_empty; snd (mesh_set_name mesh_empty s_terrain)] mesh_empty point_default 2154 = Ok s /\
  length (sc_buildings s) = 2 /\ scene_prune (unode_prune (fun n => Ok (S n))) s false = Ok s' /\ u_surf (sc_terrain s') = 0 /\ map u_surf (sc_buildings s') = [1; 1].
Proof. do 2 eexists. split; [vm_compute; reflexivity|]. split; [reflexivity|]. split; [vm_compute; reflexivity|]. split; reflexivity. Qed.
