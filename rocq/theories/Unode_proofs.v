(** * Proofs about adjacency text, edge lengths, transformations and scenes (C41, C43, C44, C46, C47). *)
From Verif Require Import Base Dbl Geom Decimal Shadow Streams Handlers Surface Spec_surface Surface_proofs.
Open Scope nat_scope.

(** ** C41 *)
Lemma print_row_spec m n row r a c : m = a ++ r ++ c -> length a = row * n -> length r = n -> 0 < n -> print_row m n row = Ok (spaced r ++ [nl_char]).
Proof.
  intros Em La Lr Hn.
  assert (G : forall r j a, m = a ++ r ++ c -> length a = row * n + j -> r <> [] -> length r + j = n ->
     (let* cs := omapM (fun col => let* b := vat m (row * n + col) in Ok [bit b; " "%char]) (seq j (length r - 1)) in
      let* b := vat m (row * n + (n - 1)) in Ok (concat cs ++ [bit b; ch_nl])) = Ok (spaced r ++ [nl_char])).
  { clear r a Em La Lr. induction r as [|x r IH]; intros j a Em La Nr Lr; [congruence|]. destruct r as [|y r].
    - cbn [length] in *. replace (1 - 1) with 0 by lia. cbn [seq omapM bind concat app]. unfold vat.
      assert (E : nth_error m (row * n + (n - 1)) = Some x).
      { rewrite Em, nth_error_app2 by lia. replace (row * n + (n - 1) - length a) with 0 by lia. reflexivity. }
      rewrite E. cbn [bind]. destruct x; reflexivity.
    - replace (length (x :: y :: r) - 1) with (S (length (y :: r) - 1)) by (cbn; lia). cbn [seq omapM].
      assert (E : vat m (row * n + j) = Ok x).
      { unfold vat. rewrite Em, nth_error_app2 by lia. replace (row * n + j - length a) with 0 by lia. reflexivity. }
      rewrite E. cbn [bind]. specialize (IH (S j) (a ++ [x])).
      assert (IH' := IH ltac:(rewrite Em, <- app_assoc; reflexivity) ltac:(rewrite app_length; cbn; lia) ltac:(discriminate) ltac:(cbn in *; lia)). clear IH.
      destruct (omapM (fun col => let* b := vat m (row * n + col) in Ok [bit b; " "%char]) (seq (S j) (length (y :: r) - 1))) as [cs| |]; cbn [bind] in *; try discriminate.
      destruct (vat m (row * n + (n - 1))) as [b| |]; cbn [bind] in *; try discriminate. apply Ok_inj in IH'. cbn [concat]. f_equal.
      change (spaced (x :: y :: r)) with ((if x then "1" else "0")%char :: " "%char :: spaced (y :: r)). cbn [app]. rewrite <- IH'. destruct x; reflexivity. }
  unfold print_row. replace (n - 1) with (length r - 1) at 1 by lia. apply (G r 0 a); auto; [lia|intros ->; cbn in Lr; lia|lia].
Qed.
Fixpoint chop (n k : nat) (m : list bool) : list (list bool) :=
  match k with O => [] | S k => firstn n m :: chop n k (skipn n m) end.
Lemma chop_spec n : forall k m, length m = k * n -> length (chop n k m) = k /\ Forall (fun r => length r = n) (chop n k m) /\ concat (chop n k m) = m.
Proof.
  induction k as [|k IH]; intros m L; cbn [chop].
  - destruct m; [auto|discriminate].
  - cbn [Nat.mul] in L. destruct (IH (skipn n m)) as (A & B & C); [rewrite skipn_length; lia|]. split; [cbn; lia|]. split.
    + constructor; auto. rewrite firstn_length. lia.
    + cbn [concat]. rewrite C. apply firstn_skipn.
Qed.
Lemma print_rows_spec n : 0 < n -> forall k m row a b, m = a ++ b -> length a = row * n -> length b = k * n ->
  omapM (print_row m n) (seq row k) = Ok (map (fun r => spaced r ++ [nl_char]) (chop n k b)).
Proof.
  intros Hn. induction k as [|k IH]; intros m row a b Em La Lb; [reflexivity|]. cbn [seq omapM chop map]. cbn [Nat.mul] in Lb.
  rewrite (print_row_spec m n row (firstn n b) a (skipn n b)); auto; [|rewrite firstn_skipn; auto|rewrite firstn_length; lia]. cbn [bind].
  rewrite (IH m (S row) (a ++ firstn n b) (skipn n b)); [reflexivity|rewrite <- app_assoc, firstn_skipn; auto|rewrite app_length, firstn_length; lia|rewrite skipn_length; lia].
Qed.
Lemma C41_text_proof : forall m n, length m = n * n -> exists rows, length rows = n /\ Forall (fun r => length r = n) rows /\ concat rows = m /\
  adjacency_print m = Ok (concat (map (fun r => spaced r ++ [nl_char]) rows)).
Proof.
  intros m n L. exists (chop n n m). destruct (chop_spec n n m L) as (A & B & C). split; auto. split; auto. split; auto.
  unfold adjacency_print. rewrite L, Nat.sqrt_square, Nat.eqb_refl. destruct (Nat.eq_dec n 0) as [->|Hn]; [reflexivity|].
  rewrite (print_rows_spec n ltac:(lia) n m 0 [] m); auto.
Qed.
Lemma C41_not_square_proof : forall m, (forall n, length m <> n * n) -> adjacency_print m = Throw LogicError.
Proof. intros m H. unfold adjacency_print. specialize (H (Nat.sqrt (length m))). destruct (_ =? _) eqn:E; auto. apply Nat.eqb_eq in E. congruence. Qed.
Lemma bits_of_app a b : bits_of (a ++ b) = bits_of a ++ bits_of b.
Proof. unfold bits_of. apply flat_map_app. Qed.
Lemma bits_of_spaced r : bits_of (spaced r) = r.
Proof.
  induction r as [|b r IH]; auto. destruct r as [|b' r]; [destruct b; reflexivity|].
  change (spaced (b :: b' :: r)) with ([(if b then "1" else "0"); " "]%char ++ spaced (b' :: r)).
  rewrite bits_of_app, IH. destruct b; reflexivity.
Qed.
Lemma C41_back_proof : forall m t, adjacency_print m = Ok t -> bits_of t = m.
Proof.
  intros m t H. assert (S : exists n, length m = n * n).
  { exists (Nat.sqrt (length m)). unfold adjacency_print in H. destruct (_ =? _) eqn:E; [|discriminate]. apply Nat.eqb_eq in E. congruence. }
  destruct S as (n & L). destruct (C41_text_proof m n L) as (rows & _ & _ & C & E). rewrite E in H. apply Ok_inj in H. subst t. rewrite <- C. clear.
  induction rows as [|r rows IH]; auto. cbn [map concat]. rewrite !bits_of_app, bits_of_spaced, IH. rewrite <- app_assoc. reflexivity.
Qed.

(** ** C43 *)
Lemma pair_up (opp : nat -> nat) : forall l, NoDup l -> (forall h, In h l -> In (opp h) l /\ opp (opp h) = h /\ opp h <> h) -> exists E, Permutation l (E ++ map opp E).
Proof.
  intros l. remember (length l) as n. revert l Heqn. induction n as [n IH] using lt_wf_ind. intros l En N H. destruct l as [|h l].
  - exists []. auto.
  - inversion N as [|? ? Nh N']; subst. destruct (H h (or_introl eq_refl)) as ([O1|O1] & O2 & O3); [congruence|].
    apply in_split in O1 as (l1 & l2 & ->). assert (P : Permutation (l1 ++ opp h :: l2) (opp h :: l1 ++ l2)) by (symmetry; apply Permutation_middle).
    assert (N2 := Permutation_NoDup P N'). inversion N2 as [|? ? No N3]; subst.
    destruct (IH (length (l1 ++ l2))) with (l := l1 ++ l2) as (E & PE); auto.
    + cbn. rewrite !app_length. cbn. lia.
    + intros k Hk. assert (Hk' : In k (h :: l1 ++ opp h :: l2)) by (right; apply (Permutation_in _ (Permutation_sym P)); right; auto).
      destruct (H k Hk') as (K1 & K2 & K3). split; auto. assert (X : In (opp k) (h :: opp h :: l1 ++ l2)).
      { destruct K1 as [K1|K1]; [left; auto|right]. apply (Permutation_in _ P); auto. }
      destruct X as [X|[X|X]]; auto; exfalso.
      * apply No. replace (opp h) with k by congruence. auto.
      * apply Nh. assert (k = h) by congruence. subst k. apply (Permutation_in _ (Permutation_sym P)). right; auto.
    + exists (h :: E). cbn [map app]. apply perm_skip. rewrite P, PE. apply Permutation_middle.
Qed.
Lemma edge_len_opp root s h : s_opp s (s_opp s h) = h -> edge_len root s (s_opp s h) = edge_len root s h.
Proof. intros E. unfold edge_len. rewrite E. f_equal. unfold sqdist, dot, vsub. cbn. ring. Qed.
Lemma C43_exists_proof : forall s, valid s -> exists E, Permutation (s_halfedges s) (E ++ map (s_opp s) E).
Proof. intros s V. apply pair_up; [apply (va_hs s V)|apply (va_opp s V)]. Qed.
Lemma C43_proof : forall root s E, valid s -> Permutation (s_halfedges s) (E ++ map (s_opp s) E) ->
  total_edge_length root s = (qz 2 * qsum (map (edge_len root s) E))%Qc.
Proof.
  intros root s E V P. unfold total_edge_length. rewrite fold_left_qsum, (qsum_perm _ _ (Permutation_map _ P)), map_app, qsum_app, map_map.
  assert (X : map (fun h => edge_len root s (s_opp s h)) E = map (edge_len root s) E).
  { apply map_ext_in. intros h Hh. apply edge_len_opp. apply (va_opp s V). apply (Permutation_in _ (Permutation_sym P)). apply in_or_app; auto. }
  rewrite X. change (qz 2) with (1 + 1)%Qc. ring.
Qed.

(** ** C44 *)
Ltac aff := unfold aff_apply, aff_mul, aff_id, aff_translation, aff_scaling; cbv zeta; cbn [a_r1 a_r2 a_r3 a_t]; unfold aff_apply, dot, vadd, vscale, v0; apply p3_eq; cbn [x3 y3 z3 a_r1 a_r2 a_r3 a_t]; ring.
Lemma aff_mul_apply u t p : aff_apply (aff_mul u t) p = aff_apply u (aff_apply t p).
Proof. aff. Qed.
Lemma aff_id_apply p : aff_apply aff_id p = p.
Proof. aff. Qed.
Lemma aff_translation_apply v p : aff_apply (aff_translation v) p = vadd p v.
Proof. aff. Qed.
Lemma aff_scaling_apply k p : aff_apply (aff_scaling k) p = vscale k p.
Proof. aff. Qed.
Lemma Qc_lt_add a b : (0 < b)%Qc -> ~ (a + b <= a)%Qc.
Proof.
  intros H L. apply (Qcle_not_lt _ _ L). replace a with (a + 0)%Qc at 1 by ring. rewrite (Qcplus_comm a 0), (Qcplus_comm a b).
  apply Qclt_minus_iff in H. apply Qclt_minus_iff. replace (b + a + - (0 + a))%Qc with (b + - (0))%Qc by ring. exact H.
Qed.
Lemma Qc_lt_sub a b : (b < 0)%Qc -> ~ (a <= a + b)%Qc.
Proof.
  intros H L. apply (Qcle_not_lt _ _ L). apply Qclt_minus_iff in H. apply Qclt_minus_iff. replace (a + - (a + b))%Qc with (0 + - b)%Qc by ring. exact H.
Qed.
Lemma Qc_trich a : a <> 0%Qc -> (0 < a)%Qc \/ (a < 0)%Qc.
Proof. intros N. destruct (Qc_dec a 0) as [[H|H]|H]; auto. contradiction. Qed.
Lemma C44_box_proof : forall v (u : unode body), tight (b_box (u_surf u)) (points (b_surface (u_surf u))) -> v <> v0 ->
  exists p, In p (points (b_surface (u_surf (translate v u)))) /\ ~ inside (b_box (u_surf (translate v u))) p.
Proof.
  intros v u (_ & (p1 & I1 & E1) & (p2 & I2 & E2) & (p3' & I3 & E3) & (p4 & I4 & E4) & (p5 & I5 & E5) & (p6 & I6 & E6)) N.
  assert (T : forall p, In p (points (b_surface (u_surf u))) -> In (vadd p v) (points (b_surface (u_surf (translate v u))))).
  { intros p Hp. unfold points in *. apply in_map_iff in Hp as (w & <- & Hw). apply in_map_iff. exists w. split; auto. cbn [translate affine_transform u_surf b_surface map_points s_point]. apply aff_translation_apply. }
  assert (B : b_box (u_surf (translate v u)) = b_box (u_surf u)) by reflexivity. rewrite B. clear B.
  assert (D : x3 v <> 0%Qc \/ y3 v <> 0%Qc \/ z3 v <> 0%Qc).
  { destruct (Qc_eq_dec (x3 v) 0) as [X|X]; auto. destruct (Qc_eq_dec (y3 v) 0) as [Y|Y]; auto. destruct (Qc_eq_dec (z3 v) 0) as [Z|Z]; auto.
    exfalso. apply N. apply p3_eq; auto. }
  destruct D as [D|[D|D]]; apply Qc_trich in D as [D|D].
  - exists (vadd p2 v). split; auto. intros (_ & H & _). cbn [vadd x3] in H. rewrite E2 in H. exact (Qc_lt_add _ _ D H).
  - exists (vadd p1 v). split; auto. intros (H & _). cbn [vadd x3] in H. rewrite E1 in H. exact (Qc_lt_sub _ _ D H).
  - exists (vadd p4 v). split; auto. intros (_ & _ & _ & H & _). cbn [vadd y3] in H. rewrite E4 in H. exact (Qc_lt_add _ _ D H).
  - exists (vadd p3' v). split; auto. intros (_ & _ & H & _). cbn [vadd y3] in H. rewrite E3 in H. exact (Qc_lt_sub _ _ D H).
  - exists (vadd p6 v). split; auto. intros (_ & _ & _ & _ & _ & H). cbn [vadd z3] in H. rewrite E6 in H. exact (Qc_lt_add _ _ D H).
  - exists (vadd p5 v). split; auto. intros (_ & _ & _ & _ & H & _). cbn [vadd z3] in H. rewrite E5 in H. exact (Qc_lt_sub _ _ D H).
Qed.

(** ** C47 *)
Lemma omapM_map_names {S} (f : unode S -> outcome (unode S)) l l' : omapM f l = Ok l' ->
  (forall u u', f u = Ok u' -> u_name u' = u_name u /\ u_ref u' = u_ref u /\ u_epsg u' = u_epsg u) ->
  map u_name l' = map u_name l /\ map u_ref l' = map u_ref l /\ map u_epsg l' = map u_epsg l.
Proof.
  intros H K. apply omapM_Ok in H. induction H as [|u u' l l' E F IH]; auto. destruct (K _ _ E) as (A & B & C). destruct IH as (A' & B' & C'). cbn [map]. repeat split; congruence.
Qed.
