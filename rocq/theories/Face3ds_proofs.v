(** * Proofs about convexity and 3DS conversion (C11-C15). *)
From Verif Require Import Base Dbl Dbl_facts Shadow Spec_shadow Shadow_proofs Face_proofs Vec_proofs.
Arguments compute_bbox : simpl never.

Lemma cyc_small f k : (k < length f)%nat -> nth_error f k = Some (cyc f k).
Proof. intros H. unfold cyc. rewrite Nat.mod_small by auto. apply nth_error_nth'. auto. Qed.
Lemma cyc_wrap f k : (k < length f)%nat -> cyc f (k + length f) = cyc f k.
Proof.
  intros H. unfold cyc. replace (k + length f)%nat with (k + 1 * length f)%nat by lia.
  rewrite Nat.mod_add by lia. reflexivity.
Qed.
Lemma cyc_0 a l : cyc (a :: l) 0 = a.
Proof. unfold cyc. rewrite Nat.mod_0_l by discriminate. reflexivity. Qed.
Lemma vat_cyc f k : (k < length f)%nat -> vat f k = Ok (cyc f k).
Proof. intros H. apply vat_Ok, cyc_small; auto. Qed.
Lemma cyc_In f k : f <> [] -> In (cyc f k) f.
Proof.
  intros H. unfold cyc. apply nth_In. apply Nat.mod_upper_bound. destruct f; cbn; congruence.
Qed.
Lemma pt_ok P i : (i < nsize P)%N -> vatN P i = Ok (pt P i).
Proof. intros H. apply vatN_Ok. unfold pt. apply nth_error_nth'. unfold nsize in H. lia. Qed.

Lemma corner_cyc f i : (3 <= length f)%nat -> (i < length f)%nat ->
  corner f i = Ok (cyc f i, cyc f (i + 1), cyc f (i + 2)).
Proof.
  intros Hd Hi. unfold corner. rewrite vat_cyc by auto. cbn [bind].
  destruct (Nat.eqb_spec i (length f - 2)) as [E|E].
  - rewrite vat_cyc by lia. cbn [bind]. rewrite vat_cyc by lia. cbn [bind].
    replace (i + 2)%nat with (0 + length f)%nat by lia. rewrite cyc_wrap by lia. reflexivity.
  - destruct (Nat.eqb_spec i (length f - 1)) as [E'|E'].
    + rewrite !vat_cyc by lia. cbn [bind].
      replace (i + 1)%nat with (0 + length f)%nat by lia. rewrite cyc_wrap by lia.
      replace (i + 2)%nat with (1 + length f)%nat by lia. rewrite cyc_wrap by lia. reflexivity.
    + rewrite !vat_cyc by lia. reflexivity.
Qed.

Lemma N_lt_dec a b : (a < b)%N \/ ~ (a < b)%N.
Proof. lia. Qed.

(** One step of the loop. *)
Lemma loop_step f P k i : (3 <= length f)%nat -> (i < length f)%nat -> corner_exists f P i ->
  convex_loop f P (first_normal f P) (S k) i =
  if corner_convex f P i then convex_loop f P (first_normal f P) k (S i) else Ok false.
Proof.
  intros Hd Hi (H1 & H2 & H3). cbn [convex_loop]. rewrite corner_cyc by auto. cbn [bind].
  rewrite !pt_ok by auto. reflexivity.
Qed.
Lemma loop_throw f P k i n : (3 <= length f)%nat -> (i < length f)%nat -> ~ corner_exists f P i ->
  convex_loop f P n (S k) i = Throw OutOfRange.
Proof.
  intros Hd Hi H. cbn [convex_loop]. rewrite corner_cyc by auto. cbn [bind].
  unfold corner_exists in H.
  destruct (N_lt_dec (cyc f i) (nsize P)) as [H1|H1]; [|rewrite vatN_ge by lia; auto].
  destruct (N_lt_dec (cyc f (i+1)) (nsize P)) as [H2|H2].
  2:{ rewrite pt_ok by auto. cbn [bind]. rewrite vatN_ge by lia; auto. }
  destruct (N_lt_dec (cyc f (i+2)) (nsize P)) as [H3|H3]; [tauto|].
  rewrite !pt_ok by auto. cbn [bind]. rewrite vatN_ge by lia; auto.
Qed.
Lemma corner_exists_dec f P i : corner_exists f P i \/ ~ corner_exists f P i.
Proof. unfold corner_exists. lia. Qed.

Lemma loop_value f P : (3 <= length f)%nat -> forall k i, (i + k = length f)%nat ->
  (forall j, (i <= j < length f)%nat -> corner_exists f P j) ->
  convex_loop f P (first_normal f P) k i = Ok (forallb (corner_convex f P) (seq i k)).
Proof.
  intros Hd. induction k as [|k IH]; intros i Hk H; [reflexivity|].
  rewrite loop_step by (auto; try lia; apply H; lia). cbn [seq forallb].
  destruct (corner_convex f P i); auto. rewrite IH; auto; [lia|intros; apply H; lia].
Qed.
Lemma loop_throw_iff f P : (3 <= length f)%nat -> forall k i, (i + k = length f)%nat ->
  (convex_loop f P (first_normal f P) k i = Throw OutOfRange <->
   exists j, (i <= j < length f)%nat /\ (forall l, (i <= l < j)%nat -> corner_exists f P l /\ corner_convex f P l = true)
             /\ ~ corner_exists f P j).
Proof.
  intros Hd. induction k as [|k IH]; intros i Hk.
  - cbn. split; [discriminate|]. intros (j & Hj & _). lia.
  - destruct (corner_exists_dec f P i) as [He|He].
    + rewrite loop_step by (auto; lia). destruct (corner_convex f P i) eqn:Ec.
      * rewrite IH by lia. split; intros (j & Hj & Hl & Hn).
        -- exists j. split; [lia|]. split; auto. intros l Hl'.
           destruct (Nat.eq_dec l i) as [->|]; [auto|apply Hl; lia].
        -- exists j. assert (j <> i) by (intros ->; auto). split; [lia|]. split; auto.
           intros l Hl'. apply Hl; lia.
      * split; [discriminate|]. intros (j & Hj & Hl & Hn). exfalso.
        destruct (Nat.eq_dec j i) as [->|]; [auto|]. destruct (Hl i) as [_ Hc]; [lia|congruence].
    + rewrite loop_throw by (auto; lia). split; auto. intros _. exists i. split; [lia|]. split; auto. intros; lia.
Qed.
Lemma loop_outcome f P n : (3 <= length f)%nat -> forall k i, (i + k = length f)%nat ->
  (exists b, convex_loop f P n k i = Ok b) \/ convex_loop f P n k i = Throw OutOfRange.
Proof.
  intros Hd. induction k as [|k IH]; intros i Hk; [left; eexists; reflexivity|].
  destruct (corner_exists_dec f P i) as [He|He].
  - cbn [convex_loop]. rewrite corner_cyc by (auto; lia). cbn [bind]. destruct He as (?&?&?).
    rewrite !pt_ok by auto. cbn [bind]. destruct (turn_ok _ _ _ _); [apply IH; lia|eauto].
  - right. apply loop_throw; auto; lia.
Qed.

(** the body for degree > 3 reduces to the loop *)
Lemma is_convex_big f P : (3 < length f)%nat -> (length f <= length P)%nat ->
  face_is_convex f P =
  convex_loop f P (first_normal f P) (length f) 0 \/
  (~ corner_exists f P 0 /\ face_is_convex f P = Throw OutOfRange /\
   convex_loop f P (first_normal f P) (length f) 0 = Throw OutOfRange).
Proof.
  intros Hd HP. unfold face_is_convex.
  destruct (Nat.ltb_spec (length P) (length f)); [lia|].
  destruct (Nat.ltb_spec (length f) 3); [lia|].
  destruct (Nat.eqb_spec (length f) 3); [lia|].
  rewrite !vat_cyc by lia. cbn [bind].
  destruct (corner_exists_dec f P 0) as [He|He].
  - left. destruct He as (H1 & H2 & H3). cbn [Nat.add] in *. rewrite !pt_ok by auto. reflexivity.
  - right. split; auto. split.
    + unfold corner_exists in He. cbn [Nat.add] in He.
      destruct (N_lt_dec (cyc f 0) (nsize P)); [|rewrite vatN_ge by lia; reflexivity].
      rewrite (pt_ok P (cyc f 0)) by auto. cbn [bind].
      destruct (N_lt_dec (cyc f 1) (nsize P)); [|rewrite vatN_ge by lia; reflexivity].
      rewrite (pt_ok P (cyc f 1)) by auto. cbn [bind].
      rewrite vatN_ge by lia. reflexivity.
    + destruct f as [|a f]; [cbn in Hd; lia|]. cbn [length]. apply loop_throw; auto; cbn in *; lia.
Qed.
Lemma is_convex_loop f P : (3 < length f)%nat -> (length f <= length P)%nat ->
  face_is_convex f P = convex_loop f P (first_normal f P) (length f) 0.
Proof.
  intros H1 H2. destruct (is_convex_big f P H1 H2) as [H|(_ & Ha & Hb)]; congruence.
Qed.

Lemma C11_value_proof f P :
  (length f <= length P)%nat ->
  (length f = 3%nat -> face_is_convex f P = Ok true) /\
  ((3 < length f)%nat -> (forall i, In i f -> (i < nsize P)%N) ->
   face_is_convex f P = Ok (forallb (corner_convex f P) (seq 0 (length f)))).
Proof.
  intros HP. split; intros Hd.
  - unfold face_is_convex. destruct (Nat.ltb_spec (length P) (length f)); [lia|]. rewrite Hd. reflexivity.
  - intros Hi. rewrite is_convex_loop by auto. apply loop_value; auto; [lia|].
    intros j Hj. assert (f <> []) by (destruct f; cbn in *; [lia|congruence]).
    repeat split; apply Hi, cyc_In; auto.
Qed.
Lemma C11_throws_proof f P :
  (face_is_convex f P = Throw OutOfRange <->
   (length P < length f)%nat \/ (length f < 3)%nat \/
   ((3 < length f)%nat /\ exists i, (i < length f)%nat /\
      (forall j, (j < i)%nat -> corner_exists f P j /\ corner_convex f P j = true) /\ ~ corner_exists f P i)) /\
  (face_is_convex f P <> UB) /\ (forall e, face_is_convex f P = Throw e -> e = OutOfRange).
Proof.
  destruct (Nat.lt_ge_cases (length P) (length f)) as [HP|HP].
  { assert (face_is_convex f P = Throw OutOfRange) as ->.
    { unfold face_is_convex. destruct (Nat.ltb_spec (length P) (length f)); [auto|lia]. }
    repeat split; auto; congruence. }
  destruct (Nat.lt_ge_cases (length f) 3) as [Hd|Hd].
  { assert (face_is_convex f P = Throw OutOfRange) as ->.
    { unfold face_is_convex. destruct (Nat.ltb_spec (length P) (length f)); [lia|].
      destruct (Nat.ltb_spec (length f) 3); [auto|lia]. }
    repeat split; auto; congruence. }
  destruct (Nat.eq_dec (length f) 3) as [E|E].
  { destruct (C11_value_proof f P HP) as [-> _]; auto.
    split; [|split; congruence]. split; [congruence|]. intros [?|[?|[? _]]]; lia. }
  rewrite is_convex_loop by lia. split; [|split].
  - rewrite loop_throw_iff by lia. split.
    + intros (j & Hj & Hl & Hn). right; right. split; [lia|]. exists j. split; [lia|]. split; auto.
      intros; apply Hl; lia.
    + intros [?|[?|[_ (j & Hj & Hl & Hn)]]]; [lia|lia|]. exists j. split; [lia|]. split; auto.
      intros; apply Hl; lia.
  - destruct (loop_outcome f P (first_normal f P) Hd (length f) 0 eq_refl) as [[b Hb]|Hb]; rewrite Hb; congruence.
  - intros e. destruct (loop_outcome f P (first_normal f P) Hd (length f) 0 eq_refl) as [[b Hb]|Hb]; rewrite Hb; congruence.
Qed.

(** ** C12: fans *)
Lemma map_nth_seq (f : list N) : forall n k, (k + n <= length f)%nat ->
  map (fun i => nth i f 0%N) (seq k n) = firstn n (skipn k f).
Proof.
  induction n as [|n IH]; intros k H; cbn [seq map firstn]; auto.
  rewrite IH by lia. destruct (skipn k f) as [|a l] eqn:E.
  { apply (f_equal (@length N)) in E. rewrite skipn_length in E. cbn in E. lia. }
  assert (nth_error f k = Some a) as Ha.
  { rewrite <- (Nat.add_0_r k), <- nth_error_skipn, E. reflexivity. }
  f_equal. { apply nth_error_nth; auto. }
  assert (skipn (S k) f = l) as ->; auto.
  clear - E. revert k E. induction f as [|b f IHf]; intros k E; [destruct k; discriminate|].
  destruct k; cbn in *; [congruence|]. apply IHf in E. cbn in E. auto.
Qed.
Lemma map_cyc_seq f n k : (k + n <= length f)%nat -> map (cyc f) (seq k n) = firstn n (skipn k f).
Proof.
  intros H. rewrite <- map_nth_seq by auto. apply map_ext_in. intros i Hi. apply in_seq in Hi.
  unfold cyc. rewrite Nat.mod_small by lia. reflexivity.
Qed.
Lemma fan_pairs_spec l : fan_pairs l = combine l (tl l).
Proof.
  induction l as [|a l IH]; auto. destruct l as [|b l]; auto.
  change (fan_pairs (a :: b :: l)) with ((a, b) :: fan_pairs (b :: l)). rewrite IH. reflexivity.
Qed.
Lemma combine_map_seq (g h : nat -> N) l : combine (map g l) (map h l) = map (fun i => (g i, h i)) l.
Proof. induction l; cbn; congruence. Qed.
Lemma combine_firstn_short {A B} (l : list A) (l' : list B) : combine l l' = combine (firstn (length l') l) l'.
Proof. revert l'; induction l as [|a l IH]; intros [|b l']; cbn; auto. rewrite <- IH. reflexivity. Qed.
Lemma fan_pairs_fan a l : (2 <= length l)%nat ->
  map (fun bc => (a, fst bc, snd bc)) (fan_pairs l) = fan (a :: l).
Proof.
  intros H. unfold fan. rewrite fan_pairs_spec, combine_firstn_short.
  assert (length (tl l) = length l - 1)%nat as -> by (destruct l; cbn; lia).
  assert (firstn (length l - 1) l = map (cyc (a :: l)) (map (fun i => i + 1)%nat (seq 0 (length l - 1)))) as ->.
  { assert (map (fun i => i + 1)%nat (seq 0 (length l - 1)) = seq 1 (length l - 1)) as ->.
    { rewrite <- seq_shift. apply map_ext. intros; lia. }
    rewrite map_cyc_seq by (cbn; lia). reflexivity. }
  assert (tl l = map (cyc (a :: l)) (map (fun i => i + 2)%nat (seq 0 (length l - 1)))) as ->.
  { assert (map (fun i => i + 2)%nat (seq 0 (length l - 1)) = seq 2 (length l - 1)) as ->.
    { rewrite <- (seq_shift _ 1), <- seq_shift, map_map. apply map_ext. intros; lia. }
    rewrite map_cyc_seq by (cbn [length]; lia). cbn. destruct l as [|b l]; [cbn in H; lia|]. cbn.
    rewrite Nat.sub_0_r. symmetry; apply firstn_all. }
  rewrite !map_map, combine_map_seq, map_map. cbn [length].
  replace (S (length l) - 2)%nat with (length l - 1)%nat by lia.
  apply map_ext. intros i. rewrite cyc_0. reflexivity.
Qed.

(** edges of a fan *)
Fixpoint diag (a : N) (l : list N) : list (N * N) :=
  match l with c :: ((_ :: _) as l') => (a, c) :: (c, a) :: diag a l' | _ => [] end.
Lemma fan_edges_ind a : forall l b, l <> [] ->
  Permutation (flat_map tri_edges (map (fun bc => (a, fst bc, snd bc)) (fan_pairs (b :: l))))
              ((a, b) :: path_edges b (l ++ [a]) ++ diag a l).
Proof.
  induction l as [|c l IH]; intros b Hl; [congruence|].
  change (fan_pairs (b :: c :: l)) with ((b, c) :: fan_pairs (c :: l)).
  cbn [map flat_map tri_edges fst snd app path_edges].
  apply perm_skip, perm_skip.
  destruct l as [|d l]; [cbn; apply perm_skip; reflexivity|].
  rewrite (IH c) by discriminate.
  change (diag a (c :: d :: l)) with ((a, c) :: (c, a) :: diag a (d :: l)).
  rewrite (Permutation_app_comm (path_edges c ((d :: l) ++ [a])) ((a, c) :: (c, a) :: diag a (d :: l))).
  cbn [app]. rewrite perm_swap. apply perm_skip, perm_skip. apply Permutation_app_comm.
Qed.
Lemma diag_removelast a l : diag a l = flat_map (fun c => [(a, c); (c, a)]) (removelast l).
Proof.
  induction l as [|c l IH]; auto. destruct l as [|d l]; auto.
  change (removelast (c :: d :: l)) with (c :: removelast (d :: l)).
  change (diag a (c :: d :: l)) with ((a, c) :: (c, a) :: diag a (d :: l)). rewrite IH. reflexivity.
Qed.
Lemma flat_map_map {A B C} (g : B -> list C) (h : A -> B) l : flat_map g (map h l) = flat_map (fun x => g (h x)) l.
Proof. induction l; cbn; congruence. Qed.
Lemma fan_edges f : (3 <= length f)%nat ->
  Permutation (flat_map tri_edges (fan f)) (cycle_edges f ++ diagonals f).
Proof.
  intros H. destruct f as [|a [|b l]]; cbn in H; try lia.
  assert (l <> []) as Hl by (destruct l; cbn in *; [lia|congruence]).
  rewrite <- (fan_pairs_fan a (b :: l)) by (cbn; lia).
  rewrite fan_edges_ind by auto. rewrite cycle_path. cbn [app path_edges].
  apply perm_skip. apply Permutation_app_head.
  rewrite diag_removelast. unfold diagonals.
  assert (removelast l = map (cyc (a :: b :: l)) (seq 2 (length (a :: b :: l) - 3))) as ->.
  { rewrite map_cyc_seq by (cbn [length] in *; lia). cbn [skipn length].
    replace (S (S (length l)) - 3)%nat with (pred (length l)) by lia. apply removelast_firstn_len. }
  rewrite flat_map_map. rewrite cyc_0. reflexivity.
Qed.


Lemma fan_face_ok P a b c : (a < nsize P)%N -> (b < nsize P)%N -> (c < nsize P)%N ->
  exists lf, fan_face P a b c = Ok lf /\ lf_tri lf = word_tri (a, b, c) /\
    let n := normal_to (pt P a) (pt P b) (pt P c) in
    lf_nx lf = f32_of_dbl (vx n) /\ lf_ny lf = f32_of_dbl (vy n) /\ lf_nz lf = f32_of_dbl (vz n).
Proof.
  intros Ha Hb Hc. unfold fan_face. rewrite !pt_ok by auto. cbn [bind]. eexists; split; [reflexivity|]. cbn. auto.
Qed.
Lemma fan_pairs_In l bc : In bc (fan_pairs l) -> In (fst bc) l /\ In (snd bc) l.
Proof.
  rewrite fan_pairs_spec. destruct bc as [b c]. intros H. cbn. split.
  - eapply in_combine_l; eauto.
  - apply in_combine_r in H. destruct l; cbn in *; [auto|right; auto].
Qed.
Lemma word_small n : (n < 65536)%N -> word n = n.
Proof. intros. unfold word. apply N.mod_small. auto. Qed.

Lemma C12_fan_proof f P :
  (length f <= length P)%nat -> (forall i, In i f -> (i < nsize P)%N) ->
  (face_is_convex f P = Ok true -> exists lfs,
     face_to_3ds f P = Ok lfs /\ length lfs = (length f - 2)%nat /\
     map lf_tri lfs = map word_tri (fan f) /\
     ((forall i, In i f -> (i < 65536)%N) ->
       map lf_tri lfs = fan f /\
       Permutation (flat_map (fun lf => tri_edges (lf_tri lf)) lfs) (cycle_edges f ++ diagonals f))) /\
  (face_is_convex f P = Ok false -> face_to_3ds f P = Throw LogicError).
Proof.
  intros HP Hi. split; intros Hc.
  - assert (3 <= length f)%nat as Hd.
    { destruct (Nat.lt_ge_cases (length f) 3); auto. exfalso.
      assert (face_is_convex f P = Throw OutOfRange) by (apply C11_throws_proof; auto). congruence. }
    unfold face_to_3ds. destruct (Nat.ltb_spec (length P) (length f)); [lia|]. rewrite Hc. cbn [bind].
    destruct f as [|a l]; [cbn in Hd; lia|]. cbn [length] in Hd.
    assert (forall ps, (forall bc, In bc ps -> In bc (fan_pairs l)) -> exists lfs,
      omapM (fun bc => fan_face P a (fst bc) (snd bc)) ps = Ok lfs /\
      map lf_tri lfs = map word_tri (map (fun bc => (a, fst bc, snd bc)) ps)) as Hps.
    { induction ps as [|bc ps IH]; intros Hin; [exists []; auto|].
      destruct (fan_pairs_In l bc) as [Hb1 Hb2]; [apply Hin; left; auto|].
      destruct (fan_face_ok P a (fst bc) (snd bc)) as (lf & E1 & E2 & _);
        try (apply Hi; cbn; auto).
      destruct IH as (lfs & E3 & E4); [intros; apply Hin; right; auto|].
      exists (lf :: lfs). cbn [omapM map]. rewrite E1. cbn [bind]. rewrite E3. cbn [bind].
      rewrite E2, E4. auto. }
    destruct (Hps (fan_pairs l)) as (lfs & E1 & E2); auto.
    rewrite fan_pairs_fan in E2 by lia.
    exists lfs. split; [exact E1|].
    assert (length lfs = length (a :: l) - 2)%nat as Hlen.
    { apply (f_equal (@length _)) in E2. rewrite !map_length in E2. rewrite E2. unfold fan.
      rewrite map_length, seq_length. reflexivity. }
    repeat split; auto.
    + intros. rewrite E2. rewrite <- (map_id (fan (a :: l))) at 2.
      apply map_ext_in. intros [[x y] z] Hin. unfold fan in Hin. apply in_map_iff in Hin as (i & Ei & _).
      inversion Ei; subst. unfold word_tri. rewrite !word_small by (apply H0, cyc_In; discriminate). reflexivity.
    + rewrite <- flat_map_map, E2.
      replace (map word_tri (fan (a :: l))) with (fan (a :: l)); [apply fan_edges; cbn; lia|].
      rewrite <- (map_id (fan (a :: l))) at 1.
      apply map_ext_in. intros [[x y] z] Hin. unfold fan in Hin. apply in_map_iff in Hin as (i & Ei & _).
      inversion Ei; subst. unfold word_tri. rewrite !word_small by (apply H0, cyc_In; discriminate). reflexivity.
  - unfold face_to_3ds. destruct (Nat.ltb_spec (length P) (length f)); [lia|]. rewrite Hc. reflexivity.
Qed.

(** ** C13-C15: whole meshes *)
Lemma sum_deg_cons k f F : sum_deg k (f :: F) = (length f - k + sum_deg k F)%nat.
Proof. reflexivity. Qed.

Lemma slots_sum (F : list face) : forall z, (forall f, In f F -> (2 <= length f)%nat) ->
  fold_left (fun s f => (s + Z.of_nat (length f) - 2)%Z) F z = (z + Z.of_nat (sum_deg 2 F))%Z.
Proof.
  induction F as [|f F IH]; intros z H; [cbn; lia|]. cbn [fold_left]. rewrite sum_deg_cons.
  rewrite IH by (intros; apply H; right; auto).
  assert (2 <= length f)%nat by (apply H; left; auto). lia.
Qed.

Lemma face_to_3ds_Ok f P lfs : face_to_3ds f P = Ok lfs ->
  (3 <= length f)%nat /\ length lfs = (length f - 2)%nat.
Proof.
  unfold face_to_3ds. destruct (Nat.ltb_spec (length P) (length f)); [discriminate|].
  destruct (face_is_convex f P) as [c| |] eqn:Ec; cbn; try discriminate.
  destruct c; [|discriminate]. destruct f as [|a l]; [discriminate|]. intros E.
  assert (3 <= length (a :: l))%nat as Hd.
  { destruct (Nat.lt_ge_cases (length (a :: l)) 3); auto. exfalso.
    assert (face_is_convex (a :: l) P = Throw OutOfRange) by (apply C11_throws_proof; auto). congruence. }
  split; auto. apply omapM_Ok in E. apply Forall2_len in E. rewrite <- E.
  rewrite fan_pairs_spec, combine_length. destruct l; cbn [length tl] in *; lia.
Qed.

Lemma store_faces_Ok P : forall (F : list face) k ts, store_faces P F k = Ok ts ->
  length ts = length F /\ (length F <= k)%nat /\
  forall i f, nth_error F i = Some f -> exists t r, face_to_3ds f P = Ok (t :: r) /\ nth_error ts i = Some t.
Proof.
  induction F as [|f F IH]; intros k ts E; cbn in E.
  - injection E as <-. repeat split; cbn; try lia. intros [|i] f; discriminate.
  - apply bind_Ok in E as (lfs & E1 & E). destruct lfs as [|t r]; [discriminate|].
    destruct k as [|k]; [discriminate|]. apply bind_Ok in E as (ts' & E2 & E). injection E as <-.
    destruct (IH k ts' E2) as (H1 & H2 & H3). cbn. repeat split; try lia.
    intros [|i] g Hg; cbn in *.
    + injection Hg as <-. eauto.
    + apply H3; auto.
Qed.

Lemma mesh_to_3ds_Ok m lm : mesh_to_3ds m = Ok lm ->
  (length (c_str (m_name m)) < 63)%nat /\ (nsize (m_points m) < 65536)%N /\
  lm_name lm = c_str (m_name m) /\ lm_points lm = map pt_to_3ds (m_points m) /\
  (forall f, In f (m_faces m) -> (3 <= length f)%nat) /\
  exists ts, store_faces (m_points m) (m_faces m) (sum_deg 2 (m_faces m)) = Ok ts /\
    lm_faces lm = ts ++ repeat lface_zero (sum_deg 2 (m_faces m) - length ts).
Proof.
  unfold mesh_to_3ds. destruct (Nat.leb_spec 63 (length (c_str (m_name m)))); [discriminate|].
  destruct (N.leb_spec 65536 (nsize (m_points m))); [discriminate|].
  destruct ((slots_3ds (m_faces m) <? 0) || (2147483648 <=? slots_3ds (m_faces m)))%Z eqn:Ek; [discriminate|].
  intros E. apply bind_Ok in E as (ts & Ets & E). injection E as <-.
  assert (forall f, In f (m_faces m) -> (3 <= length f)%nat) as Hd.
  { intros f Hf. apply In_nth_error in Hf as (i & Hi).
    destruct (store_faces_Ok _ _ _ _ Ets) as (_ & _ & H3). destruct (H3 i f Hi) as (t & r & E & _).
    apply face_to_3ds_Ok in E. tauto. }
  assert (Z.to_nat (slots_3ds (m_faces m)) = sum_deg 2 (m_faces m)) as Es.
  { unfold slots_3ds. rewrite slots_sum; [lia|]. intros f Hf; specialize (Hd f Hf); lia. }
  rewrite Es in *. cbn. repeat split; auto. exists ts. auto.
Qed.

Lemma sum_deg_split (F : list face) : (forall f, In f F -> (3 <= length f)%nat) ->
  sum_deg 2 F = (length F + sum_deg 3 F)%nat.
Proof.
  induction F as [|f F IH]; intros H; [reflexivity|]. rewrite !sum_deg_cons. cbn [length]. rewrite IH by (intros; apply H; right; auto).
  specialize (H f (or_introl eq_refl)). lia.
Qed.
Lemma sum_deg3_0 (F : list face) : (forall f, In f F -> (3 <= length f)%nat) ->
  (sum_deg 3 F = 0%nat <-> forall f, In f F -> length f = 3%nat).
Proof.
  induction F as [|f F IH]; intros H; [split; [intros _ f []|intros; reflexivity]|]. rewrite sum_deg_cons.
  rewrite Nat.eq_add_0, IH by (intros; apply H; right; auto).
  specialize (H f (or_introl eq_refl)). split.
  - intros [H1 H2] g [<-|Hg]; [lia|auto].
  - intros Hg. split; [rewrite (Hg f (or_introl eq_refl)); reflexivity|intros g Hg2; apply Hg; right; exact Hg2].
Qed.

Lemma C13_proof m lm : mesh_to_3ds m = Ok lm ->
  length (lm_faces lm) = sum_deg 2 (m_faces m) /\
  (forall k f, nth_error (m_faces m) k = Some f ->
     exists t r, face_to_3ds f (m_points m) = Ok (t :: r) /\ nth_error (lm_faces lm) k = Some t) /\
  (forall k, (length (m_faces m) <= k < sum_deg 2 (m_faces m))%nat -> nth_error (lm_faces lm) k = Some lface_zero) /\
  (sum_deg 2 (m_faces m) = length (m_faces m) <-> forall f, In f (m_faces m) -> length f = 3%nat).
Proof.
  intros E. destruct (mesh_to_3ds_Ok m lm E) as (_ & _ & _ & _ & Hd & ts & Ets & Ef).
  destruct (store_faces_Ok _ _ _ _ Ets) as (Hl & Hle & Hn). rewrite Ef. repeat split.
  - rewrite app_length, repeat_length. lia.
  - intros k f Hk. destruct (Hn k f Hk) as (t & r & H1 & H2). exists t, r. split; auto.
    rewrite nth_error_app1; auto. apply nth_error_Some. congruence.
  - intros k Hk. rewrite nth_error_app2 by lia. apply nth_error_repeat. lia.
  - intros Hs. apply sum_deg3_0; auto. rewrite sum_deg_split in Hs by auto. lia.
  - intros Hs. rewrite sum_deg_split by auto. apply sum_deg3_0 in Hs; auto. lia.
Qed.

(** C15: memory safety *)
Lemma face_to_3ds_no_UB f P : face_to_3ds f P <> UB.
Proof.
  unfold face_to_3ds. destruct (Nat.ltb _ _); [discriminate|].
  destruct (face_is_convex f P) as [c| |] eqn:Ec; cbn; try discriminate.
  2:{ exfalso. apply (proj1 (proj2 (C11_throws_proof f P))). auto. }
  destruct c; [|discriminate]. destruct f as [|a l]; [discriminate|].
  induction (fan_pairs l) as [|bc ps IH]; cbn; [discriminate|].
  assert (forall a b c, fan_face P a b c <> UB) as Hf.
  { intros x y z. unfold fan_face, vatN, vat.
    repeat (match goal with |- context [if ?b then _ else _] => destruct b end;
            match goal with |- context [nth_error ?l ?i] => destruct (nth_error l i) | _ => idtac end;
            cbn; try discriminate). }
  destruct (fan_face P a (fst bc) (snd bc)) eqn:E1; cbn; try discriminate; [|exfalso; eapply Hf; eauto].
  destruct (omapM _ ps) eqn:E2; cbn; try discriminate. congruence.
Qed.
Lemma store_faces_no_UB P : forall (F : list face) k, (forall f, In f F -> (3 <= length f)%nat) -> (length F <= k)%nat ->
  store_faces P F k <> UB.
Proof.
  induction F as [|f F IH]; intros k Hd Hk; cbn; [discriminate|].
  destruct (face_to_3ds f P) as [lfs| |] eqn:E; cbn; try discriminate.
  2:{ exfalso. eapply face_to_3ds_no_UB; eauto. }
  destruct (face_to_3ds_Ok _ _ _ E) as [H1 H2]. destruct lfs as [|t r]; [cbn in H2; lia|].
  destruct k as [|k]; [cbn in Hk; lia|]. cbn in Hk.
  specialize (IH k (fun g Hg => Hd g (or_intror Hg)) ltac:(lia)).
  destruct (store_faces P F k); cbn; congruence.
Qed.
Lemma C15_proof m :
  (forall f, In f (m_faces m) -> (3 <= length f)%nat) ->
  (Z.of_nat (sum_deg 2 (m_faces m)) < 2147483648)%Z ->
  (mesh_to_3ds m = UB <-> (63 <= length (c_str (m_name m)))%nat \/ (65536 <= nsize (m_points m))%N).
Proof.
  intros Hd Hs. unfold mesh_to_3ds.
  destruct (Nat.leb_spec 63 (length (c_str (m_name m)))); [tauto|].
  destruct (N.leb_spec 65536 (nsize (m_points m))); [tauto|].
  assert (slots_3ds (m_faces m) = Z.of_nat (sum_deg 2 (m_faces m))) as Es.
  { unfold slots_3ds. rewrite slots_sum; [lia|]. intros f Hf; specialize (Hd f Hf); lia. }
  rewrite Es. destruct (Z.ltb_spec (Z.of_nat (sum_deg 2 (m_faces m))) 0); [lia|].
  destruct (Z.leb_spec 2147483648 (Z.of_nat (sum_deg 2 (m_faces m)))); [lia|]. cbn [orb].
  split; [|lia]. rewrite Nat2Z.id. intros E. exfalso.
  assert (store_faces (m_points m) (m_faces m) (sum_deg 2 (m_faces m)) <> UB) as Hn.
  { apply store_faces_no_UB; auto. rewrite sum_deg_split by auto. lia. }
  destruct (store_faces _ _ _); cbn in E; congruence.
Qed.

(** C14: round trip of triangle meshes *)

Lemma c_str_no_nul s : ~ In zero s -> c_str s = s.
Proof.
  induction s as [|a s IH]; intros H; cbn; auto.
  destruct (Ascii.eqb_spec a zero) as [->|]; [exfalso; apply H; left; auto|].
  f_equal. apply IH. intros Hi; apply H; right; auto.
Qed.

Lemma face_to_3ds_tri a b c P : (3 <= length P)%nat ->
  (a < nsize P)%N -> (b < nsize P)%N -> (c < nsize P)%N ->
  exists lf, face_to_3ds [a; b; c] P = Ok [lf] /\ lf_tri lf = word_tri (a, b, c) /\
    let n := normal_to (pt P a) (pt P b) (pt P c) in
    lf_nx lf = f32_of_dbl (vx n) /\ lf_ny lf = f32_of_dbl (vy n) /\ lf_nz lf = f32_of_dbl (vz n).
Proof.
  intros HP Ha Hb Hc. unfold face_to_3ds. cbn [length].
  destruct (Nat.ltb_spec (length P) 3); [lia|].
  destruct (C11_value_proof [a;b;c] P) as [-> _]; auto. cbn [bind fan_pairs omapM fst snd].
  destruct (fan_face_ok P a b c Ha Hb Hc) as (lf & -> & H1 & H2). cbn [bind]. eauto.
Qed.

Lemma pt_map {A} P i (g : point -> A) : (i < nsize P)%N -> vidxN (map g P) i = Ok (g (pt P i)).
Proof.
  intros H. apply vidxN_Ok. rewrite nth_error_map. unfold pt.
  rewrite (nth_error_nth' P point_default) by (unfold nsize in H; lia). reflexivity.
Qed.

Lemma C14_proof m :
  (length (c_str (m_name m)) < 63)%nat -> (nsize (m_points m) < 65536)%N ->
  (Z.of_nat (length (m_faces m)) < 2147483648)%Z ->
  mesh_wf m -> (forall f, In f (m_faces m) -> length f = 3%nat) -> (3 <= length (m_points m))%nat ->
  exists lm m', mesh_to_3ds m = Ok lm /\ mesh_of_3ds lm = Ok m' /\
    m_name m' = c_str (m_name m) /\
    m_points m' = map round32_point (m_points m) /\ tight_box (m_points m') (m_bbox m') /\
    Forall2 (fun f f' => exists a b c, f = [a; b; c] /\
               f' = if dltb depsilon (det_3ds (m_points m) a b c) then [a; b; c] else [a; c; b])
            (m_faces m) (m_faces m').
Proof.
  intros Hn HP HF Hwf H3 H3P. destruct m as [nm P F bb]; cbn in *.
  assert (sum_deg 2 F = length F) as Es.
  { rewrite sum_deg_split by (intros f Hf; rewrite (H3 f Hf); lia).
    assert (sum_deg 3 F = 0)%nat; [|lia]. apply sum_deg3_0; auto. intros f Hf; rewrite (H3 f Hf); lia. }
  assert (slots_3ds F = Z.of_nat (length F)) as Esl.
  { unfold slots_3ds. rewrite slots_sum, Es; [lia|]. intros f Hf; rewrite (H3 f Hf); lia. }
  assert (forall G, (forall f, In f G -> In f F) -> exists ts Fs,
    store_faces P G (length G) = Ok ts /\ length ts = length G /\ omapM (face_of_3ds (map round32_point P)) ts = Ok Fs /\
    Forall2 (fun f f' => exists a b c, f = [a; b; c] /\
               f' = if dltb depsilon (det_3ds P a b c) then [a; b; c] else [a; c; b]) G Fs) as Hst.
  { induction G as [|f G IH]; intros Hin; [exists [], []; cbn; auto|].
    destruct IH as (ts & Fs & E1 & E2 & E3 & E4); [intros; apply Hin; right; auto|].
    assert (In f F) as Hf by (apply Hin; left; auto).
    destruct (Hwf f) as [_ Hi]; [exact Hf|]. cbn in Hi.
    pose proof (H3 f Hf) as Hlen.
    destruct f as [|a [|b [|c [|d f]]]]; try discriminate Hlen.
    assert (a < nsize P)%N by (apply Hi; cbn; auto).
    assert (b < nsize P)%N by (apply Hi; cbn; auto).
    assert (c < nsize P)%N by (apply Hi; cbn; auto).
    destruct (face_to_3ds_tri a b c P H3P) as (lf & El & Et & En1 & En2 & En3); auto.
    exists (lf :: ts). eexists. cbn [store_faces length]. rewrite El. cbn [bind]. rewrite E1. cbn [bind].
    split; [reflexivity|]. split; [cbn; lia|]. cbn [omapM]. unfold face_of_3ds at 1.
    unfold lf_tri, word_tri in Et. injection Et as Ea Eb Ec. rewrite Ea, Eb, Ec.
    rewrite !word_small by lia. rewrite !pt_map by auto. cbn [bind]. rewrite E3. cbn [bind].
    split; [reflexivity|]. constructor; auto. exists a, b, c. split; auto.
    rewrite En1, En2, En3. unfold face_tri, det_3ds, round32. cbv zeta. reflexivity. }
  destruct (Hst F) as (ts & Fs & E1 & E2 & E3 & E4); auto.
  exists (mkLMesh (c_str nm) (map pt_to_3ds P) ts).
  exists (mkMesh (c_str nm) (map round32_point P) Fs (compute_bbox (map round32_point P))).
  split.
  { unfold mesh_to_3ds. cbn [m_name m_points m_faces].
    destruct (Nat.leb_spec 63 (length (c_str nm))); [lia|].
    destruct (N.leb_spec 65536 (nsize P)); [lia|]. rewrite Esl.
    destruct (Z.ltb_spec (Z.of_nat (length F)) 0); [lia|].
    destruct (Z.leb_spec 2147483648 (Z.of_nat (length F))); [lia|]. cbn [orb].
    rewrite Nat2Z.id, E1. cbn [bind]. rewrite E2, Nat.sub_diag. cbn [repeat]. rewrite app_nil_r. reflexivity. }
  split; [|cbn [m_points m_bbox]; auto using compute_bbox_tight]. unfold mesh_of_3ds. cbn [lm_points lm_faces lm_name]. rewrite map_map.
  change (fun x => pt_of_3ds (pt_to_3ds x)) with round32_point. rewrite E3. reflexivity.
Qed.

Lemma C14_degenerate_proof P a b c :
  let v := v_cross (vec_pp (pt P a) (pt P b)) (vec_pp (pt P b) (pt P c)) in
  is_zero (vx v) -> is_zero (vy v) -> is_zero (vz v) ->
  dltb depsilon (det_3ds P a b c) = false.
Proof.
  cbv zeta. intros Hx Hy Hz. unfold det_3ds. rewrite normal_zero by auto. cbn [vx vy vz].
  change (round32 dnan) with dnan. rewrite v_det_nan. reflexivity.
Qed.
