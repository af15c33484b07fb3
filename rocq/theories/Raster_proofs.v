(** * Proofs about rasters *)
From Coq Require Import Qround Lqa.
From Verif Require Import Base Dbl Geom Decimal Shadow Streams Handlers Surface Projection Spec_projection Strip Raster Spec_raster.
Open Scope nat_scope.

(** ** Lists *)
Lemma set_nth_length {A} (l : list A) k a : k < length l -> length (set_nth l k a) = length l.
Proof. intros H. unfold set_nth. rewrite app_length. cbn [length]. rewrite firstn_length, skipn_length. lia. Qed.
Lemma set_nth_same {A} (l : list A) k a : k < length l -> nth_error (set_nth l k a) k = Some a.
Proof.
  intros H. unfold set_nth. rewrite nth_error_app2; rewrite firstn_length.
  - replace (k - min k (length l)) with 0 by lia. reflexivity.
  - lia.
Qed.
Lemma nth_firstn {A} (l : list A) : forall k m, m < k -> nth_error (firstn k l) m = nth_error l m.
Proof. induction l as [|x l IH]; intros [|k] [|m] H; cbn; auto; try lia. apply IH. lia. Qed.
Lemma nth_skipn {A} (l : list A) : forall k m, nth_error (skipn k l) m = nth_error l (k + m).
Proof. induction l as [|x l IH]; intros [|k] m; cbn; auto. destruct m; reflexivity. Qed.
Lemma set_nth_other {A} (l : list A) k m a : k < length l -> m <> k -> nth_error (set_nth l k a) m = nth_error l m.
Proof.
  intros H N. unfold set_nth. destruct (Nat.lt_ge_cases m k).
  - rewrite nth_error_app1 by (rewrite firstn_length; lia). apply nth_firstn; auto.
  - rewrite nth_error_app2; rewrite firstn_length; [|lia].
    replace (m - min k (length l)) with (S (m - S k)) by lia. cbn [nth_error]. rewrite nth_skipn. f_equal. lia.
Qed.
Lemma vatN_Ok {A} (l : list A) k a : nth_error l (N.to_nat k) = Some a -> vatN l k = Ok a.
Proof.
  intros H. unfold vatN, vat, nsize. assert (N.to_nat k < length l) by (apply nth_error_Some; congruence).
  replace (k <? N.of_nat (length l))%N with true by (symmetry; apply N.ltb_lt; lia). rewrite H. reflexivity.
Qed.
Lemma vatN_out {A} (l : list A) k : (nsize l <= k)%N -> vatN l k = Throw OutOfRange.
Proof. intros H. unfold vatN. replace (k <? nsize l)%N with false; auto. symmetry. apply N.ltb_ge; auto. Qed.
Lemma In_iota n k : In k (iota n) <-> (k < n)%N.
Proof.
  unfold iota. rewrite in_map_iff. split.
  - intros (m & <- & H). apply in_seq in H. lia.
  - intros H. exists (N.to_nat k). rewrite N2Nat.id, in_seq. lia.
Qed.
Lemma NoDup_iota n : NoDup (iota n).
Proof. unfold iota. apply FinFun.Injective_map_NoDup; [intros a b; lia|apply seq_NoDup]. Qed.
Lemma wrap64_small n : (n < two64)%N -> wrap64 n = n.
Proof. intros H. apply N.mod_small; auto. Qed.

(** ** Floors and ceilings *)
Lemma this_plus a b : (this (a + b)%Qc == this a + this b)%Q.
Proof. apply Qred_correct. Qed.
Lemma this_opp a : (this (- a)%Qc == - this a)%Q.
Proof. apply Qred_correct. Qed.
Lemma this_minus a b : (this (a - b)%Qc == this a - this b)%Q.
Proof. unfold Qcminus. rewrite this_plus, this_opp. reflexivity. Qed.
Lemma this_0 : this 0%Qc = 0%Q. Proof. reflexivity. Qed.
Lemma this_1 : this 1%Qc = 1%Q. Proof. reflexivity. Qed.
(** linear order reasoning *)
Ltac ql := unfold Qclt, Qcle in *; repeat first [rewrite this_minus in *|rewrite this_plus in *|rewrite this_opp in *|rewrite this_0 in *|rewrite this_1 in * ]; lra.
Lemma this_qz z : (this (qz z) == inject_Z z)%Q.
Proof. unfold qz. cbn [this]. apply Qred_correct. Qed.
Lemma qz_le a b : (qz a <= qz b)%Qc <-> (a <= b)%Z.
Proof. unfold Qcle. rewrite !this_qz, <- Zle_Qle. reflexivity. Qed.
Lemma qz_lt a b : (qz a < qz b)%Qc <-> (a < b)%Z.
Proof. unfold Qclt. rewrite !this_qz, <- Zlt_Qlt. reflexivity. Qed.
Lemma qz_plus a b : qz (a + b) = (qz a + qz b)%Qc.
Proof.
  apply Qc_is_canon. rewrite this_qz, inject_Z_plus. unfold Qcplus.
  change (this (Q2Qc (this (qz a) + this (qz b)))) with (Qred (this (qz a) + this (qz b))). rewrite (Qred_correct (this (qz a) + this (qz b))), !this_qz. reflexivity.
Qed.
Lemma qz_inj a b : qz a = qz b -> a = b.
Proof. intros E. assert (H1 : (qz a <= qz b)%Qc) by (rewrite E; apply Qcle_refl). assert (H2 : (qz b <= qz a)%Qc) by (rewrite E; apply Qcle_refl). pose proof (proj1 (qz_le _ _) H1). pose proof (proj1 (qz_le _ _) H2). clear E. lia. Qed.
Lemma qn_le a b : (qn a <= qn b)%Qc <-> (a <= b)%N.
Proof. unfold qn. rewrite qz_le. lia. Qed.
Lemma qn_lt a b : (qn a < qn b)%Qc <-> (a < b)%N.
Proof. unfold qn. rewrite qz_lt. lia. Qed.
Lemma qn_plus a b : qn (a + b) = (qn a + qn b)%Qc.
Proof. unfold qn. rewrite N2Z.inj_add. apply qz_plus. Qed.
Lemma qn_1 : qn 1 = 1%Qc.
Proof. apply Qceqb_eq. reflexivity. Qed.
Lemma qn_0 : qn 0 = 0%Qc.
Proof. apply Qceqb_eq. reflexivity. Qed.
Lemma qn_nonneg a : (0 <= qn a)%Qc.
Proof. rewrite <- qn_0. apply qn_le. lia. Qed.
Lemma Qcmult_div a s : (0 < s)%Qc -> (a / s * s = a)%Qc.
Proof. intros H. field. intros E. rewrite E in H. apply Qclt_not_le in H. apply H. apply Qcle_refl. Qed.
Lemma Qcle_scale s a b : (0 < s)%Qc -> (a <= b)%Qc <-> (a * s <= b * s)%Qc.
Proof.
  intros H. split; intros L.
  - apply Qcmult_le_compat_r; auto. apply Qclt_le_weak; auto.
  - apply Qcnot_lt_le. intros L'. apply Qclt_not_le in L'. apply L'. clear L'.
    apply Qcmult_lt_0_le_reg_r with s; auto.
Qed.
Lemma Qclt_scale s a b : (0 < s)%Qc -> (a < b)%Qc <-> (a * s < b * s)%Qc.
Proof.
  intros H. split; intros L.
  - apply Qcnot_le_lt. intros L'. apply (Qcle_scale s b a H) in L'. apply Qclt_not_le in L. auto.
  - apply Qcnot_le_lt. intros L'. apply (Qcle_scale s b a H) in L'. apply Qclt_not_le in L. auto.
Qed.
Lemma floor_steps d s : (0 < s)%Qc -> (0 <= d)%Qc -> (Qfloor (this (d / s)%Qc) < 18446744073709551616)%Z ->
  exists n, n_floor exact (d / s)%Qc = Ok n /\ steps d s n.
Proof.
  intros Hs Hd HB. set (q := (d / s)%Qc) in *.
  assert (E : (d = q * s)%Qc) by (unfold q; rewrite Qcmult_div; auto).
  assert (0 <= q)%Qc. { apply (Qcle_scale s); auto. rewrite <- E. replace (0 * s)%Qc with 0%Qc by ring. auto. }
  assert (F0 : (0 <= Qfloor (this q))%Z). { change 0%Z with (Qfloor 0). apply Qfloor_resp_le. exact H. }
  exists (Z.to_N (Qfloor (this q))). split.
  - cbn [n_floor exact]. unfold to_size. replace ((0 <=? Qfloor (this q)) && (Qfloor (this q) <? 18446744073709551616))%Z with true by lia. reflexivity.
  - unfold steps, qn. rewrite Z2N.id by auto. rewrite E. split.
    + apply Qcle_scale; auto. unfold Qcle. rewrite this_qz. apply Qfloor_le.
    + apply Qclt_scale; auto. rewrite <- (qz_plus _ 1 : _ = (_ + 1)%Qc). unfold Qclt. rewrite this_qz. apply Qlt_floor.
Qed.
Lemma ceil_cells d s n : (0 < s)%Qc -> cells d s n -> (n < two64)%N -> (0 <= d)%Qc -> n_ceil exact (d / s)%Qc = Ok n.
Proof.
  intros Hs [C1 C2] HB Hd. set (q := (d / s)%Qc) in *.
  assert (E : (d = q * s)%Qc) by (unfold q; rewrite Qcmult_div; auto).
  assert (0 <= q)%Qc. { apply (Qcle_scale s); auto. rewrite <- E. replace (0 * s)%Qc with 0%Qc by ring. auto. }
  assert (F0 : (0 <= Qceiling (this q))%Z). { change 0%Z with (Qceiling 0). apply Qceiling_resp_le. exact H. }
  assert (En : Qceiling (this q) = Z.of_N n).
  { apply Z.le_antisymm.
    - rewrite <- (Qceiling_Z (Z.of_N n)). apply Qceiling_resp_le. rewrite <- this_qz. change (q <= qn n)%Qc.
      apply (Qcle_scale s); auto. rewrite <- E. auto.
    - specialize (C2 (Z.to_N (Qceiling (this q)))). enough (n <= Z.to_N (Qceiling (this q)))%N by lia. apply C2.
      rewrite E. unfold qn. rewrite Z2N.id by auto. apply Qcle_scale; auto. unfold Qcle. rewrite this_qz. apply Qle_ceiling. }
  cbn [n_ceil exact]. unfold to_size. rewrite En. unfold two64 in HB.
  replace ((0 <=? Z.of_N n) && (Z.of_N n <? 18446744073709551616))%Z with true by lia. f_equal. lia.
Qed.
Lemma cells_ex d s : (0 < s)%Qc -> (0 <= d)%Qc -> exists n, cells d s n.
Proof.
  intros Hs Hd. set (q := (d / s)%Qc) in *.
  assert (E : (d = q * s)%Qc) by (unfold q; rewrite Qcmult_div; auto).
  assert (0 <= q)%Qc. { apply (Qcle_scale s); auto. rewrite <- E. replace (0 * s)%Qc with 0%Qc by ring. auto. }
  assert (F0 : (0 <= Qceiling (this q))%Z). { change 0%Z with (Qceiling 0). apply Qceiling_resp_le. exact H. }
  exists (Z.to_N (Qceiling (this q))). split.
  - rewrite E. unfold qn. rewrite Z2N.id by auto. apply Qcle_scale; auto. unfold Qcle. rewrite this_qz. apply Qle_ceiling.
  - intros m Hm. rewrite E in Hm. apply (Qcle_scale s) in Hm; auto.
    assert (L : (Qceiling (this q) <= Z.of_N m)%Z). { rewrite <- (Qceiling_Z (Z.of_N m)). apply Qceiling_resp_le. rewrite <- this_qz. exact Hm. }
    lia.
Qed.
Lemma cells_fun d s n m : cells d s n -> cells d s m -> n = m.
Proof. intros [A1 A2] [B1 B2]. specialize (A2 _ B1). specialize (B2 _ A1). lia. Qed.
Lemma steps_fun d s n m : (0 < s)%Qc -> steps d s n -> steps d s m -> n = m.
Proof.
  intros H [A1 A2] [B1 B2].
  assert (n < m + 1)%N. { apply qn_lt. rewrite qn_plus, qn_1. apply (Qclt_scale s); auto. eapply Qcle_lt_trans; eauto. }
  assert (m < n + 1)%N. { apply qn_lt. rewrite qn_plus, qn_1. apply (Qclt_scale s); auto. eapply Qcle_lt_trans; eauto. }
  lia.
Qed.
(** the key bound: whole steps before a length, and the cells of the length, fit in the cells
    of the whole *)
Lemma bound_cells d len tot s i0 h H : (0 < s)%Qc -> steps d s i0 -> cells len s h -> cells tot s H -> (d + len <= tot)%Qc -> (0 <= len)%Qc -> (i0 + h <= H)%N.
Proof.
  intros Hs [S1 S2] [C1 C2] [T1 T2] L L0.
  destruct (N.eq_dec h 0) as [->|Hh].
  - rewrite N.add_0_r. apply qn_le. apply (Qcle_scale s); auto.
    apply Qcle_trans with d; auto. apply Qcle_trans with tot; auto. revert L L0. clear. intros. ql.
  - assert (X : (qn (h - 1) * s < len)%Qc). { apply Qcnot_le_lt. intros X. apply C2 in X. lia. }
    enough (i0 + (h - 1) < H)%N by lia. apply qn_lt. rewrite qn_plus. apply (Qclt_scale s); auto.
    replace ((qn i0 + qn (h - 1)) * s)%Qc with (qn i0 * s + qn (h - 1) * s)%Qc by ring.
    clear - S1 X T1 L. generalize dependent (qn i0 * s)%Qc. generalize dependent (qn (h - 1) * s)%Qc. generalize dependent (qn H * s)%Qc. intros. ql.
Qed.

(** ** Centroids and heights *)
Lemma unique_squeezed (l : list p2) : squeezed l (unique (fun a b => Qceqb (x2 a) (x2 b) && Qceqb (y2 a) (y2 b)) l).
Proof.
  induction l as [|a l IH]; [constructor|]. destruct l as [|b l]; [constructor|].
  change (unique ?e (a :: b :: l)) with (if e a b then a :: tl (unique e (b :: l)) else a :: unique e (b :: l)).
  match goal with |- context [if ?c then _ else _] => destruct c eqn:E end.
  - apply andb_true_iff in E as [E1 E2]. apply Qceqb_eq in E1, E2.
    assert (a = b) by (destruct a, b; cbn in *; congruence). subst b.
    assert (X : forall m, squeezed (a :: l) m -> a :: tl m = m).
    { clear. intros m H. remember (a :: l) as w. revert a l Heqw. induction H; intros ? ? E; inversion E; subst; auto.
      eapply IHsqueezed; eauto. }
    rewrite (X _ IH). constructor. exact IH.
  - apply sq_keep; auto. intros ->. assert (Qceqb (x2 b) (x2 b) = true) by (apply Qceqb_eq; auto).
    assert (Qceqb (y2 b) (y2 b) = true) by (apply Qceqb_eq; auto). rewrite H, H0 in E. discriminate.
Qed.
Lemma unique_map {X Y} (f : X -> Y) e (l : list X) : unique e (map f l) = map f (unique (fun a b => e (f a) (f b)) l).
Proof.
  induction l as [|a l IH]; auto. destruct l as [|b l]; auto.
  change (unique ?e' (a :: b :: l)) with (if e' a b then a :: tl (unique e' (b :: l)) else a :: unique e' (b :: l)).
  change (map f (a :: b :: l)) with (f a :: map f (b :: l)).
  change (unique e (f a :: map f (b :: l))) with (if e (f a) (f b) then f a :: tl (unique e (map f (b :: l))) else f a :: unique e (map f (b :: l))).
  rewrite IH. destruct (e (f a) (f b)); cbn [map]; auto. f_equal. destruct (unique _ (b :: l)); reflexivity.
Qed.
Lemma squeezed_fun {X} (l m n : list X) : squeezed l m -> squeezed l n -> m = n.
Proof.
  intros H. revert n. induction H; intros n' H'.
  - inversion H'; auto.
  - inversion H'; auto.
  - inversion H'; subst; auto. congruence.
  - inversion H'; subst; [congruence|]. f_equal. auto.
Qed.
Lemma squeezed_nonempty {X} (l m : list X) : squeezed l m -> l <> [] -> m <> [].
Proof. induction 1; intros N; auto; try discriminate. apply IHsqueezed. discriminate. Qed.
Lemma qn_nonzero n : (n <> 0)%N -> qn n <> 0%Qc.
Proof. intros H E. rewrite <- qn_0 in E. apply qz_inj in E. lia. Qed.
Lemma qn_pos n : (0 < n)%N -> (0 < qn n)%Qc.
Proof. intros H. rewrite <- qn_0. apply qn_lt; auto. Qed.
Lemma mean_point_spec l : l <> [] -> exists c, mean_point exact (map (fun p => (x2 p, y2 p)) l) = Ok (x2 c, y2 c) /\ mean l c.
Proof.
  intros H. assert (Hn : qn (nsize l) <> 0%Qc). { apply qn_nonzero. unfold nsize. destruct l; [congruence|]. cbn [length]. lia. }
  exists (P2 (qsum (map x2 l) / qn (nsize l)) (qsum (map y2 l) / qn (nsize l))). split.
  - assert (U : mean_point exact (map (fun p => (x2 p, y2 p)) l) =
      Ok (fold_left Qcplus (map fst (map (fun p => (x2 p, y2 p)) l)) (qz 0) / qz (Z.of_nat (length (map (fun p => (x2 p, y2 p)) l))),
          fold_left Qcplus (map snd (map (fun p => (x2 p, y2 p)) l)) (qz 0) / qz (Z.of_nat (length (map (fun p => (x2 p, y2 p)) l))))%Qc).
    { destruct l; [congruence|reflexivity]. }
    rewrite U. clear U. set (L := l) in *.
    rewrite !map_map, map_length. cbn [fst snd exact n_add n_of n_div x2 y2].
    pose proof (fold_left_qsum (fun x => x) (map x2 L) (qz 0)) as E1. pose proof (fold_left_qsum (fun x => x) (map y2 L) (qz 0)) as E2.
    rewrite map_id in E1, E2. replace (qz 0) with 0%Qc in * by (apply Qceqb_eq; reflexivity).
    change (fun t x : Qc => (t + x)%Qc) with Qcplus in E1, E2.
    replace (map (fun x : p2 => x2 x) L) with (map x2 L) by reflexivity. replace (map (fun x : p2 => y2 x) L) with (map y2 L) by reflexivity.
    cbn [num exact] in *. rewrite E1, E2. unfold qn, nsize. rewrite nat_N_Z. do 2 f_equal; f_equal; ring.
  - split; auto. cbn [x2 y2]. split; field; auto.
Qed.
Lemma Qc_cancel k a b : k <> 0%Qc -> (a * k = b * k)%Qc -> a = b.
Proof. intros H E. replace a with (a * k / k)%Qc by (field; auto). rewrite E. field; auto. Qed.
Lemma mean_fun l c d : mean l c -> mean l d -> c = d.
Proof.
  intros (H & X & Y) (_ & X' & Y'). assert (Hn : qn (nsize l) <> 0%Qc). { apply qn_nonzero. unfold nsize. destruct l; [congruence|]. cbn [length]. lia. }
  destruct c as [cx cy], d as [dx dy]; cbn [x2 y2] in *. f_equal.
  - apply (Qc_cancel (qn (nsize l))); auto. congruence.
  - apply (Qc_cancel (qn (nsize l))); auto. congruence.
Qed.
Lemma centroid_exact l : l <> [] -> exists c, centroid exact l = Ok (x2 c, y2 c) /\ vertex_mean l c.
Proof.
  intros H. unfold centroid. cbn [n_ofq exact n_eqb].
  pose proof (unique_map (fun p => (x2 p, y2 p)) (fun a b => Qceqb (fst a) (fst b) && Qceqb (snd a) (snd b)) l) as E.
  cbn [fst snd] in E. pose proof (unique_squeezed l) as S. set (m := unique _ l) in *.
  destruct (mean_point_spec m (squeezed_nonempty _ _ S H)) as (c & E' & M).
  exists c. split; [|exists m; auto]. cbn [num exact] in *. unfold ip2 in *. rewrite E. exact E'.
Qed.
Definition steep (f : face2) : Prop := (epsilon <= pl_c (f_plane f) \/ pl_c (f_plane f) <= - epsilon)%Qc.
Lemma epsilon_pos : (0 < epsilon)%Qc.
Proof. reflexivity. Qed.
Lemma steep_nonzero f : steep f -> pl_c (f_plane f) <> 0%Qc.
Proof. intros [H|H] E; rewrite E in H; revert H; apply Qclt_not_le; reflexivity. Qed.
Lemma iplane_exact f (p : Qc * Qc) : steep f -> exists z, iplane_height exact f p = Ok z /\ on_plane (f_plane f) (P3 (fst p) (snd p) z).
Proof.
  intros H. pose proof (steep_nonzero f H) as Hc. unfold iplane_height. cbn [n_ltb n_abs n_ofq exact n_div n_sub n_mul n_of].
  replace (Qcltb (Qcabs (pl_c (f_plane f))) epsilon) with false.
  - exists ((qz (-1) * pl_d (f_plane f) - pl_a (f_plane f) * fst p - pl_b (f_plane f) * snd p) / pl_c (f_plane f))%Qc. split; [reflexivity|]. unfold on_plane. cbn [x3 y3 z3]. replace (qz (-1)) with (- (1))%Qc by (apply Qceqb_eq; reflexivity). field. exact Hc.
  - symmetry. apply Qcltb_ge. unfold Qcabs. destruct H as [H|H].
    + replace (Qcltb (pl_c (f_plane f)) 0) with false; auto. symmetry. apply Qcltb_ge. apply Qcle_trans with epsilon; auto. apply Qclt_le_weak, epsilon_pos.
    + replace (Qcltb (pl_c (f_plane f)) 0) with true.
      * clear Hc. generalize dependent (pl_c (f_plane f)). generalize epsilon. intros. ql.
      * symmetry. apply Qcltb_lt. apply Qcle_lt_trans with (- epsilon)%Qc; auto. reflexivity.
Qed.
Lemma on_plane_fun pl x y z z' : pl_c pl <> 0%Qc -> on_plane pl (P3 x y z) -> on_plane pl (P3 x y z') -> z = z'.
Proof.
  unfold on_plane. cbn [x3 y3 z3]. intros H E E'. apply (Qc_cancel (pl_c pl)); auto.
  transitivity ((pl_a pl * x + pl_b pl * y + pl_c pl * z + pl_d pl) - (pl_a pl * x + pl_b pl * y + pl_d pl))%Qc; [ring|].
  rewrite E, <- E'. ring.
Qed.
Lemma vertex_mean_fun l c d : vertex_mean l c -> vertex_mean l d -> c = d.
Proof. intros (m & S & M) (m' & S' & M'). rewrite <- (squeezed_fun _ _ _ S S') in M'. eapply mean_fun; eauto. Qed.
Ltac qceq := change (num exact) with Qc in *; lazymatch goal with |- @eq _ ?a ?b => change (@eq Qc a b) end.
Section HEIGHT.
Context (K : kernel).
Lemma seen_in_fun f x y s z z' : pl_c (f_plane f) <> 0%Qc -> seen_in K f x y s z -> seen_in K f x y s z' -> z = z'.
Proof.
  intros Hc (N & zs & F & E) (_ & zs' & F' & E').
  assert (zs = zs'). { clear E E' N. revert zs' F'. induction F; intros zs' F'; inversion F'; subst; auto. f_equal; auto.
    destruct H as (c & M & P). destruct H2 as (c' & M' & P'). rewrite (vertex_mean_fun _ _ _ M' M) in P'. eapply on_plane_fun; eauto. }
  subst zs'. apply (Qc_cancel (qn (nsize (k_inter2 K (ground x y s) (f_border f))))); [|congruence].
  apply qn_nonzero. unfold nsize. destruct (k_inter2 _ _ _); [congruence|cbn [length]; lia].
Qed.
Lemma heights_sum f k (ps : list poly) : steep f -> qz k <> 0%Qc -> (forall q, In q ps -> outer q <> []) -> forall t,
  exists zs, Forall2 (fun P z => exists c, vertex_mean (outer P) c /\ on_plane (f_plane f) (P3 (x2 c) (y2 c) z)) ps zs /\
    ofold (fun t p => let* c := centroid exact (outer p) in let* h := iplane_height exact f c in Ok (n_add exact t (n_div exact h (n_of exact k)))) ps t = Ok (t + qsum zs / qz k)%Qc.
Proof.
  intros H Hk. induction ps as [|P ps IH]; intros V t.
  - exists []. split; [constructor|]. cbn [ofold qsum]. f_equal. qceq. unfold Qcdiv. ring.
  - destruct (centroid_exact (outer P)) as (c & E & M); [apply V; left; auto|].
    destruct (iplane_exact f (x2 c, y2 c) H) as (z & Ez & P').
    destruct (IH (fun q Hq => V q (or_intror Hq)) (t + z / qz k)%Qc) as (zs & F & E').
    exists (z :: zs). split; [constructor; auto; exists c; auto|]. cbn [ofold]. rewrite E. cbn [bind]. rewrite Ez. cbn [bind].
    etransitivity; [exact E'|]. f_equal. cbn [qsum]. qceq. field. exact Hk.
Qed.
Lemma pixel_height_exact f x y s : steep f -> cuts_have_vertices K ->
  exists o, pixel_height exact K f x y s = Ok o /\ match o with Some z => seen_in K f x y s z | None => forall z, ~ seen_in K f x y s z end.
Proof.
  intros H V. unfold pixel_height, seen_in. change (pixel_pieces exact K f x y s) with (k_inter2 K (ground x y s) (f_border f)).
  assert (V' : forall q, In q (k_inter2 K (ground x y s) (f_border f)) -> outer q <> []) by (intros q; apply V).
  destruct (k_inter2 K (ground x y s) (f_border f)) as [|P ps] eqn:E; [exists None; split; auto; intros z (N & _); congruence|].
  set (L := P :: ps) in *. assert (Hk : qz (Z.of_nat (length L)) <> 0%Qc).
  { rewrite <- nat_N_Z. apply qn_nonzero. cbn [L length]. lia. }
  destruct (heights_sum f (Z.of_nat (length L)) L H Hk V' (n_of exact 0)) as (zs & F & E').
  match goal with |- exists o, bind ?e _ = _ /\ _ => assert (EE : e = Ok (n_of exact 0 + qsum zs / qz (Z.of_nat (length L)))%Qc) by exact E'; rewrite EE end.
  cbn [bind]. eexists. split; [reflexivity|]. cbv beta iota. split; [discriminate|]. exists zs. split; auto.
  unfold qn, nsize. rewrite nat_N_Z. cbn [n_of exact]. replace (qz 0) with 0%Qc by (apply Qceqb_eq; reflexivity). field. exact Hk.
Qed.
End HEIGHT.

(** ** Drawing a facet *)
Definition drawn (v : Qc) (c : Z) (z : Qc) : Qc := ((v * qz c + z) / qz (wrap16 (c + 1)))%Qc.
Lemma nth_lt {A} (l : list A) k : k < length l -> exists a, nth_error l k = Some a.
Proof. intros H. destruct (nth_error l k) eqn:E; eauto. apply nth_error_None in E. lia. Qed.
Lemma put_pixel_spec (img : list Qc) hits k v c z : nth_error img (N.to_nat k) = Some v -> nth_error hits (N.to_nat k) = Some c ->
  put_pixel exact (img, hits) k z = Ok (set_nth img (N.to_nat k) (drawn v c z), set_nth hits (N.to_nat k) (wrap16 (c + 1))).
Proof.
  intros H1 H2. unfold put_pixel. cbn [fst snd]. change (num exact) with Qc. rewrite (vatN_Ok _ _ _ H1). cbn [bind]. rewrite (vatN_Ok _ _ _ H2). cbn [bind]. reflexivity.
Qed.
Lemma puts_spec (key : N -> N) (o : N -> option Qc) (step : list Qc * list Z -> N -> outcome (list Qc * list Z)) l :
  (forall img idx, In idx l -> step img idx = match o idx with None => Ok img | Some z => put_pixel exact img (key idx) z end) ->
  NoDup (map key l) -> forall img hits, length img = length hits -> (forall idx, In idx l -> N.to_nat (key idx) < length img) ->
  exists img' hits', ofold step l (img, hits) = Ok (img', hits') /\ length img' = length img /\ length hits' = length img /\
    forall k v c, nth_error img k = Some v -> nth_error hits k = Some c ->
      (forall idx z, In idx l -> N.to_nat (key idx) = k -> o idx = Some z -> nth_error img' k = Some (drawn v c z) /\ nth_error hits' k = Some (wrap16 (c + 1))) /\
      ((forall idx, In idx l -> N.to_nat (key idx) = k -> o idx = None) -> nth_error img' k = Some v /\ nth_error hits' k = Some c).
Proof.
  induction l as [|idx l IH]; intros Hs ND img hits L B.
  - exists img, hits. cbn [ofold]. repeat split; auto; try contradiction.
  - inversion ND as [|? ? NI ND']; subst. pose proof (B idx (or_introl eq_refl)) as Bi.
    destruct (nth_lt img _ Bi) as (v0 & E0). assert (Bi' : N.to_nat (key idx) < length hits) by lia. destruct (nth_lt hits _ Bi') as (c0 & F0).
    cbn [ofold]. rewrite Hs by (left; auto). destruct (o idx) as [z|] eqn:Eo.
    + rewrite (put_pixel_spec _ _ _ _ _ _ E0 F0). cbn [bind].
      destruct (IH (fun img i Hi => Hs img i (or_intror Hi)) ND' (set_nth img (N.to_nat (key idx)) (drawn v0 c0 z)) (set_nth hits (N.to_nat (key idx)) (wrap16 (c0 + 1)))) as (img' & hits' & E & L1 & L2 & S).
      * rewrite !set_nth_length; auto.
      * intros i Hi. rewrite set_nth_length by auto. apply B. right; auto.
      * exists img', hits'. rewrite set_nth_length in L1, L2 by auto. split; [exact E|]. split; [exact L1|]. split; [exact L2|].
        intros k v c Ev Ec. destruct (Nat.eq_dec k (N.to_nat (key idx))) as [->|Nk].
        -- rewrite E0 in Ev. injection Ev as <-. rewrite F0 in Ec. injection Ec as <-.
           destruct (S (N.to_nat (key idx)) _ _ (set_nth_same img (N.to_nat (key idx)) (drawn v0 c0 z) Bi) (set_nth_same hits (N.to_nat (key idx)) (wrap16 (c0 + 1)) Bi')) as [_ S2].
           assert (U : forall i, In i l -> N.to_nat (key i) = N.to_nat (key idx) -> o i = None).
           { intros i Hi Ek. exfalso. apply NI. apply in_map_iff. exists i. split; auto. lia. }
           specialize (S2 U). split.
           ++ intros i z' [<-|Hi] Ek Ez; [rewrite Eo in Ez; injection Ez as <-; exact S2|]. rewrite (U i Hi Ek) in Ez. discriminate.
           ++ intros HH. specialize (HH idx (or_introl eq_refl) eq_refl). congruence.
        -- assert (Ev' : nth_error (set_nth img (N.to_nat (key idx)) (drawn v0 c0 z)) k = Some v) by (rewrite set_nth_other; auto).
           assert (Ec' : nth_error (set_nth hits (N.to_nat (key idx)) (wrap16 (c0 + 1))) k = Some c) by (rewrite set_nth_other; auto).
           destruct (S k v c Ev' Ec') as [S1 S2]. split.
           ++ intros i z' [<-|Hi] Ek Ez; [congruence|]. eapply S1; eauto.
           ++ intros HH. apply S2. intros i Hi. apply HH. right; auto.
    + cbn [bind]. destruct (IH (fun img i Hi => Hs img i (or_intror Hi)) ND' img hits L (fun i Hi => B i (or_intror Hi))) as (img' & hits' & E & L1 & L2 & S).
      exists img', hits'. split; [exact E|]. split; [exact L1|]. split; [exact L2|]. intros k v c Ev Ec. destruct (S k v c Ev Ec) as [S1 S2]. split.
      * intros i z' [<-|Hi] Ek Ez; [congruence|]. eapply S1; eauto.
      * intros HH. apply S2. intros i Hi. apply HH. right; auto.
Qed.
Lemma box_le_inv b B : box_le (Some b) (Some B) -> (xmin b <= xmax b)%Qc -> (ymin b <= ymax b)%Qc ->
  (xmin B <= xmin b /\ xmax b <= xmax B /\ ymin B <= ymin b /\ ymax b <= ymax B)%Qc.
Proof.
  intros H Hx Hy. pose proof (H (P2 (xmin b) (ymin b))) as H1. pose proof (H (P2 (xmax b) (ymax b))) as H2. cbn [in_box x2 y2] in H1, H2.
  destruct H1 as (? & ? & ? & ?). { repeat split; auto; apply Qcle_refl. }
  destruct H2 as (? & ? & ? & ?). { repeat split; auto; apply Qcle_refl. }
  auto.
Qed.
Definition box_wf (o : option box2) : Prop := match o with None => True | Some b => (xmin b <= xmax b /\ ymin b <= ymax b)%Qc end.
Lemma box_wf_add a b : box_wf a -> box_wf b -> box_wf (box_add a b).
Proof.
  destruct a as [a|], b as [b|]; cbn [box_wf box_add]; auto. intros [? ?] [? ?]. cbn [xmin xmax ymin ymax].
  split; qcases; qo.
Qed.
Lemma ring_box_wf l : box_wf (ring_box l).
Proof.
  unfold ring_box. assert (H : forall b, box_wf b -> box_wf (fold_left (fun b p => box_add b (point_box p)) l b)); [|apply H; exact I].
  induction l as [|p l IH]; intros b Hb; cbn [fold_left]; auto. apply IH. apply box_wf_add; auto. cbn. split; apply Qcle_refl.
Qed.
Lemma div_key W i j i' j' : (j < W)%N -> (j' < W)%N -> (i * W + j = i' * W + j')%N -> i = i' /\ j = j'.
Proof.
  intros H H' E. assert (i = i'). { destruct (N.lt_trichotomy i i') as [L|[L|L]]; auto; exfalso; nia. }
  subst. split; auto. nia.
Qed.
Section DRAW.
Context (K : kernel).
Lemma gives_fun B s f i j z z' : (0 < s)%Qc -> gives K B s f i j z -> gives K B s f i j z' -> z = z'.
Proof.
  intros Hs (D & b & x & y & Eb & W & S) (_ & b' & x' & y' & Eb' & W' & S').
  rewrite Eb in Eb'. injection Eb' as <-.
  destruct W as (i0 & j0 & h & w & a & c & W1 & W2 & W3 & W4 & (W5 & W6 & W7 & W8) & -> & ->).
  destruct W' as (i0' & j0' & h' & w' & a' & c' & V1 & V2 & V3 & V4 & (V5 & V6 & V7 & V8) & -> & ->).
  rewrite <- (steps_fun _ _ _ _ Hs W1 V1) in *. rewrite <- (steps_fun _ _ _ _ Hs W2 V2) in *.
  assert (a' = a) by lia. assert (c' = c) by lia. subst a' c'.
  eapply seen_in_fun; eauto. intros E. unfold is_degenerate, is_perpendicular in D. rewrite E in D.
  replace (Qceqb 0 0) with true in D by (symmetry; apply Qceqb_eq; auto). discriminate.
Qed.
Lemma floor_bound d s H : (0 < s)%Qc -> (d <= qn H * s)%Qc -> (H < two64)%N -> (Qfloor (this (d / s)%Qc) < 18446744073709551616)%Z.
Proof.
  intros Hs L HB. assert (X : (d / s <= qn H)%Qc). { apply (Qcle_scale s); auto. rewrite Qcmult_div; auto. }
  apply Qfloor_resp_le in X. unfold qn in X. rewrite this_qz in X. rewrite Qfloor_Z in X. unfold two64 in HB. lia.
Qed.
Lemma rasterize_exact B s H W f (img : list Qc) hits : (0 < s)%Qc -> grid B s H W -> cuts_have_vertices K -> drawable K B f ->
  nsize img = (H * W)%N -> nsize hits = (H * W)%N ->
  exists img' hits', rasterize exact K (img, hits) (xmin B) (ymax B) H W s f = Ok (img', hits') /\ nsize img' = (H * W)%N /\ nsize hits' = (H * W)%N /\
    forall i j v c, (i < H)%N -> (j < W)%N -> nth_error img (N.to_nat (i * W + j)) = Some v -> nth_error hits (N.to_nat (i * W + j)) = Some c ->
      (forall z, gives K B s f i j z -> nth_error img' (N.to_nat (i * W + j)) = Some (drawn v c z) /\ nth_error hits' (N.to_nat (i * W + j)) = Some (wrap16 (c + 1))) /\
      ((forall z, ~ gives K B s f i j z) -> nth_error img' (N.to_nat (i * W + j)) = Some v /\ nth_error hits' (N.to_nat (i * W + j)) = Some c).
Proof.
  intros Hs (C1 & C2 & (B1 & B2 & B3) & _) V D L1 L2. unfold rasterize.
  destruct (is_degenerate K f) eqn:Ed.
  - exists img, hits. split; [reflexivity|]. split; auto. split; auto. intros i j v c Hi Hj Ev Ec. split; auto.
    intros z (G & _). congruence.
  - destruct D as [D|(b & Eb & Le & St)]; [congruence|]. rewrite Eb.
    pose proof (ring_box_wf (outer (f_border f))) as Wf. change (ring_box (outer (f_border f))) with (face_box f) in Wf. rewrite Eb in Wf. destruct Wf as [Wx Wy].
    destruct (box_le_inv _ _ Le Wx Wy) as (X0 & X1 & Y0 & Y1).
    cbn [n_ofq exact n_sub n_div num].
    assert (P1 : (0 <= ymax B - ymax b)%Qc) by (clear - Y1; ql).
    assert (P2 : (0 <= xmin b - xmin B)%Qc) by (clear - X0; ql).
    assert (P3 : (0 <= ymax b - ymin b)%Qc) by (clear - Wy; ql).
    assert (P4 : (0 <= xmax b - xmin b)%Qc) by (clear - Wx; ql).
    assert (Q1 : (ymax B - ymax b + (ymax b - ymin b) <= ymax B - ymin B)%Qc) by (clear - Y0; ql).
    assert (Q2 : (xmin b - xmin B + (xmax b - xmin b) <= xmax B - xmin B)%Qc) by (clear - X1; ql).
    destruct (floor_steps (ymax B - ymax b) s Hs P1) as (i0 & Ei0 & Si0).
    { apply floor_bound with H; auto. destruct C1 as [C1 _]. eapply Qcle_trans; [|exact C1]. clear - Q1 P3. ql. }
    destruct (floor_steps (xmin b - xmin B) s Hs P2) as (j0 & Ej0 & Sj0).
    { apply floor_bound with W; auto. destruct C2 as [C2 _]. eapply Qcle_trans; [|exact C2]. clear - Q2 P4. ql. }
    destruct (cells_ex _ _ Hs P3) as (h & Ch). destruct (cells_ex _ _ Hs P4) as (w & Cw).
    pose proof (bound_cells _ _ _ _ _ _ _ Hs Si0 Ch C1 Q1 P3) as Bh. pose proof (bound_cells _ _ _ _ _ _ _ Hs Sj0 Cw C2 Q2 P4) as Bw.
    assert (Eh : n_ceil exact ((ymax b - ymin b) / s)%Qc = Ok h) by (apply ceil_cells; auto; lia).
    assert (Ew : n_ceil exact ((xmax b - xmin b) / s)%Qc = Ok w) by (apply ceil_cells; auto; lia).
    rewrite Ei0. cbn [bind]. rewrite Ej0. cbn [bind]. rewrite Ew. cbn [bind]. rewrite Eh. cbn [bind].
    assert (Mwh : (w * h <= H * W)%N) by nia. unfold max_indexes in *.
    rewrite (wrap64_small (i0 + h)), (wrap64_small (j0 + w)), (wrap64_small (w * h)) by (unfold two64 in *; lia).
    replace ((H <? i0 + h) && (W <? j0 + w))%N with false by lia.
    replace (1152921504606846975 <? w * h)%N with false by lia.
    set (val := fun idx => pixel_height exact K f (n_add exact (xmin b) (n_mul exact (n_of exact (Z.of_N (idx mod w))) s)) (n_sub exact (ymax b) (n_mul exact (n_of exact (Z.of_N (idx / w))) s)) s).
    set (o := fun idx => match val idx with Ok o => o | _ => None end).
    set (key := fun idx => ((i0 + idx / w) * W + j0 + idx mod w)%N).
    assert (Vo : forall idx, val idx = Ok (o idx) /\ match o idx with Some z => seen_in K f (xmin b + qn (idx mod w) * s) (ymax b - qn (idx / w) * s) s z | None => forall z, ~ seen_in K f (xmin b + qn (idx mod w) * s) (ymax b - qn (idx / w) * s) s z end).
    { intros idx. unfold o, val. destruct (pixel_height_exact K f (xmin b + qn (idx mod w) * s)%Qc (ymax b - qn (idx / w) * s)%Qc s St V) as (r & E & S).
      cbn [n_add n_sub n_mul n_of exact]. unfold qn in *. rewrite E. split; auto. }
    assert (Kw : forall idx, In idx (iota (w * h)) -> (w <> 0 /\ idx mod w < w /\ idx / w < h)%N).
    { intros idx Hi. apply In_iota in Hi. assert (w <> 0)%N by nia. repeat split; auto; [apply N.mod_lt; auto|].
      apply N.div_lt_upper_bound; auto. }
    assert (Kk : forall idx, In idx (iota (w * h)) -> (key idx < H * W)%N).
    { intros idx Hi. destruct (Kw idx Hi) as (? & ? & ?). unfold key.
      assert ((i0 + idx / w) * W + W <= H * W)%N by nia. lia. }
    assert (Ik : forall i i', In i (iota (w * h)) -> In i' (iota (w * h)) -> key i = key i' -> i = i').
    { intros i i' Hi Hi' E. destruct (Kw i Hi) as (? & ? & ?). destruct (Kw i' Hi') as (? & ? & ?). unfold key in E. rewrite <- !N.add_assoc in E.
      apply div_key in E as [E1 E2]; try lia. rewrite (N.div_mod i w), (N.div_mod i' w) by auto. f_equal; [f_equal|]; lia. }
    destruct (puts_spec key o (fun img index => let* z := val index in match z with None => Ok img | Some z => put_pixel exact img (wrap64 (wrap64 (i0 + index / w) * W + j0 + index mod w)) z end) (iota (w * h))) with (img := img) (hits := hits)
      as (img' & hits' & E & M1 & M2 & S).
    + intros im idx Hi. destruct (Vo idx) as [Ev _]. rewrite Ev. cbn [bind]. destruct (o idx); auto. f_equal.
      destruct (Kw idx Hi) as (? & ? & ?). specialize (Kk idx Hi). unfold key in *. rewrite (wrap64_small (i0 + idx / w)) by (unfold two64 in *; lia).
      apply wrap64_small. unfold two64 in *. lia.
    + pose proof (NoDup_iota (w * h)) as ND. revert Ik ND. generalize (iota (w * h)). clear. intros l Ik ND. induction ND as [|a l NI ND IH]; [constructor|].
      cbn [map]. constructor.
      * intros HI. apply in_map_iff in HI as (a' & Ea & Ha'). apply NI. rewrite <- (Ik a' a); auto; [right|left]; auto.
      * apply IH. intros ? ? ? ?. apply Ik; right; auto.
    + unfold nsize in *. lia.
    + intros idx Hi. specialize (Kk idx Hi). unfold nsize in L1. lia.
    + exists img', hits'. split; [exact E|]. unfold nsize in *. split; [lia|]. split; [lia|].
      intros i j v c Hi Hj Ev Ec. destruct (S _ _ _ Ev Ec) as [S1 S2]. split.
      * intros z G. pose proof G as (_ & b' & x & y & Eb' & (i0' & j0' & h' & w' & a & k & W1 & W2 & W3 & W4 & (W5 & W6 & W7 & W8) & Ex & Ey) & SI).
        rewrite Eb in Eb'. injection Eb' as <-.
        rewrite <- (steps_fun _ _ _ _ Hs Si0 W1) in *. rewrite <- (steps_fun _ _ _ _ Hs Sj0 W2) in *. rewrite <- (cells_fun _ _ _ _ Ch W3) in *. rewrite <- (cells_fun _ _ _ _ Cw W4) in *.
        assert (Ea : ((a * w + k) / w = a)%N). { rewrite N.div_add_l by lia. rewrite N.div_small by auto. lia. }
        assert (Ek : ((a * w + k) mod w = k)%N). { rewrite N.add_comm, N.mod_add by lia. apply N.mod_small; auto. }
        apply S1 with (a * w + k)%N.
        -- apply In_iota. nia.
        -- unfold key. rewrite Ea, Ek. f_equal. subst i j. lia.
        -- destruct (Vo (a * w + k)%N) as [_ Vo']. rewrite Ea, Ek in Vo'. rewrite <- Ex, <- Ey in Vo'.
           destruct (o (a * w + k)%N) as [z'|]; [|exfalso; eapply Vo'; eauto]. f_equal. eapply seen_in_fun; eauto. apply steep_nonzero; auto.
      * intros G. apply S2. intros idx Hi' Ek. destruct (Kw idx Hi') as (K1 & K2 & K3).
        assert (Ek' : ((i0 + idx / w) * W + (j0 + idx mod w) = i * W + j)%N) by (unfold key in Ek; lia).
        apply div_key in Ek' as [E1 E2]; try lia. destruct (Vo idx) as [_ Vo']. destruct (o idx) as [z|]; auto. exfalso. apply (G z).
        split; auto. exists b. eexists _, _. split; [auto|]. split; [|exact Vo'].
        exists i0, j0, h, w, (idx / w)%N, (idx mod w)%N. repeat (split; [auto; fail|]). split; auto.
Qed.
End DRAW.
Section SCENE.
Context (K : kernel).
Lemma gives_dec B s H W f i j : (0 < s)%Qc -> grid B s H W -> cuts_have_vertices K -> drawable K B f ->
  (exists z, gives K B s f i j z) \/ (forall z, ~ gives K B s f i j z).
Proof.
  intros Hs (C1 & C2 & (B1 & B2 & B3) & _) V D. destruct (is_degenerate K f) eqn:Ed; [right; intros z (G & _); congruence|].
  destruct D as [D|(b & Eb & Le & St)]; [congruence|].
  pose proof (ring_box_wf (outer (f_border f))) as Wf. change (ring_box (outer (f_border f))) with (face_box f) in Wf. rewrite Eb in Wf. destruct Wf as [Wx Wy].
  destruct (box_le_inv _ _ Le Wx Wy) as (X0 & X1 & Y0 & Y1).
  assert (P1 : (0 <= ymax B - ymax b)%Qc) by (clear - Y1; ql).
  assert (P2 : (0 <= xmin b - xmin B)%Qc) by (clear - X0; ql).
  assert (P3 : (0 <= ymax b - ymin b)%Qc) by (clear - Wy; ql).
  assert (P4 : (0 <= xmax b - xmin b)%Qc) by (clear - Wx; ql).
  assert (Q1 : (ymax B - ymax b + (ymax b - ymin b) <= ymax B - ymin B)%Qc) by (clear - Y0; ql).
  assert (Q2 : (xmin b - xmin B + (xmax b - xmin b) <= xmax B - xmin B)%Qc) by (clear - X1; ql).
  destruct (floor_steps (ymax B - ymax b) s Hs P1) as (i0 & Ei0 & Si0).
  { apply floor_bound with H; auto. destruct C1 as [C1 _]. eapply Qcle_trans; [|exact C1]. clear - Q1 P3. ql. }
  destruct (floor_steps (xmin b - xmin B) s Hs P2) as (j0 & Ej0 & Sj0).
  { apply floor_bound with W; auto. destruct C2 as [C2 _]. eapply Qcle_trans; [|exact C2]. clear - Q2 P4. ql. }
  destruct (cells_ex _ _ Hs P3) as (h & Ch). destruct (cells_ex _ _ Hs P4) as (w & Cw).
  assert (N : (i0 <= i /\ i - i0 < h /\ j0 <= j /\ j - j0 < w)%N \/ ~ (i0 <= i /\ i - i0 < h /\ j0 <= j /\ j - j0 < w)%N) by lia.
  destruct N as [N|N].
  - destruct (pixel_height_exact K f (xmin b + qn (j - j0) * s)%Qc (ymax b - qn (i - i0) * s)%Qc s St V) as ([z|] & E & S).
    + left. exists z. split; auto. exists b. eexists _, _. split; auto. split; [|exact S]. exists i0, j0, h, w, (i - i0)%N, (j - j0)%N.
      repeat (split; [auto; fail|]). split; auto. lia.
    + right. intros z (_ & b' & x & y & Eb' & (i0' & j0' & h' & w' & a & k & W1 & W2 & W3 & W4 & (W5 & W6 & W7 & W8) & Ex & Ey) & SI).
      rewrite Eb in Eb'. injection Eb' as <-.
      rewrite <- (steps_fun _ _ _ _ Hs Si0 W1) in *. rewrite <- (steps_fun _ _ _ _ Hs Sj0 W2) in *.
      assert (a = i - i0)%N by lia. assert (k = j - j0)%N by lia. subst a k x y. eapply S; eauto.
  - right. intros z (_ & b' & x & y & Eb' & (i0' & j0' & h' & w' & a & k & W1 & W2 & W3 & W4 & (W5 & W6 & W7 & W8) & Ex & Ey) & SI).
    rewrite Eb in Eb'. injection Eb' as <-.
    rewrite <- (steps_fun _ _ _ _ Hs Si0 W1) in *. rewrite <- (steps_fun _ _ _ _ Hs Sj0 W2) in *. rewrite <- (cells_fun _ _ _ _ Ch W3) in *. rewrite <- (cells_fun _ _ _ _ Cw W4) in *.
    lia.
Qed.
Lemma given_snoc B s i j l zs f : given K B s i j l zs ->
  (forall z, gives K B s f i j z -> given K B s i j (l ++ [f]) (zs ++ [z])) /\ ((forall z, ~ gives K B s f i j z) -> given K B s i j (l ++ [f]) zs).
Proof.
  induction 1 as [|g l z zs G H [IH1 IH2]|g l zs G H [IH1 IH2]].
  - split; intros; cbn [app]; [apply g_hit|apply g_miss]; auto; constructor.
  - split; intros; cbn [app]; apply g_hit; auto.
  - split; intros; cbn [app]; apply g_miss; auto.
Qed.
Lemma given_fun B s i j l zs zs' : (0 < s)%Qc -> given K B s i j l zs -> given K B s i j l zs' -> zs = zs'.
Proof.
  intros Hs H. revert zs'. induction H as [|f l z zs G H IH|f l zs G H IH]; intros zs' H'; inversion H' as [|? ? ? ? G' HH|? ? ? G' HH]; subst; auto.
  - f_equal; auto. eapply gives_fun; eauto.
  - exfalso. eapply G'; eauto.
  - exfalso. eapply G; eauto.
Qed.
Lemma given_length B s i j l zs : given K B s i j l zs -> length zs <= length l.
Proof. induction 1; cbn [length]; lia. Qed.
Lemma wrap16_small c : (0 <= c < 32767)%Z -> wrap16 (c + 1) = (c + 1)%Z.
Proof. intros H. unfold wrap16. rewrite Z.mod_small; lia. Qed.
Lemma averages_snoc zs v z : averages zs v -> (Z.of_nat (length zs) < 32767)%Z -> averages (zs ++ [z]) (drawn v (Z.of_nat (length zs)) z).
Proof.
  intros [H1 H2] L. split; [destruct zs; discriminate|]. unfold drawn. rewrite wrap16_small by lia.
  rewrite qsum_app. cbn [qsum]. unfold nsize. rewrite app_length. cbn [length].
  replace (qz (Z.of_nat (length zs) + 1)) with (qn (N.of_nat (length zs + 1))) by (unfold qn; f_equal; lia).
  replace (qz (Z.of_nat (length zs))) with (qn (nsize zs)) by (unfold qn, nsize; f_equal; lia).
  rewrite H2. field. apply qn_nonzero. lia.
Qed.
Lemma nth_repeat {A} (a : A) n k : k < n -> nth_error (repeat a n) k = Some a.
Proof. revert k; induction n as [|n IH]; intros [|k] H; cbn; auto; try lia. apply IH; lia. Qed.
Lemma facets_exact B s H W l : (0 < s)%Qc -> grid B s H W -> cuts_have_vertices K -> Forall (drawable K B) l -> (Z.of_nat (length l) < 32768)%Z ->
  forall n, N.of_nat n = (H * W)%N ->
  exists img hits, ofold (fun img f => rasterize exact K img (xmin B) (ymax B) H W s f) l (repeat 0%Qc n, repeat 0%Z n) = Ok (img, hits) /\ nsize img = (H * W)%N /\ nsize hits = (H * W)%N /\
    forall i j, (i < H)%N -> (j < W)%N -> exists zs v, given K B s i j l zs /\ averages zs v /\
      nth_error img (N.to_nat (i * W + j)) = Some v /\ nth_error hits (N.to_nat (i * W + j)) = Some (Z.of_nat (length zs)).
Proof.
  intros Hs G V D L n En. induction l as [|f l IH] using rev_ind.
  - exists (repeat 0%Qc n), (repeat 0%Z n). cbn [ofold]. unfold nsize. rewrite !repeat_length. repeat split; auto.
    intros i j Hi Hj. exists [], 0%Qc. assert (N.to_nat (i * W + j) < n) by nia.
    split; [constructor|]. split; [split; auto; cbn [qsum]; ring|]. rewrite !nth_repeat by auto. auto.
  - apply Forall_app in D as [D1 D2]. inversion D2 as [|? ? Df _]; subst. rewrite app_length in L. cbn [length] in L.
    destruct IH as (img & hits & E & L1 & L2 & S); auto; try lia.
    destruct (rasterize_exact K B s H W f img hits Hs G V Df L1 L2) as (img' & hits' & E' & M1 & M2 & S').
    exists img', hits'. split.
    { clear - E E'. revert E. generalize (repeat 0%Qc n, repeat 0%Z n). induction l as [|g l IH]; cbn [ofold app]; intros a E.
      - apply Ok_inj in E. subst a. exact (f_equal (fun x => bind x (fun a' => Ok a')) E').
      - apply bind_Ok in E as (a' & Ea & E). rewrite Ea. cbn [bind]. apply IH; auto. }
    split; auto. split; auto. intros i j Hi Hj. destruct (S i j Hi Hj) as (zs & v & Gv & Av & Ev & Ec).
    destruct (S' i j _ _ Hi Hj Ev Ec) as [S1 S2]. destruct (given_snoc _ _ _ _ _ _ f Gv) as [G1 G2].
    pose proof (given_length _ _ _ _ _ _ Gv) as Ln.
    destruct (gives_dec B s H W f i j Hs G V Df) as [(z & Gz)|Gz].
    + destruct (S1 z Gz) as [T1 T2]. exists (zs ++ [z]), (drawn v (Z.of_nat (length zs)) z). split; auto. split; [apply averages_snoc; auto; lia|].
      split; auto. rewrite T2. rewrite wrap16_small by lia. rewrite app_length. cbn [length]. do 2 f_equal. lia.
    + destruct (S2 Gz) as [T1 T2]. exists zs, v. auto.
Qed.
End SCENE.

(** ** Vertical offset *)
Lemma offset_loop (A : arith) (g : num A -> Z -> num A) (hits : list Z) : forall n (img : list (num A)), N.to_nat n <= length img -> length img = length hits ->
  exists img', ofold (fun img k => let* v := vatN img k in let* c := vatN hits k in Ok (set_nth img (N.to_nat k) (g v c))) (iota n) img = Ok img' /\
    length img' = length img /\
    (forall k v c, k < N.to_nat n -> nth_error img k = Some v -> nth_error hits k = Some c -> nth_error img' k = Some (g v c)) /\
    (forall k, N.to_nat n <= k -> nth_error img' k = nth_error img k).
Proof.
  intros n img L E. unfold iota. set (m := N.to_nat n) in *. clearbody m.
  assert (H : forall m st (img : list (num A)), st + m <= length img -> length img = length hits ->
    exists img', ofold (fun img k => let* v := vatN img k in let* c := vatN hits k in Ok (set_nth img (N.to_nat k) (g v c))) (map N.of_nat (seq st m)) img = Ok img' /\
    length img' = length img /\
    (forall k v c, st <= k < st + m -> nth_error img k = Some v -> nth_error hits k = Some c -> nth_error img' k = Some (g v c)) /\
    (forall k, ~ (st <= k < st + m) -> nth_error img' k = nth_error img k)).
  { clear. induction m as [|m IH]; intros st img L E.
    - exists img. cbn [seq map ofold]. repeat split; auto. lia.
    - cbn [seq map ofold]. destruct (nth_lt img st) as (v0 & Ev0); [lia|]. destruct (nth_lt hits st) as (c0 & Ec0); [lia|].
      rewrite (vatN_Ok img (N.of_nat st) v0) by (rewrite Nat2N.id; auto). cbn [bind]. rewrite (vatN_Ok hits (N.of_nat st) c0) by (rewrite Nat2N.id; auto). cbn [bind].
      rewrite Nat2N.id. destruct (IH (S st) (set_nth img st (g v0 c0))) as (img' & E' & L' & S1 & S2).
      + rewrite set_nth_length; lia.
      + rewrite set_nth_length; lia.
      + exists img'. rewrite set_nth_length in L' by lia. split; [exact E'|]. split; [lia|]. split.
        * intros k v c Hk Ev Ec. destruct (Nat.eq_dec k st) as [->|Nk].
          -- rewrite S2 by lia. rewrite set_nth_same by lia. congruence.
          -- apply S1; auto; [lia|]. rewrite set_nth_other; auto. lia.
        * intros k Hk. rewrite S2 by lia. apply set_nth_other; lia. }
  destruct (H m 0 img) as (img' & E' & L' & S1 & S2); auto; try lia. exists img'. split; [exact E'|]. split; auto. split.
  - intros; apply S1; auto; lia.
  - intros. apply S2; lia.
Qed.
Lemma vertical_offset_spec (A : arith) (r : raster A) : sized r -> r_offset A r = false ->
  exists r', vertical_offset A r = Ok r' /\ sized r' /\ r_offset A r' = true /\ r_hits A r' = r_hits A r /\
    r_name A r' = r_name A r /\ r_ref A r' = r_ref A r /\ r_epsg A r' = r_epsg A r /\ r_height A r' = r_height A r /\ r_width A r' = r_width A r /\ r_px A r' = r_px A r /\
    forall k v c, nth_error (r_image A r) k = Some v -> nth_error (r_hits A r) k = Some c ->
      nth_error (r_image A r') k = Some (n_add A v (n_mul A (n_of A (if (c =? 0)%Z then 0%Z else 1%Z)) (snd (r_ref A r)))).
Proof.
  intros (S1 & S2 & S3) O. unfold vertical_offset. rewrite O. rewrite wrap64_small by auto. unfold nsize in *.
  destruct (offset_loop A (fun v c => n_add A v (n_mul A (n_of A (if (c =? 0)%Z then 0%Z else 1%Z)) (snd (r_ref A r)))) (r_hits A r) (r_height A r * r_width A r)%N (r_image A r)) as (img' & E & L & X & _); try lia.
  rewrite E. cbn [bind]. eexists. split; [reflexivity|]. unfold sized, nsize. cbn. rewrite L. repeat (split; [auto; fail|]).
  intros k v c Ev Ec. apply X; auto. assert (k < length (r_image A r)) by (apply nth_error_Some; congruence). lia.
Qed.

(** ** RasterPrint(FootPrint, pixel size) *)
Lemma raster_of_exact K fp s B H W : br_box (fp_proj fp) = Some B -> (0 < s)%Qc -> grid B s H W -> cuts_have_vertices K ->
  Forall (drawable K B) (br_facets (fp_proj fp)) -> (Z.of_nat (length (br_facets (fp_proj fp))) < 32768)%Z ->
  exists r : raster exact, raster_of exact K fp s = Ok r /\ sized r /\ r_offset exact r = true /\
    r_name exact r = fp_name fp /\ r_epsg exact r = fp_epsg fp /\ r_height exact r = H /\ r_width exact r = W /\ r_px exact r = s /\
    r_ref exact r = (qd (px (fp_ref fp)) + xmin B, qd (py (fp_ref fp)) + ymax B, qd (pz (fp_ref fp)))%Qc /\
    forall i j, (i < H)%N -> (j < W)%N -> exists zs v, given K B s i j (br_facets (fp_proj fp)) zs /\ averages zs v /\
      pixel_is r i j (match zs with [] => 0%Qc | _ => (v + qd (pz (fp_ref fp)))%Qc end) (Z.of_nat (length zs)).
Proof.
  intros EB Hs G V D L. pose proof G as (C1 & C2 & (B1 & B2 & B3) & X & Y). unfold raster_of. rewrite EB. cbn [n_ofq exact n_sub n_div num].
  rewrite (ceil_cells _ _ _ Hs C1 B1) by (clear - Y; ql). cbn [bind]. rewrite (ceil_cells _ _ _ Hs C2 B2) by (clear - X; ql). cbn [bind].
  unfold max_indexes in *. rewrite wrap64_small by (unfold two64; lia). replace (1152921504606846975 <? H * W)%N with false by lia.
  destruct (facets_exact K B s H W (br_facets (fp_proj fp)) Hs G V D L (N.to_nat (H * W)) (N2Nat.id _)) as (img & hits & E & L1 & L2 & S).
  match goal with |- exists r, bind ?e _ = _ /\ _ => assert (EE : e = Ok (img, hits)) end.
  { rewrite <- E. cbn [n_of]. replace (qz 0) with 0%Qc by (apply Qceqb_eq; reflexivity). reflexivity. }
  rewrite EE. cbn [bind]. clear EE. cbn [fst snd n_add n_ofd n_of exact]. replace (qd (pz (fp_ref fp)) + qz 0)%Qc with (qd (pz (fp_ref fp))).
  2:{ replace (qz 0) with 0%Qc by (apply Qceqb_eq; reflexivity). ring. }
  set (r0 := mkRaster exact (fp_name fp) (qd (px (fp_ref fp)) + xmin B, qd (py (fp_ref fp)) + ymax B, qd (pz (fp_ref fp)))%Qc (fp_epsg fp) H W s img hits false).
  assert (Z0 : sized r0). { unfold sized. cbn. unfold two64. repeat split; auto. lia. }
  destruct (vertical_offset_spec exact r0 Z0 eq_refl) as (r & Er & Zr & O & Hh & N1 & N2 & N3 & N4 & N5 & N6 & X').
  exists r. split; [exact Er|]. split; auto. split; auto. cbn in Hh, N1, N2, N3, N4, N5, N6. repeat (split; [auto; fail|]).
  intros i j Hi Hj. destruct (S i j Hi Hj) as (zs & v & Gv & Av & Ev & Ec). exists zs, v. split; auto. split; auto.
  specialize (X' _ _ _ Ev Ec). unfold pixel_is. rewrite N5, Hh. split; auto. rewrite X'. f_equal. cbn [r0 r_ref snd exact n_add n_mul n_of].
  destruct zs as [|z zs].
  - destruct Av as [Av _]. rewrite (Av eq_refl). cbn [length Z.of_nat Z.eqb]. replace (qz 0) with 0%Qc by (apply Qceqb_eq; reflexivity). qceq. ring.
  - replace (Z.of_nat (length (z :: zs)) =? 0)%Z with false by (cbn [length]; lia). replace (qz 1) with 1%Qc by (apply Qceqb_eq; reflexivity). qceq. ring.
Qed.

(** ** Facets on the grid *)
Lemma steps_of_grid d s n : (0 < s)%Qc -> (d = qn n * s)%Qc -> steps d s n.
Proof.
  intros Hs ->. split; [apply Qcle_refl|]. apply Qclt_scale; auto. rewrite <- qn_1, <- qn_plus. apply qn_lt. lia.
Qed.
Lemma aligned_pixel K good B s H W f i j : cut_ok K good -> cuts_have_vertices K -> (0 < s)%Qc -> grid B s H W -> good (f_border f) -> is_degenerate K f = false -> drawable K B f ->
  on_grid B s f -> ((exists z, gives K B s f i j z) <-> meets_pixel K B s f i j).
Proof.
  intros OK V Hs G Gf ND D (b & i0 & j0 & Eb & Ey & Ex). destruct D as [D|(b' & Eb' & Le & St)]; [congruence|].
  rewrite Eb in Eb'. injection Eb' as <-.
  pose proof (steps_of_grid _ _ _ Hs Ey) as Si. pose proof (steps_of_grid _ _ _ Hs Ex) as Sj.
  assert (Xb : xmin b = (xmin B + qn j0 * s)%Qc) by (rewrite <- Ex; ring). assert (Yb : ymax b = (ymax B - qn i0 * s)%Qc) by (rewrite <- Ey; ring).
  pose proof (ring_box_wf (outer (f_border f))) as Wf. change (ring_box (outer (f_border f))) with (face_box f) in Wf. rewrite Eb in Wf. destruct Wf as [Wx Wy].
  assert (P3 : (0 <= ymax b - ymin b)%Qc) by (clear - Wy; ql).
  assert (P4 : (0 <= xmax b - xmin b)%Qc) by (clear - Wx; ql).
  split.
  - intros (z & _ & b' & x & y & Eb' & (i0' & j0' & h' & w' & a & k & W1 & W2 & W3 & W4 & (W5 & W6 & W7 & W8) & -> & ->) & N & _).
    rewrite Eb in Eb'. injection Eb' as <-. rewrite <- (steps_fun _ _ _ _ Hs Si W1) in *. rewrite <- (steps_fun _ _ _ _ Hs Sj W2) in *.
    destruct (k_inter2 K (ground (xmin b + qn k * s) (ymax b - qn a * s) s) (f_border f)) as [|q qs] eqn:E; [congruence|].
    assert (Iq : In q (k_inter2 K (ground (xmin b + qn k * s)%Qc (ymax b - qn a * s)%Qc s) (f_border f))) by (rewrite E; left; auto).
    pose proof (cut_square _ _ OK (xmin b + qn k * s)%Qc (ymax b - qn a * s)%Qc s Hs) as Gs.
    pose proof (cut_good _ _ OK _ _ _ Gs Gf Iq) as Gq. destruct (cut_some _ _ OK _ Gq) as (p & Ip).
    destruct (cut_in _ _ OK _ _ _ _ Gs Gf Iq Ip) as [I1 I2]. exists p. split; auto.
    apply (cut_ground _ _ OK _ _ _ _ Hs) in I1. destruct I1 as (A1 & A2 & A3 & A4).
    rewrite Xb, Yb in *. subst i j. rewrite !qn_plus.
    replace (xmin B + (qn j0 + qn k) * s)%Qc with (xmin B + qn j0 * s + qn k * s)%Qc by ring.
    replace (xmin B + (qn j0 + qn k + 1) * s)%Qc with (xmin B + qn j0 * s + qn k * s + s)%Qc by ring.
    replace (ymax B - (qn i0 + qn a) * s)%Qc with (ymax B - qn i0 * s - qn a * s)%Qc by ring.
    replace (ymax B - (qn i0 + qn a + 1) * s)%Qc with (ymax B - qn i0 * s - qn a * s - s)%Qc by ring. auto.
  - intros (p & Ip & A1 & A2 & A3 & A4). destruct (cut_box _ _ OK _ _ Gf Ip) as (b' & Eb' & Bx1 & Bx2 & By1 & By2).
    change (ring_box (outer (f_border f))) with (face_box f) in Eb'. rewrite Eb in Eb'. injection Eb' as <-.
    destruct (cells_ex _ _ Hs P3) as (h & Ch). destruct (cells_ex _ _ Hs P4) as (w & Cw).
    assert (Lj : (j0 <= j)%N).
    { enough (j0 < j + 1)%N by lia. apply qn_lt. rewrite qn_plus, qn_1. apply (Qclt_scale s); auto. rewrite Xb in Bx1.
      clear - Bx1 A2. generalize dependent (qn j0 * s)%Qc. generalize dependent ((qn j + 1) * s)%Qc. intros. ql. }
    assert (Li : (i0 <= i)%N).
    { enough (i0 < i + 1)%N by lia. apply qn_lt. rewrite qn_plus, qn_1. apply (Qclt_scale s); auto. rewrite Yb in By2.
      clear - By2 A3. generalize dependent (qn i0 * s)%Qc. generalize dependent ((qn i + 1) * s)%Qc. intros. ql. }
    assert (Ej : (qn j * s = qn j0 * s + qn (j - j0) * s)%Qc). { replace j with (j0 + (j - j0))%N at 1 by lia. rewrite qn_plus. ring. }
    assert (Ei : (qn i * s = qn i0 * s + qn (i - i0) * s)%Qc). { replace i with (i0 + (i - i0))%N at 1 by lia. rewrite qn_plus. ring. }
    assert (Ej' : ((qn j + 1) * s = qn j0 * s + qn (j - j0) * s + s)%Qc) by (rewrite <- Ej; ring).
    assert (Ei' : ((qn i + 1) * s = qn i0 * s + qn (i - i0) * s + s)%Qc) by (rewrite <- Ei; ring).
    assert (Mj : (j - j0 < w)%N).
    { apply qn_lt. apply (Qclt_scale s); auto. destruct Cw as [Cw _]. eapply Qclt_le_trans; [|exact Cw]. rewrite Ej in A1. rewrite Xb.
      clear - A1 Bx2. generalize dependent (qn j0 * s)%Qc. generalize dependent (qn (j - j0) * s)%Qc. intros. ql. }
    assert (Mi : (i - i0 < h)%N).
    { apply qn_lt. apply (Qclt_scale s); auto. destruct Ch as [Ch _]. eapply Qclt_le_trans; [|exact Ch]. rewrite Ei in A4. rewrite Yb.
      clear - A4 By1. generalize dependent (qn i0 * s)%Qc. generalize dependent (qn (i - i0) * s)%Qc. intros. ql. }
    assert (Gr : inside K (ground (xmin b + qn (j - j0) * s) (ymax b - qn (i - i0) * s) s) p).
    { apply (cut_ground _ _ OK); auto. rewrite Ej in A1. rewrite Ej' in A2. rewrite Ei in A4. rewrite Ei' in A3. rewrite Xb, Yb.
      clear - A1 A2 A3 A4. generalize dependent (qn i0 * s)%Qc. generalize dependent (qn (i - i0) * s)%Qc. generalize dependent (qn j0 * s)%Qc. generalize dependent (qn (j - j0) * s)%Qc.
      intros. repeat split; ql. }
    pose proof (cut_meet _ _ OK _ _ _ (cut_square _ _ OK (xmin b + qn (j - j0) * s)%Qc (ymax b - qn (i - i0) * s)%Qc s Hs) Gf Gr Ip) as M.
    destruct (pixel_height_exact K f (xmin b + qn (j - j0) * s)%Qc (ymax b - qn (i - i0) * s)%Qc s St V) as ([z|] & E & S).
    + exists z. split; auto. exists b. eexists _, _. split; auto. split; [|exact S]. exists i0, j0, h, w, (i - i0)%N, (j - j0)%N.
      repeat (split; [auto; fail|]). split; auto. lia.
    + exfalso. unfold pixel_height in E. change (pixel_pieces exact K f ?x ?y ?s) with (k_inter2 K (ground x y s) (f_border f)) in E.
      destruct (k_inter2 K (ground (xmin b + qn (j - j0) * s) (ymax b - qn (i - i0) * s) s) (f_border f)); [congruence|].
      apply bind_Ok in E as (? & _ & E). discriminate.
Qed.
Lemma given_some K B s i j l zs : given K B s i j l zs -> (zs <> [] <-> exists f z, In f l /\ gives K B s f i j z).
Proof.
  induction 1 as [|f l z zs G H IH|f l zs G H IH].
  - split; [congruence|]. intros (f & z & [] & _).
  - split; [intros _; exists f, z; split; [left|]; auto|discriminate].
  - rewrite IH. split; intros (g & z & Hg & G'); [exists g, z; split; [right|]; auto|].
    destruct Hg as [<-|Hg]; [exfalso; eapply G; eauto|eauto].
Qed.

Lemma gives_in K B s H W f i j z : (0 < s)%Qc -> grid B s H W -> drawable K B f -> gives K B s f i j z -> (i < H /\ j < W)%N.
Proof.
  intros Hs (C1 & C2 & _) D (ND & b & x & y & Eb & (i0 & j0 & h & w & a & k & W1 & W2 & W3 & W4 & (W5 & W6 & W7 & W8) & _) & _).
  destruct D as [D|(b' & Eb' & Le & St)]; [congruence|]. rewrite Eb in Eb'. injection Eb' as <-.
  pose proof (ring_box_wf (outer (f_border f))) as Wf. change (ring_box (outer (f_border f))) with (face_box f) in Wf. rewrite Eb in Wf. destruct Wf as [Wx Wy].
  destruct (box_le_inv _ _ Le Wx Wy) as (X0 & X1 & Y0 & Y1).
  assert (P3 : (0 <= ymax b - ymin b)%Qc) by (clear - Wy; ql).
  assert (P4 : (0 <= xmax b - xmin b)%Qc) by (clear - Wx; ql).
  assert (Q1 : (ymax B - ymax b + (ymax b - ymin b) <= ymax B - ymin B)%Qc) by (clear - Y0; ql).
  assert (Q2 : (xmin b - xmin B + (xmax b - xmin b) <= xmax B - xmin B)%Qc) by (clear - X1; ql).
  pose proof (bound_cells _ _ _ _ _ _ _ Hs W1 W3 C1 Q1 P3). pose proof (bound_cells _ _ _ _ _ _ _ Hs W2 W4 C2 Q2 P4). lia.
Qed.

(** ** Pixel access *)
Lemma raster_at_spec {X} (A : arith) (get : raster A -> list X) (r : raster A) i j : nsize (get r) = (r_height A r * r_width A r)%N ->
  raster_at A get r i j =
    if ((r_height A r <? i) && (r_width A r <? j))%N then Throw OutOfRange
    else if (r_height A r * r_width A r <=? wrap64 (i * r_width A r + j))%N then Throw OutOfRange
    else vat (get r) (N.to_nat (wrap64 (i * r_width A r + j))).
Proof.
  intros H. unfold raster_at. destruct (_ && _); auto. unfold vatN. rewrite H. destruct (_ <? _)%N eqn:E.
  - replace (_ <=? _)%N with false by lia. reflexivity.
  - replace (_ <=? _)%N with true by lia. reflexivity.
Qed.
(** ** Text *)
Section TEXT.
Context (A : arith).
Lemma cells_text (g : N -> num A -> str) : forall (l pre : list (num A)),
  omapM (fun it => let* v := vatN (pre ++ l) it in Ok (g it v)) (map N.of_nat (seq (length pre) (length l))) =
  Ok (map (fun x => g (N.of_nat (fst x)) (snd x)) (combine (seq (length pre) (length l)) l)).
Proof.
  induction l as [|v l IH]; intros pre; auto. cbn [length seq map omapM combine fst snd].
  rewrite (vatN_Ok (pre ++ v :: l) _ v).
  2:{ rewrite Nat2N.id, nth_error_app2 by lia. rewrite Nat.sub_diag. reflexivity. }
  cbn [bind]. specialize (IH (pre ++ [v])). rewrite <- app_assoc in IH. cbn [app] in IH.
  replace (length (pre ++ [v])) with (S (length pre)) in IH by (rewrite app_length; cbn [length]; lia).
  rewrite IH. reflexivity.
Qed.
Definition cell_text (w n : N) (it : nat) (v : num A) : str :=
  show_num A v ++ if negb ((N.of_nat it + 1) mod w =? 0)%N then [","; " "]%char
    else "]"%char :: (if negb (N.of_nat it + 1 =? n)%N then [","%char; ch_nl; " "%char; "["%char] else []).
Definition run (w n : N) (st : nat) (l : list (num A)) : str := concat (map (fun x => cell_text w n (fst x) (snd x)) (combine (seq st (length l)) l)).
Lemma run_cons w n st v l : run w n st (v :: l) = cell_text w n st v ++ run w n (S st) l.
Proof. reflexivity. Qed.
Lemma run_app w n : forall a st b, run w n st (a ++ b) = run w n st a ++ run w n (st + length a) b.
Proof.
  induction a as [|v a IH]; intros st b; cbn [app length].
  - rewrite Nat.add_0_r. reflexivity.
  - rewrite !run_cons, IH, <- app_assoc. do 2 f_equal. f_equal. lia.
Qed.
Lemma run_row w n k : (0 < w)%N -> forall l st, l <> [] -> (N.of_nat st + nsize l = (k + 1) * w)%N -> (nsize l <= w)%N ->
  run w n st l = sep_by [","; " "]%char (map (show_num A) l) ++ "]"%char :: (if negb ((k + 1) * w =? n)%N then [","%char; ch_nl; " "%char; "["%char] else []).
Proof.
  intros Hw. unfold nsize. induction l as [|v l IH]; intros st N E L; [congruence|]. cbn [length] in *. rewrite run_cons. unfold cell_text.
  destruct l as [|u l].
  - cbn [length] in E. replace (N.of_nat st + 1)%N with ((k + 1) * w)%N by lia. rewrite N.mod_mul by lia. cbn [N.eqb negb map sep_by]. 
    unfold run. cbn [length seq combine map concat]. rewrite app_nil_r. reflexivity.
  - cbn [length] in *. replace (((N.of_nat st + 1) mod w =? 0)%N) with false.
    + cbn [negb]. rewrite IH; [|discriminate|lia|lia]. cbn [map sep_by]. rewrite <- !app_assoc. reflexivity.
    + symmetry. apply N.eqb_neq. intros M. replace (N.of_nat st + 1)%N with (k * w + (N.of_nat st + 1 - k * w))%N in M by nia.
      rewrite N.add_comm, N.mod_add in M by lia. rewrite N.mod_small in M by nia. nia.
Qed.
Lemma run_rows w n : (0 < w)%N -> forall rows k, rows <> [] -> Forall (fun row => nsize row = w) rows -> ((k + nsize rows) * w = n)%N ->
  "["%char :: run w n (N.to_nat (k * w)) (concat rows) =
  sep_by [","%char; ch_nl; " "%char] (map (fun row => "["%char :: sep_by [","; " "]%char (map (show_num A) row) ++ ["]"%char]) rows).
Proof.
  intros Hw rows. unfold nsize. induction rows as [|row rows IH]; intros k N F E; [congruence|]. inversion F as [|? ? F1 F2]; subst. cbn [concat map length] in *.
  rewrite run_app. assert (R : row <> []) by (intros ->; cbn [length] in Hw; lia).
  rewrite (run_row (N.of_nat (length row)) _ k) by (unfold nsize; auto; lia).
  destruct rows as [|row' rows].
  - cbn [concat length]. replace (((k + 1) * _ =? _)%N) with true by (symmetry; apply N.eqb_eq; cbn [length]; lia).
    cbn [negb map sep_by]. unfold run. cbn [length seq combine map concat]. rewrite app_nil_r. reflexivity.
  - replace (((k + 1) * _ =? _)%N) with false by (symmetry; apply N.eqb_neq; cbn [length]; nia). cbn [negb].
    specialize (IH (k + 1)%N). cbn [map] in *.
    change (sep_by [","%char; ch_nl; " "%char] (?a :: ?b :: ?l)) with (a ++ [","%char; ch_nl; " "%char] ++ sep_by [","%char; ch_nl; " "%char] (b :: l)).
    rewrite <- IH; [|discriminate|auto|lia].
    replace (N.to_nat (k * N.of_nat (length row)) + length row) with (N.to_nat ((k + 1) * N.of_nat (length row))) by lia.
    cbn [app]. f_equal. rewrite <- !app_assoc. cbn [app]. reflexivity.
Qed.
End TEXT.
