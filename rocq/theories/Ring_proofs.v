(** * Proofs about rings: edges and area. *)
From Verif Require Import Base Geom Surface Projection Spec_ring.
Open Scope nat_scope.

Lemma pairs_closed (l : list p2) : pairs l = closed_edges l.
Proof.
  destruct l as [|a l]; auto. unfold pairs, closed_edges. set (d := P2 0%Qc 0%Qc). cbn [tl].
  apply nth_ext with (d := (d, d)) (d' := (d, d)).
  - rewrite combine_length, map_length, seq_length, app_length. cbn [length]. lia.
  - intros i Hi. rewrite combine_length, app_length in Hi. cbn [length] in Hi.
    rewrite combine_nth by (rewrite app_length; cbn; lia).
    rewrite (nth_indep _ (d, d) ((fun i => (nth i (a :: l) d, nth ((i + 1) mod length (a :: l)) (a :: l) d)) 0)) by (rewrite map_length, seq_length; cbn; lia).
    rewrite (map_nth (fun i => (nth i (a :: l) d, nth ((i + 1) mod length (a :: l)) (a :: l) d))), seq_nth by (cbn; lia). cbn [Nat.add].
    f_equal. destruct (Nat.eq_dec i (length l)) as [->|N].
    + rewrite app_nth2, Nat.sub_diag by lia. cbn [length]. replace (length l + 1) with (S (length l)) by lia. now rewrite Nat.mod_same.
    + rewrite app_nth1 by lia. cbn [length]. rewrite Nat.mod_small by lia. replace (i + 1) with (S i) by lia. reflexivity.
Qed.
Lemma qsum_ring (F : p2 -> p2 -> Qc) o l : forall a, ring_sum F o a l = fold_right Qcplus 0%Qc (map (fun e => F (fst e) (snd e)) (combine (a :: l) (l ++ [o]))).
Proof. induction l as [|b l IH]; intros a; cbn [ring_sum combine app map fold_right fst snd]; [ring|]. rewrite IH. reflexivity. Qed.
Theorem ring_area_signed l : ring_area l = signed_area l.
Proof.
  unfold signed_area. rewrite <- pairs_closed. destruct l as [|a l]; [apply Qc_is_canon; reflexivity|]. unfold ring_area, pairs. rewrite qsum_ring. cbn [tl].
  f_equal. f_equal. apply map_ext. intros e. unfold cross2. ring.
Qed.
