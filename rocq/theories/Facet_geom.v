(** * Polygon identities: fans of triangles and cyclic sums (for C42, C45). *)
From Verif Require Import Base Geom Shadow Handlers Surface Spec_surface.
Open Scope nat_scope.

(** For an antisymmetric F, the sum over the cyclic pairs of o :: r is the sum over the fan
    triangles of F o a + F a b + F b o *)
Section TELESCOPE.
  Context (F : p3 -> p3 -> Qc) (anti : forall p q, F q p = (- F p q)%Qc).
  Definition tri_sum (t : p3 * p3 * p3) : Qc := let '(o, a, b) := t in (F o a + F a b + F b o)%Qc.
  Fixpoint chain (a : p3) (l : list p3) (last : p3) : Qc :=
    match l with [] => F a last | b :: l => (F a b + chain b l last)%Qc end.
  Lemma pairs_chain o : forall l a, qsum (map (fun pq => F (fst pq) (snd pq)) (combine (a :: l) (l ++ [o]))) = chain a l o.
  Proof.
    induction l as [|b l IH]; intros a; cbn [app combine map qsum chain fst snd]; [ring|]. f_equal. apply IH.
  Qed.
  Lemma Fself p : F p p = 0%Qc.
  Proof.
    pose proof (anti p p) as H. assert (E : (F p p + F p p = 0)%Qc) by (rewrite H at 1; ring).
    assert (T : (qz 2 * F p p = 0)%Qc) by (transitivity (F p p + F p p)%Qc; [change (qz 2) with (1 + 1)%Qc; ring|auto]).
    apply Qcmult_integral in T as [T|T]; auto. discriminate T.
  Qed.
  Lemma chain_fan o : forall l a, (F o a + chain a l o)%Qc = qsum (map tri_sum (triangles o (a :: l))).
  Proof.
    induction l as [|b l IH]; intros a.
    - cbn. rewrite (anti o a). ring.
    - change (triangles o (a :: b :: l)) with ((o, a, b) :: triangles o (b :: l)). cbn [map qsum chain tri_sum].
      rewrite <- IH. rewrite (anti o b). ring.
  Qed.
  Lemma cyclic_fan o r : qsum (map (fun pq => F (fst pq) (snd pq)) (cyclic_pairs (o :: r))) = qsum (map tri_sum (triangles o r)).
  Proof.
    cbn [cyclic_pairs]. rewrite pairs_chain. destruct r as [|a r]; [cbn; now rewrite Fself|]. cbn [chain]. apply chain_fan.
  Qed.
End TELESCOPE.

Lemma vsum_x l : x3 (vsum l) = qsum (map x3 l).
Proof. induction l as [|a l IH]; cbn; auto. f_equal; auto. Qed.
Lemma vsum_y l : y3 (vsum l) = qsum (map y3 l).
Proof. induction l as [|a l IH]; cbn; auto. f_equal; auto. Qed.
Lemma vsum_z l : z3 (vsum l) = qsum (map z3 l).
Proof. induction l as [|a l IH]; cbn; auto. f_equal; auto. Qed.
Lemma fan_triangles o l : fan o l = vsum (map (fun t => let '(o, a, b) := t in cross (vsub a o) (vsub b o)) (triangles o l)).
Proof.
  induction l as [|a l IH]; auto. destruct l as [|b l]; auto. cbn [fan triangles map].
  change (vsum (?x :: ?y)) with (vadd x (vsum y)). f_equal. exact IH.
Qed.
Lemma vector_area_newell l : vector_area l = newell l.
Proof.
  destruct l as [|o r]; auto. unfold vector_area, newell. rewrite fan_triangles.
  assert (G : forall (c : p3 -> Qc), (forall p q, c (cross q p) = (- c (cross p q))%Qc) ->
            (forall o a b, c (cross (vsub a o) (vsub b o)) = (c (cross o a) + c (cross a b) + c (cross b o))%Qc) ->
            qsum (map c (map (fun t => let '(o, a, b) := t in cross (vsub a o) (vsub b o)) (triangles o r))) =
            qsum (map c (map (fun pq => cross (fst pq) (snd pq)) (cyclic_pairs (o :: r))))).
  { intros c H1 H2. rewrite !map_map. rewrite (cyclic_fan (fun p q => c (cross p q)) H1). f_equal. apply map_ext. intros [[x a] b]. apply H2. }
  apply p3_eq.
  - rewrite !vsum_x. apply (G x3); intros; cbn; ring.
  - rewrite !vsum_y. apply (G y3); intros; cbn; ring.
  - rewrite !vsum_z. apply (G z3); intros; cbn; ring.
Qed.

(** ** C45 *)
Lemma dot_vsum u l : dot u (vsum l) = qsum (map (dot u) l).
Proof.
  induction l as [|a l IH]; [unfold dot, vsum; cbn; ring|]. change (vsum (a :: l)) with (vadd a (vsum l)). cbn [map qsum]. rewrite <- IH.
  unfold dot, vadd; cbn; ring.
Qed.
Lemma fold_left_vsum {A} (g : A -> p3) l : forall c, fold_left (fun c x => vadd c (g x)) l c = vadd c (vsum (map g l)).
Proof.
  induction l as [|x l IH]; intros c; cbn [fold_left map].
  - apply p3_eq; cbn; ring.
  - rewrite IH. change (vsum (g x :: map g l)) with (vadd (g x) (vsum (map g l))). apply p3_eq; cbn; ring.
Qed.
Lemma pairs_cyclic {A} (l : list A) : pairs l = cyclic_pairs l.
Proof. destruct l; reflexivity. Qed.
Lemma dot_scale u k p : dot u (vscale k p) = (k * dot u p)%Qc.
Proof. unfold dot, vscale; cbn; ring. Qed.
Lemma dot_add u p q : dot u (vadd p q) = (dot u p + dot u q)%Qc.
Proof. unfold dot, vadd; cbn; ring. Qed.
Lemma qsum_scale {A} k (f : A -> Qc) l : qsum (map (fun x => (k * f x)%Qc) l) = (k * qsum (map f l))%Qc.
Proof. induction l as [|x l IH]; cbn; [ring|rewrite IH; ring]. Qed.
Lemma centroid_dot u n a l : dot u (centroid n a l) =
  (/ a * (/ qz 6 * qsum (map (fun pq => (det (fst pq) (snd pq) n * dot u (vadd (fst pq) (snd pq)))%Qc) (cyclic_pairs l))))%Qc.
Proof.
  unfold centroid. rewrite dot_scale. f_equal. rewrite (fold_left_vsum (fun pq => vscale (det (fst pq) (snd pq) n / qz 6) (vadd (fst pq) (snd pq)))).
  rewrite dot_add, dot_vsum, map_map, pairs_cyclic. rewrite <- qsum_scale.
  assert (E : dot u v0 = 0%Qc) by (unfold dot, v0; cbn; ring). rewrite E, Qcplus_0_l. f_equal. apply map_ext. intros pq. rewrite dot_scale. unfold Qcdiv. ring.
Qed.
Lemma det_anti p q n : det q p n = (- det p q n)%Qc.
Proof. unfold det, dot, cross; cbn; ring. Qed.
Lemma det_tri o a b n : det (vsub a o) (vsub b o) n = (det o a n + det a b n + det b o n)%Qc.
Proof. unfold det, dot, cross, vsub; cbn; ring. Qed.
Lemma moment_tri u n o a b : dot u n = 0%Qc ->
  (det o a n * dot u (vadd o a) + det a b n * dot u (vadd a b) + det b o n * dot u (vadd b o))%Qc = (det (vsub a o) (vsub b o) n * dot u (vadd o (vadd a b)))%Qc.
Proof.
  intros H. assert (E : (det o a n * dot u (vadd o a) + det a b n * dot u (vadd a b) + det b o n * dot u (vadd b o))%Qc =
    (det (vsub a o) (vsub b o) n * dot u (vadd o (vadd a b)) - det o a b * dot u n)%Qc).
  { unfold det, dot, cross, vsub, vadd; cbn; ring. }
  rewrite E, H. ring.
Qed.
Lemma poly_area_cyclic n l : poly_area n l = (/ qz 2 * qsum (map (fun pq => det (fst pq) (snd pq) n) (cyclic_pairs l)))%Qc.
Proof.
  destruct l as [|o r]; [cbn; ring|]. unfold poly_area. rewrite (cyclic_fan (fun p q => det p q n) (fun p q => det_anti p q n)).
  rewrite <- qsum_scale. f_equal. apply map_ext. intros [[x a] b]. cbn [tri_area tri_sum]. rewrite det_tri. unfold Qcdiv. ring.
Qed.
Lemma qz_nonzero z : z <> 0%Z -> qz z <> 0%Qc.
Proof. intros H E. apply H. unfold qz in E. apply Q2Qc_eq_iff in E. unfold inject_Z, Qeq in E. cbn in E. lia. Qed.
Lemma C45_in_plane_proof : forall n l u, dot u n = 0%Qc -> dot u (centroid n (poly_area n l) l) = dot u (poly_center n l).
Proof.
  intros n l u H. rewrite centroid_dot. destruct l as [|o r]; [cbn; unfold dot, v0; cbn; ring|].
  unfold poly_center. set (A := poly_area n (o :: r)). rewrite dot_scale. f_equal. rewrite dot_vsum, map_map.
  rewrite (cyclic_fan (fun p q => (det p q n * dot u (vadd p q))%Qc)).
  2:{ intros p q. rewrite det_anti. assert (E : vadd q p = vadd p q) by (apply p3_eq; cbn; ring). rewrite E. ring. }
  rewrite <- qsum_scale. f_equal. apply map_ext. intros [[x a] b]. cbn [tri_sum tri_area tri_center].
  rewrite (moment_tri u n x a b H). rewrite !dot_scale. unfold Qcdiv.
  assert (E : (/ qz 6 = / qz 2 * / qz 3)%Qc) by (apply Qc_is_canon; reflexivity). rewrite E. ring.
Qed.
Lemma C45_height_proof : forall n l h, (forall p, In p l -> dot n p = h) -> poly_area n l <> 0%Qc ->
  dot n (centroid n (poly_area n l) l) = (qz 2 / qz 3 * h)%Qc.
Proof.
  intros n l h Hl HA. rewrite centroid_dot.
  assert (E : qsum (map (fun pq => (det (fst pq) (snd pq) n * dot n (vadd (fst pq) (snd pq)))%Qc) (cyclic_pairs l)) =
              (qz 2 * h * qsum (map (fun pq => det (fst pq) (snd pq) n) (cyclic_pairs l)))%Qc).
  { rewrite <- qsum_scale. f_equal. apply map_ext_in. intros [p q] Hpq. cbn [fst snd].
    assert (Hp : In p l /\ In q l).
    { destruct l as [|o r]; [destruct Hpq|]. cbn [cyclic_pairs] in Hpq. split; [apply in_combine_l in Hpq; auto|]. apply in_combine_r in Hpq.
      apply in_app_or in Hpq as [Hpq|[<-|[]]]; [right; auto|left; auto]. }
    destruct Hp as [Hp Hq]. rewrite dot_add, (Hl p Hp), (Hl q Hq). change (qz 2) with (1 + 1)%Qc. ring. }
  rewrite E. assert (K : qsum (map (fun pq => det (fst pq) (snd pq) n) (cyclic_pairs l)) = (qz 2 * poly_area n l)%Qc).
  { rewrite poly_area_cyclic. field. apply qz_nonzero; lia. }
  rewrite K. assert (E6 : (/ qz 6 = / qz 2 * / qz 3)%Qc) by (apply Qc_is_canon; reflexivity). rewrite E6. field.
  repeat split; auto; apply qz_nonzero; lia.
Qed.
