(** * C77: equality of points, vectors and meshes. *)
From Verif Require Import Base Dbl Dbl_facts Shadow Spec_shadow Face_proofs Props_shadow.

(** the same position: equal coordinates as doubles compare *)
Definition same_point (p q : point) : Prop := deqb (px p) (px q) = true /\ deqb (py p) (py q) = true /\ deqb (pz p) (pz q) = true.
Definition finite_point (p : point) : Prop := disnan (px p) = false /\ disnan (py p) = false /\ disnan (pz p) = false.
(** no face repeats an index or is empty *)
Definition simple_faces (m : mesh) : Prop := forall f, In f (m_faces m) -> NoDup f /\ f <> [].

Theorem C77_points : forall p q, (pt_eqb p q = true <-> same_point p q) /\ (pt_neqb p q = true <-> ~ same_point p q).
Proof.
  intros p q. assert (forall p q, pt_eqb p q = true <-> same_point p q) as A. { intros a b. unfold pt_eqb, same_point. rewrite !andb_true_iff. tauto. }
  split; auto. unfold pt_neqb. rewrite negb_true_iff, <- not_true_iff_false, A. unfold same_point. rewrite (deqb_sym (px q)), (deqb_sym (py q)), (deqb_sym (pz q)). tauto.
Qed.
(** vectors: by their three coordinates *)
Theorem C77_vectors : forall u v, v_eqb u v = true <-> deqb (vx u) (vx v) = true /\ deqb (vy u) (vy v) = true /\ deqb (vz u) (vz v) = true.
Proof. intros u v. unfold v_eqb. rewrite !andb_true_iff. tauto. Qed.
Lemma F2_length {A B} (R : A -> B -> Prop) l k : Forall2 R l k -> length l = length k.
Proof. induction 1; cbn; auto. Qed.
Lemma points_eqb P : forall Q, list_eqb pt_eqb P Q = true <-> Forall2 same_point P Q.
Proof.
  induction P as [|p P IH]; intros [|q Q]; cbn; split; intros H; try discriminate; try constructor; try now inversion H.
  - apply andb_true_iff in H as [H _]. now apply C77_points.
  - apply andb_true_iff in H as [_ H]. now apply IH.
  - inversion H; subst. apply andb_true_iff. split; [now apply C77_points|now apply IH].
Qed.
Lemma faces_eqb_false F : forall G, faces_eqb F G false <> Ok true.
Proof. induction F as [|f F IH]; intros [|g G]; cbn; try discriminate. destruct (face_eqb f g) as [[]|e|]; cbn; try discriminate; apply IH. Qed.
Lemma faces_eqb_true F : forall G, length F = length G -> (forall f, In f F -> NoDup f /\ f <> []) -> (faces_eqb F G true = Ok true <-> Forall2 rotation F G).
Proof.
  induction F as [|f F IH]; intros [|g G] L S; cbn in L; try discriminate; cbn [faces_eqb].
  - split; auto.
  - destruct (S f (or_introl eq_refl)) as [N E]. pose proof (C08_equality_is_rotation f g N E) as R. split.
    + intros H. destruct (face_eqb f g) as [b|e|] eqn:Ef; cbn [bind andb] in H; try discriminate. destruct b; [|now apply faces_eqb_false in H].
      constructor; [now apply R|]. apply IH; auto. intros; apply S; now right.
    + intros H. inversion H as [|? ? ? ? Hf HF]; subst. rewrite (proj2 R Hf). cbn [bind andb]. apply IH; auto. intros; apply S; now right.
Qed.
(** two meshes are equal when their points are the same in order, and their faces, in order,
    are the same cycles; names and boxes do not count *)
Theorem C77_mesh_equality : forall a b, simple_faces a ->
  (mesh_eqb a b = Ok true <-> Forall2 same_point (m_points a) (m_points b) /\ Forall2 rotation (m_faces a) (m_faces b)).
Proof.
  intros a b S. unfold mesh_eqb. split.
  - intros H. destruct (Nat.eqb_spec (length (m_points a)) (length (m_points b))) as [L|]; [|discriminate]. destruct (Nat.eqb_spec (length (m_faces a)) (length (m_faces b))) as [L'|]; [|discriminate].
    cbn [andb] in H. destruct (list_eqb pt_eqb _ _) eqn:E; [|discriminate]. split; [now apply points_eqb|]. now apply faces_eqb_true.
  - intros [P F]. pose proof (F2_length _ _ _ P) as L. assert (length (m_faces a) = length (m_faces b)) as L' by exact (F2_length _ _ _ F). rewrite L, L', !Nat.eqb_refl. cbn [andb]. rewrite (proj2 (points_eqb _ _) P). now apply faces_eqb_true.
Qed.
Theorem C77_equivalence : (forall a, simple_faces a -> (forall p, In p (m_points a) -> finite_point p) -> mesh_eqb a a = Ok true) /\
  (forall a b, simple_faces a -> simple_faces b -> mesh_eqb a b = Ok true -> mesh_eqb b a = Ok true) /\
  (forall a b c, simple_faces a -> simple_faces b -> mesh_eqb a b = Ok true -> mesh_eqb b c = Ok true -> mesh_eqb a c = Ok true).
Proof.
  assert (forall x y, rotation x y -> rotation y x) as RS by (intros x y (u & v & -> & ->); exists v, u; auto).
  split; [|split].
  - intros a S P. apply C77_mesh_equality; auto. split.
    + clear S. induction (m_points a) as [|p l IH]; constructor; [|apply IH; intros; apply P; now right]. destruct (P p (or_introl eq_refl)) as (A & B & C). repeat split; now apply deqb_refl.
    + clear. induction (m_faces a) as [|f l IH]; constructor; auto. exists [], f. now rewrite app_nil_r.
  - intros a b Sa Sb H. apply C77_mesh_equality; auto. apply C77_mesh_equality in H as [P F]; auto. split.
    + clear F Sa Sb. induction P as [|p q P Q H P' IH]; constructor; auto. unfold same_point in *. rewrite (deqb_sym (px q)), (deqb_sym (py q)), (deqb_sym (pz q)). tauto.
    + clear P Sa Sb. induction F as [|p q P Q H P' IH]; constructor; auto.
  - intros a b c Sa Sb H K. apply C77_mesh_equality; auto. apply C77_mesh_equality in H as [P F]; auto. apply C77_mesh_equality in K as [P' F']; auto. split.
    + clear F F' Sa Sb. revert P'. generalize (m_points c) as Z. induction P as [|p q P Q H P1 IH]; intros Z P'; inversion P' as [|? z ? Z' Hz HZ]; subst; constructor; auto.
      destruct H as (H1 & H2 & H3), Hz as (K1 & K2 & K3). unfold same_point. repeat split; eapply deqb_trans; eauto.
    + clear P P'. assert (forall F G H, Forall2 rotation F G -> (forall f, In f F -> NoDup f /\ f <> []) -> Forall2 rotation G H -> Forall2 rotation F H) as T; [|eapply T; eauto].
      clear. induction F as [|f F IH]; intros G H A S B; inversion A as [|? g ? G' Ha Hb]; subst; inversion B as [|? h ? H' Hc Hd]; subst; constructor.
      * destruct (S f (or_introl eq_refl)) as [N E]. destruct C08_equivalence as (_ & _ & T). apply (C08_equality_implies_rotation f h). apply (T f g h); auto; [now apply C08_equality_is_rotation|].
        assert (NoDup g /\ g <> []) as [Ng Eg]. { destruct Ha as (u & v & -> & ->). split; [|destruct v; [rewrite app_nil_r in E; destruct u; easy|discriminate]]. eapply Permutation_NoDup; [apply Permutation_app_comm|exact N]. }
        now apply C08_equality_is_rotation.
      * eapply IH; eauto. intros; apply S; now right.
Qed.
(** the name and the box do not count *)
Theorem C77_name_ignored : forall a b n, mesh_eqb (fst (mesh_set_name a n)) b = mesh_eqb a b.
Proof. reflexivity. Qed.
(** a mesh with a NaN coordinate is not equal to itself, nor to its copy *)
Theorem C77_nan_refuted : exists a, simple_faces a /\ mesh_eqb a a = Ok false /\ mesh_eqb a (mesh_copy a) = Ok false.
Proof. exists (mesh_make [] [mkPoint dnan dzero dzero] []). split; [intros f []|]. split; reflexivity. Qed.
Example C77_example : simple_faces tri_mesh /\ (forall p, In p (m_points tri_mesh) -> finite_point p) /\
  mesh_eqb tri_mesh (mesh_make ["z"%char] (m_points tri_mesh) [[1; 2; 0]%N]) = Ok true /\ mesh_eqb tri_mesh (mesh_make [] (m_points tri_mesh) [[2; 1; 0]%N]) = Ok false.
Proof.
  split; [intros f [<-|[]]; split; [repeat constructor; cbn; intuition discriminate|discriminate]|]. split; [intros p H; cbn in H; unfold finite_point; intuition; subst; auto|]. split; reflexivity.
Qed.
