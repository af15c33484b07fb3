(** * Strip: a concrete polygon kernel.

    Its polygons are the rectangles [a,b] x [0,1] and its polygon sets the finite unions of
    them; all operations are computed.  It shows that [kernel_ok] can be met and serves in
    the examples.  Nothing here models project code. *)
From Verif Require Import Base Geom Decimal Surface Projection Spec_projection.
From Coq Require Import Lqa.
Open Scope nat_scope.

Definition strip (a b : Qc) : poly := mkPoly [P2 a 0; P2 b 0; P2 b 1; P2 a 1]%Qc [].
Definition ivl := (Qc * Qc)%type.
Definition istrip (i : ivl) : poly := strip (fst i) (snd i).
Definition iv (P : poly) : ivl := match outer P with [a; b; _; _] => (x2 a, x2 b) | _ => (0, 0)%Qc end.
Definition iside (i : ivl) (p : p2) : side :=
  if Qcltb (x2 p) (fst i) || Qcltb (snd i) (x2 p) || Qcltb (y2 p) 0 || Qcltb 1 (y2 p) then Outside
  else if Qcltb (fst i) (x2 p) && Qcltb (x2 p) (snd i) && Qcltb 0 (y2 p) && Qcltb (y2 p) 1 then Inside else Boundary.
Definition idiff (i j : ivl) : list ivl :=
  (let b := qmin (snd i) (fst j) in if Qcltb (fst i) b then [(fst i, b)] else []) ++
  (let a := qmax (fst i) (snd j) in if Qcltb a (snd i) then [(a, snd i)] else []).
Definition iinter (i j : ivl) : list ivl :=
  let a := qmax (fst i) (fst j) in let b := qmin (snd i) (snd j) in if Qcltb a b then [(a, b)] else [].
Definition touch (i j : ivl) : bool := Qcleb (fst i) (snd j) && Qcleb (fst j) (snd i).
Fixpoint ijoin (i : ivl) (s : list ivl) : list ivl :=
  match s with
  | [] => [i]
  | j :: s => if touch i j then ijoin (qmin (fst i) (fst j), qmax (snd i) (snd j)) s else j :: ijoin i s
  end.
Definition strips : kernel := mkKernel
  (fun l p => iside (iv (mkPoly l [])) p)
  (fun l => match l with [_; _; _; _] => true | _ => false end)
  (list ivl) [] (fun P => [iv P]) (fun s P => ijoin (iv P) s)
  (fun s P => flat_map (fun i => iinter i (iv P)) s)
  (fun s P => flat_map (fun i => idiff i (iv P)) s)
  (fun s => match s with [] => true | _ => false end)
  (map istrip) (fun P Q => map istrip (iinter (iv P) (iv Q))) (fun q => q) (fun q => q).

Definition sgood_strip (s : list ivl) : Prop :=
  Forall (fun i => (fst i < snd i)%Qc) s /\ ForallOrdPairs (fun i j => (snd i < fst j)%Qc \/ (snd j < fst i)%Qc) s.
Definition good_strip (P : poly) : Prop := exists i, (fst i < snd i)%Qc /\ P = istrip i.

(** order reasoning *)
Ltac qo := unfold Qclt, Qcle in *; lra.
Lemma qmin_spec a b : (qmin a b = a /\ a <= b)%Qc \/ (qmin a b = b /\ b < a)%Qc.
Proof. unfold qmin. destruct (Qcleb a b) eqn:E; [apply Qcleb_le in E|apply Qcleb_gt in E]; auto. Qed.
Lemma qmax_spec a b : (qmax a b = b /\ a <= b)%Qc \/ (qmax a b = a /\ b < a)%Qc.
Proof. unfold qmax. destruct (Qcleb a b) eqn:E; [apply Qcleb_le in E|apply Qcleb_gt in E]; auto. Qed.
Ltac qcases :=
  repeat match goal with
  | |- context [qmin ?a ?b] => let E := fresh "EQ" in destruct (qmin_spec a b) as [[E ?]|[E ?]]; rewrite !E in *; clear E
  | |- context [qmax ?a ?b] => let E := fresh "EQ" in destruct (qmax_spec a b) as [[E ?]|[E ?]]; rewrite !E in *; clear E
  | H : context [qmin ?a ?b] |- _ => let E := fresh "EQ" in destruct (qmin_spec a b) as [[E ?]|[E ?]]; rewrite !E in *; clear E
  | H : context [qmax ?a ?b] |- _ => let E := fresh "EQ" in destruct (qmax_spec a b) as [[E ?]|[E ?]]; rewrite !E in *; clear E
  end.
Ltac qbool :=
  repeat match goal with
  | |- context [Qcltb ?a ?b] => let E := fresh "EQ" in destruct (Qcltb a b) eqn:E; [apply Qcltb_lt in E|apply Qcltb_ge in E]
  | |- context [Qcleb ?a ?b] => let E := fresh "EQ" in destruct (Qcleb a b) eqn:E; [apply Qcleb_le in E|apply Qcleb_gt in E]
  end.
Definition iin (i : ivl) (p : p2) : Prop := (fst i < x2 p /\ x2 p < snd i /\ 0 < y2 p /\ y2 p < 1)%Qc.
Definition iout (i : ivl) (p : p2) : Prop := (x2 p < fst i \/ snd i < x2 p \/ y2 p < 0 \/ 1 < y2 p)%Qc.
Lemma iside_in i p : iside i p = Inside <-> iin i p.
Proof. unfold iside, iin. qbool; cbn; split; intros HH; try discriminate; auto; try (exfalso; qo); repeat split; qo. Qed.
Lemma iside_out i p : iside i p = Outside <-> iout i p.
Proof. unfold iside, iout. qbool; cbn; split; intros HH; try discriminate; auto; try (exfalso; qo). Qed.
Lemma iside_clear i p : iside i p <> Boundary <-> iin i p \/ iout i p.
Proof. rewrite <- iside_in, <- iside_out. destruct (iside i p); split; intros H; auto; try (destruct H; discriminate); try discriminate; congruence. Qed.
Lemma iv_strip i : iv (istrip i) = i.
Proof. destruct i; reflexivity. Qed.
Lemma strip_side i p : k_side strips (outer (istrip i)) p = iside i p.
Proof. destruct i; reflexivity. Qed.
Lemma strip_inside i p : inside strips (istrip i) p <-> iin i p.
Proof. unfold inside. rewrite strip_side. cbn [istrip strip holes]. rewrite iside_in. cbn [In]. intuition. Qed.
Lemma strip_clear i p : clear strips (istrip i) p <-> iin i p \/ iout i p.
Proof. unfold clear. rewrite strip_side. cbn [istrip strip holes]. rewrite iside_clear. cbn [In]. intuition. Qed.
Lemma strip_covered i p : covered strips (istrip i) p <-> ~ iout i p.
Proof. unfold covered. rewrite strip_side. cbn [istrip strip holes]. rewrite iside_out. cbn [In]. intuition. Qed.
Lemma strips_inside s p : some_inside strips (map istrip s) p <-> exists i, In i s /\ iin i p.
Proof.
  unfold some_inside. split.
  - intros (P & HP & I). apply in_map_iff in HP as (i & <- & Hi). apply strip_inside in I. eauto.
  - intros (i & Hi & I). exists (istrip i). split; [now apply in_map|now apply strip_inside].
Qed.
Lemma strips_covered s p : some_covered strips (map istrip s) p <-> exists i, In i s /\ ~ iout i p.
Proof.
  unfold some_covered. split.
  - intros (P & HP & I). apply in_map_iff in HP as (i & <- & Hi). apply strip_covered in I. eauto.
  - intros (i & Hi & I). exists (istrip i). split; [now apply in_map|now apply strip_covered].
Qed.
Lemma strips_clear s p : all_clear strips (map istrip s) p <-> forall i, In i s -> iin i p \/ iout i p.
Proof.
  unfold all_clear. split.
  - intros H i Hi. apply strip_clear, H. now apply in_map.
  - intros H P HP. apply in_map_iff in HP as (i & <- & Hi). apply strip_clear. auto.
Qed.

Lemma FOP_map {A B} (R : B -> B -> Prop) (f : A -> B) l : ForallOrdPairs (fun a b => R (f a) (f b)) l -> ForallOrdPairs R (map f l).
Proof.
  induction 1; cbn; constructor; auto. apply Forall_map. auto.
Qed.
Lemma FOP_app {A} (R : A -> A -> Prop) l m : ForallOrdPairs R l -> ForallOrdPairs R m -> (forall a b, In a l -> In b m -> R a b) -> ForallOrdPairs R (l ++ m).
Proof.
  induction 1 as [|a l Ha Hl IH]; cbn; intros Hm H; auto. constructor.
  - apply Forall_app. split; auto. apply Forall_forall. intros b Hb. apply H; auto.
  - apply IH; auto.
Qed.
Lemma FOP_flat_map {A B} (R : A -> A -> Prop) (S : B -> B -> Prop) (f : A -> list B) l : ForallOrdPairs R l ->
  (forall a, In a l -> ForallOrdPairs S (f a)) -> (forall a b x y, R a b -> In x (f a) -> In y (f b) -> S x y) -> ForallOrdPairs S (flat_map f l).
Proof.
  induction 1 as [|a l Ha Hl IH]; cbn; intros H1 H2; [constructor|]. apply FOP_app; auto.
  intros x y Hx Hy. apply in_flat_map in Hy as (b & Hb & Hy). rewrite Forall_forall in Ha. eauto.
Qed.
Lemma In_idiff k i j : In k (idiff i j) -> (fst i <= fst k /\ fst k < snd k /\ snd k <= snd i)%Qc.
Proof.
  unfold idiff. cbn [In app]. intros H. apply in_app_or in H as [H|H]; revert H; qbool; cbn [In]; (intros [<-|[]] || intros []); cbn [fst snd]; qcases; repeat split; qo.
Qed.
Lemma In_iinter k i j : In k (iinter i j) -> (fst i <= fst k /\ fst j <= fst k /\ fst k < snd k /\ snd k <= snd i /\ snd k <= snd j)%Qc.
Proof.
  unfold iinter. qbool; cbn [In]; [intros [<-|[]]|intros []]. cbn [fst snd]. qcases; repeat split; qo.
Qed.
Lemma idiff_sep i j : (fst j < snd j)%Qc -> ForallOrdPairs (fun i j : ivl => (snd i < fst j)%Qc \/ (snd j < fst i)%Qc) (idiff i j).
Proof.
  intros Hj. unfold idiff. qbool; cbn [app]; repeat (apply FOP_cons || apply FOP_nil || apply Forall_cons || apply Forall_nil). cbn [fst snd]. left. qcases; qo.
Qed.
Lemma sgood_flat f s : sgood_strip s -> (forall i k, In k (f i) -> (fst i <= fst k /\ fst k < snd k /\ snd k <= snd i)%Qc) ->
  (forall i, In i s -> ForallOrdPairs (fun i j : ivl => (snd i < fst j)%Qc \/ (snd j < fst i)%Qc) (f i)) -> sgood_strip (flat_map f s).
Proof.
  intros [S1 S2] H1 H2. split.
  - apply Forall_forall. intros k Hk. apply in_flat_map in Hk as (i & _ & Hk). now apply H1 in Hk.
  - eapply FOP_flat_map; [exact S2|exact H2|]. intros a b x y R Hx Hy. apply H1 in Hx. apply H1 in Hy. cbn in R. destruct R; [left|right]; qo.
Qed.
Lemma sep_In (i : ivl) s : Forall (fun j : ivl => (snd i < fst j)%Qc \/ (snd j < fst i)%Qc) s -> forall j, In j s -> (snd i < fst j)%Qc \/ (snd j < fst i)%Qc.
Proof. intros F j Hj. rewrite Forall_forall in F. auto. Qed.
Lemma ijoin_far i s j : (fst j < snd j)%Qc -> (fst i < snd i)%Qc -> Forall (fun k : ivl => (fst k < snd k)%Qc) s ->
  (snd j < fst i \/ snd i < fst j)%Qc -> Forall (fun k : ivl => (snd j < fst k)%Qc \/ (snd k < fst j)%Qc) s ->
  Forall (fun k : ivl => (snd j < fst k)%Qc \/ (snd k < fst j)%Qc) (ijoin i s).
Proof.
  intros Gj. revert i. induction s as [|k s IH]; intros i Gi G Hi F; cbn [ijoin].
  - constructor; auto.
  - inversion F as [|? ? F1 F2]; subst. inversion G as [|? ? G1 G2]; subst. unfold touch. qbool; cbn [andb].
    + apply IH; auto; cbn [fst snd]; qcases; try qo; destruct Hi, F1; try (exfalso; qo); (left; qo) || (right; qo).
    + constructor; auto.
    + constructor; auto.
    + constructor; auto.
Qed.
Lemma sgood_join i s : (fst i < snd i)%Qc -> sgood_strip s -> sgood_strip (ijoin i s).
Proof.
  intros Gi [S1 S2]. revert i Gi. induction S2 as [|j s Hj S2 IH]; intros i Gi; cbn [ijoin].
  - split; repeat constructor; auto.
  - inversion S1 as [|? ? G1 G2]; subst. destruct (touch i j) eqn:T.
    + apply IH; auto. cbn [fst snd]. qcases; qo.
    + destruct (IH G2 i Gi) as [A B]. split; constructor; auto. apply ijoin_far; auto.
      unfold touch in T. apply andb_false_iff in T as [T|T]; apply Qcleb_gt in T; auto.
Qed.
Lemma at_ijoin p s : forall i, (fst i < snd i)%Qc -> Forall (fun k : ivl => (fst k < snd k)%Qc) s -> iin i p \/ iout i p -> (forall j, In j s -> iin j p \/ iout j p) ->
  (forall j, In j (ijoin i s) -> iin j p \/ iout j p) /\ ((exists j, In j (ijoin i s) /\ iin j p) <-> (exists j, In j s /\ iin j p) \/ iin i p).
Proof.
  induction s as [|k s IH]; intros i Gi G Ci C; cbn [ijoin].
  - split; [intros j [<-|[]]; auto|]. split; [intros (j & [<-|[]] & H); auto|intros [(j & [] & _)|H]; exists i; cbn; auto].
  - inversion G as [|? ? G1 G2]; subst. destruct (touch i k) eqn:T.
    + unfold touch in T. apply andb_true_iff in T as [T1 T2]. apply Qcleb_le in T1. apply Qcleb_le in T2.
      assert (Ck : iin k p \/ iout k p) by (apply C; left; auto).
      assert (X : let h := (qmin (fst i) (fst k), qmax (snd i) (snd k)) in (iin h p \/ iout h p) /\ (iin h p <-> iin i p \/ iin k p)).
      { cbv zeta. unfold iin, iout in *. cbn [fst snd]. split.
        - destruct Ci as [Ci|[Ci|[Ci|[Ci|Ci]]]]; destruct Ck as [Ck|[Ck|[Ck|[Ck|Ck]]]]; qcases;
          first [left; repeat split; qo | right; left; qo | right; right; left; qo | right; right; right; left; qo | right; right; right; right; qo].
        - split.
          + intros H. destruct Ci as [Ci|Ci]; [left; auto|]. destruct Ck as [Ck|Ck]; [right; auto|]. exfalso. destruct H as (H1 & H2 & H3 & H4).
            destruct Ci as [Ci|[Ci|[Ci|Ci]]]; destruct Ck as [Ck|[Ck|[Ck|Ck]]]; qcases; qo.
          + intros [(H1 & H2 & H3 & H4)|(H1 & H2 & H3 & H4)]; qcases; repeat split; qo. }
      destruct X as [X1 X2]. destruct (IH (qmin (fst i) (fst k), qmax (snd i) (snd k))) as [A B]; auto.
      * cbn [fst snd]. qcases; qo.
      * intros j Hj. apply C. right; auto.
      * split; auto. rewrite B, X2. split.
        -- intros [(j & Hj & H)|[H|H]]; auto; left; [exists j|exists k]; cbn; auto.
        -- intros [(j & [<-|Hj] & H)|H]; auto. left; eauto.
    + destruct (IH i) as [A B]; auto.
      { intros j Hj. apply C. right; auto. }
      split.
      * intros j [<-|Hj]; auto. apply C; left; auto.
      * split.
        -- intros (j & [<-|Hj] & H); [left; exists k; cbn; auto|]. destruct B as [B _]. destruct B as [(j' & Hj' & H')|H']; eauto. left; exists j'; cbn; auto.
        -- intros [(j & [<-|Hj] & H)|H].
           ++ exists k; cbn; auto.
           ++ destruct B as [_ B]. destruct B as (j' & Hj' & H'); eauto. exists j'; cbn; auto.
           ++ destruct B as [_ B]. destruct B as (j' & Hj' & H'); eauto. exists j'; cbn; auto.
Qed.
Lemma at_idiff p i j : (fst j < snd j)%Qc -> iin i p \/ iout i p -> iin j p \/ iout j p ->
  (forall k, In k (idiff i j) -> iin k p \/ iout k p) /\ ((exists k, In k (idiff i j) /\ iin k p) <-> iin i p /\ ~ iin j p).
Proof.
  intros Gj Ci Cj. unfold idiff. split.
  - intros k Hk. apply in_app_or in Hk as [Hk|Hk]; revert Hk; qbool; cbn [In]; (intros [<-|[]] || intros []); unfold iin, iout in *; cbn [fst snd];
    destruct Ci as [Ci|[Ci|[Ci|[Ci|Ci]]]]; destruct Cj as [Cj|[Cj|[Cj|[Cj|Cj]]]]; qcases;
    first [left; repeat split; qo | right; left; qo | right; right; left; qo | right; right; right; left; qo | right; right; right; right; qo].
  - split.
    + intros (k & Hk & H). unfold iin in *. apply in_app_or in Hk as [Hk|Hk]; revert Hk; qbool; cbn [In]; (intros [<-|[]] || intros []); cbn [fst snd] in H; destruct H as (? & ? & ? & ?); qcases;
      (split; [repeat split; qo|intros (? & ? & ? & ?); qo]).
    + intros [Hi Hj]. destruct Cj as [Cj|Cj]; [contradiction|]. unfold iin, iout in *. destruct Hi as (H1 & H2 & H3 & H4).
      destruct Cj as [Cj|[Cj|[Cj|Cj]]]; try (exfalso; qo).
      * exists (fst i, qmin (snd i) (fst j)). split; [|cbn [fst snd]; qcases; repeat split; qo]. apply in_or_app; left.
        assert (E : Qcltb (fst i) (qmin (snd i) (fst j)) = true) by (apply Qcltb_lt; qcases; qo). rewrite E. cbn; auto.
      * exists (qmax (fst i) (snd j), snd i). split; [|cbn [fst snd]; qcases; repeat split; qo]. apply in_or_app; right.
        assert (E : Qcltb (qmax (fst i) (snd j)) (snd i) = true) by (apply Qcltb_lt; qcases; qo). rewrite E. cbn; auto.
Qed.
Lemma at_iinter p i j : iin i p \/ iout i p -> iin j p \/ iout j p ->
  (forall k, In k (iinter i j) -> iin k p \/ iout k p) /\ ((exists k, In k (iinter i j) /\ iin k p) <-> iin i p /\ iin j p).
Proof.
  intros Ci Cj. unfold iinter. split.
  - intros k Hk. revert Hk; qbool; cbn [In]; [intros [<-|[]]|intros []]; unfold iin, iout in *; cbn [fst snd];
    destruct Ci as [Ci|[Ci|[Ci|[Ci|Ci]]]]; destruct Cj as [Cj|[Cj|[Cj|[Cj|Cj]]]]; qcases;
    first [left; repeat split; qo | right; left; qo | right; right; left; qo | right; right; right; left; qo | right; right; right; right; qo].
  - split.
    + intros (k & Hk & H). apply In_iinter in Hk. unfold iin in *. destruct H as (? & ? & ? & ?), Hk as (? & ? & ? & ? & ?). repeat split; qo.
    + intros [(H1 & H2 & H3 & H4) (H5 & H6 & H7 & H8)]. exists (qmax (fst i) (fst j), qmin (snd i) (snd j)). unfold iin. cbn [fst snd].
      assert (E : Qcltb (qmax (fst i) (fst j)) (qmin (snd i) (snd j)) = true) by (apply Qcltb_lt; qcases; qo). rewrite E. split; [cbn; auto|]. qcases; repeat split; qo.
Qed.
Lemma p2_eqb_eq a b : p2_eqb a b = true <-> a = b.
Proof. unfold p2_eqb. rewrite andb_true_iff, !Qceqb_eq. destruct a, b; cbn. split; [intros [-> ->]; auto|intros H; inversion H; auto]. Qed.
Lemma poly_eqb_strip i j : poly_eqb (istrip i) (istrip j) = true -> i = j.
Proof.
  destruct i as [a b], j as [c d]. unfold poly_eqb, istrip, strip. cbn [holes outer fst snd length Nat.eqb andb]. rewrite andb_true_iff. intros [H _].
  unfold ring_eqb in H. cbn [length Nat.eqb andb turn_to] in H.
  assert (N01 : Qceqb 0 1 = false) by reflexivity.
  unfold p2_eqb in H. cbn [x2 y2] in H. rewrite N01, !andb_false_r in H. change (Qceqb 0 0) with true in H. rewrite !andb_true_r in H.
  destruct (Qceqb a c) eqn:E.
  - cbn [list_eqb app] in H. cbn [x2 y2] in H. apply Qceqb_eq in E. rewrite !andb_true_iff in H. destruct H as (_ & (H & _) & _). apply Qceqb_eq in H. now subst.
  - destruct (Qceqb a d).
    + cbn [list_eqb app x2 y2] in H. rewrite N01 in H. rewrite !andb_false_r, ?andb_false_l in H. cbn in H. rewrite ?andb_false_r in H. discriminate.
    + discriminate.
Qed.
Lemma all_good s : Forall (fun i : ivl => (fst i < snd i)%Qc) s -> Forall good_strip (map istrip s).
Proof. intros F. apply Forall_map. eapply Forall_impl; [|exact F]. intros i Hi. exists i; auto. Qed.
Lemma sep_apart s : ForallOrdPairs (fun i j : ivl => (snd i < fst j)%Qc \/ (snd j < fst i)%Qc) s -> apart strips (map istrip s).
Proof.
  intros F. apply FOP_map. induction F as [|i s H F IH]; constructor; auto. eapply Forall_impl; [|exact H].
  intros j Hj p [A B]. apply strip_inside in A, B. unfold iin in *. destruct Hj; qo.
Qed.
Lemma in_ijoin p s : forall i k, In k (ijoin i s) -> ~ iout k p -> (exists j, In j s /\ ~ iout j p) \/ ~ iout i p.
Proof.
  induction s as [|j s IH]; intros i k Hk C; cbn [ijoin] in Hk.
  - destruct Hk as [<-|[]]; auto.
  - destruct (touch i j) eqn:T.
    + destruct (IH _ _ Hk C) as [(j' & Hj' & H)|H]; [left; exists j'; cbn; auto|].
      unfold touch in T. apply andb_true_iff in T as [T1 T2]. apply Qcleb_le in T1. apply Qcleb_le in T2.
      assert (D : (x2 p <= snd i \/ snd i < x2 p)%Qc) by (destruct (Qclt_le_dec (snd i) (x2 p)); auto).
      assert (D' : (fst i <= x2 p \/ x2 p < fst i)%Qc) by (destruct (Qclt_le_dec (x2 p) (fst i)); auto).
      assert (A : ~ (y2 p < 0)%Qc) by (intros O; apply H; unfold iout; auto).
      assert (B : ~ (1 < y2 p)%Qc) by (intros O; apply H; unfold iout; auto).
      assert (E : (qmin (fst i) (fst j) <= x2 p)%Qc) by (apply Qcnot_lt_le; intros O; apply H; left; auto).
      assert (F : (x2 p <= qmax (snd i) (snd j))%Qc) by (apply Qcnot_lt_le; intros O; apply H; right; left; auto).
      destruct D as [D|D]; [destruct D' as [D'|D']|].
      * right. unfold iout. intros [O|[O|[O|O]]]; try contradiction; qo.
      * left. exists j. split; [left; auto|]. unfold iout. intros [O|[O|[O|O]]]; try contradiction; qcases; qo.
      * left. exists j. split; [left; auto|]. unfold iout. intros [O|[O|[O|O]]]; try contradiction; qcases; qo.
    + destruct Hk as [<-|Hk]; [left; exists j; cbn; auto|]. destruct (IH _ _ Hk C) as [(j' & Hj' & H)|H]; auto. left; exists j'; cbn; auto.
Qed.
Theorem strips_ok : kernel_ok strips good_strip sgood_strip.
Proof.
  constructor.
  - split; [split; constructor|reflexivity].
  - intros P (i & Hi & ->). cbn [k_set k_of k_join k_inter k_diff k_pieces k_inter2 strips]. rewrite iv_strip. repeat constructor; auto.
  - intros s P S (i & Hi & ->). cbn [k_set k_of k_join k_inter k_diff k_pieces k_inter2 strips]. rewrite iv_strip. apply sgood_join; auto.
  - intros s P S (i & Hi & ->). cbn [k_set k_of k_join k_inter k_diff k_pieces k_inter2 strips]. rewrite iv_strip. apply sgood_flat; auto.
    + intros k j Hk. apply In_iinter in Hk. tauto.
    + intros k _. unfold iinter. qbool; repeat constructor.
  - intros s P S (i & Hi & ->). cbn [k_set k_of k_join k_inter k_diff k_pieces k_inter2 strips]. rewrite iv_strip. apply sgood_flat; auto.
    + intros k j Hk. apply In_idiff in Hk. tauto.
    + intros k _. apply idiff_sep; auto.
  - intros s [S1 S2]. cbn. split; [apply all_good; auto|apply sep_apart; auto].
  - intros s _. cbn. destruct s; cbn; split; auto; discriminate.
  - intros P Q (i & Hi & ->) (j & Hj & ->). cbn [k_set k_of k_join k_inter k_diff k_pieces k_inter2 strips]. rewrite !iv_strip. split; [apply all_good|apply sep_apart; unfold iinter; qbool; repeat constructor].
    apply Forall_forall. intros k Hk. apply In_iinter in Hk. tauto.
  - intros P p (i & Hi & ->) C. cbn [k_pieces k_of strips]. rewrite iv_strip. rewrite strips_clear, strips_inside, strip_inside. apply strip_clear in C. cbn [In].
    split; [intros k [<-|[]]; auto|]. split; [intros (k & [<-|[]] & H); auto|intros H; eauto].
  - intros s P p [S1 S2] (i & Hi & ->) Cs C. cbn [k_pieces k_join strips] in *. rewrite iv_strip. rewrite strips_clear, !strips_inside, strip_inside.
    apply strip_clear in C. rewrite strips_clear in Cs. apply at_ijoin; auto.
  - intros s P p [S1 S2] (i & Hi & ->) Cs C. cbn [k_pieces k_inter strips] in *. rewrite iv_strip. rewrite strips_clear, !strips_inside, strip_inside.
    apply strip_clear in C. rewrite strips_clear in Cs. split.
    + intros k Hk. apply in_flat_map in Hk as (j & Hj & Hk). destruct (at_iinter p j i) as [A _]; auto.
    + split.
      * intros (k & Hk & H). apply in_flat_map in Hk as (j & Hj & Hk). destruct (at_iinter p j i) as [_ [A _]]; auto. destruct A; eauto.
      * intros [(j & Hj & H) H']. destruct (at_iinter p j i) as [_ [_ A]]; auto. destruct A as (k & Hk & A); auto. exists k. split; auto. apply in_flat_map; eauto.
  - intros s P p [S1 S2] (i & Hi & ->) Cs C. cbn [k_pieces k_diff strips] in *. rewrite iv_strip. rewrite strips_clear, !strips_inside, strip_inside.
    apply strip_clear in C. rewrite strips_clear in Cs. split.
    + intros k Hk. apply in_flat_map in Hk as (j & Hj & Hk). destruct (at_idiff p j i) as [A _]; auto.
    + split.
      * intros (k & Hk & H). apply in_flat_map in Hk as (j & Hj & Hk). destruct (at_idiff p j i) as [_ [A _]]; auto. destruct A; eauto.
      * intros [(j & Hj & H) H']. destruct (at_idiff p j i) as [_ [_ A]]; auto. destruct A as (k & Hk & A); auto. exists k. split; auto. apply in_flat_map; eauto.
  - intros P Q p (i & Hi & ->) (j & Hj & ->) Ci Cj. cbn [k_inter2 strips]. rewrite !iv_strip, strips_clear, strips_inside, !strip_inside.
    apply strip_clear in Ci, Cj. apply at_iinter; auto.
  - intros P p (i & Hi & ->) C. cbn [k_pieces k_of strips] in C. rewrite iv_strip in C. apply strips_covered in C as (j & [<-|[]] & C). now apply strip_covered.
  - intros s P p [S1 S2] (i & Hi & ->) C. cbn [k_pieces k_join strips] in *. rewrite iv_strip in C. rewrite strips_covered, strip_covered in *. destruct C as (k & Hk & C).
    eapply in_ijoin; eauto.
  - intros s P p S (i & Hi & ->) C. cbn [k_pieces k_inter strips] in *. rewrite iv_strip in C. apply strips_covered in C as (k & Hk & C).
    apply in_flat_map in Hk as (j & Hj & Hk). apply In_iinter in Hk. rewrite strips_covered, strip_covered. split; [exists j; split; auto|]; intros O; apply C; unfold iout in *;
    (destruct O as [O|[O|[O|O]]]; [left; qo|right; left; qo|auto|auto]).
  - intros s P p S (i & Hi & ->) C. cbn [k_pieces k_diff strips] in *. rewrite iv_strip in C. apply strips_covered in C as (k & Hk & C).
    apply in_flat_map in Hk as (j & Hj & Hk). apply strips_covered. exists j. split; auto. intros O. apply C. apply In_idiff in Hk. unfold iout in *.
    destruct O as [O|[O|[O|O]]]; [left; qo|right; left; qo|auto|auto].
  - intros P Q p (i & Hi & ->) (j & Hj & ->) C. cbn [k_inter2 strips] in C. rewrite !iv_strip in C. apply strips_covered in C as (k & Hk & C).
    apply In_iinter in Hk. split; apply strip_covered; intros O; apply C; unfold iout in *; (destruct O as [O|[O|[O|O]]]; [left; qo|right; left; qo|auto|auto]).
  - intros P p (i & Hi & ->) C. cbn [k_pieces k_of strips] in C. rewrite iv_strip in C. apply strips_inside in C as (j & [<-|[]] & C). now apply strip_inside.
  - intros s P p S (i & Hi & ->) C. cbn [k_pieces k_diff strips] in *. rewrite iv_strip in C. apply strips_inside in C as (k & Hk & C).
    apply in_flat_map in Hk as (j & Hj & Hk). apply strips_inside. exists j. split; auto. apply In_idiff in Hk. unfold iin in *. destruct C as (? & ? & ? & ?); repeat split; qo.
  - intros P Q p (i & Hi & ->) (j & Hj & ->) C. cbn [k_inter2 strips] in C. rewrite !iv_strip in C. apply strips_inside in C as (k & Hk & C).
    apply In_iinter in Hk. rewrite !strip_inside. unfold iin in *. destruct C as (? & ? & ? & ?); repeat split; qo.
  - intros P Q p (i & Hi & ->) (j & Hj & ->) E. apply poly_eqb_strip in E as ->. tauto.
  - intros P v (i & Hi & ->) Hv. apply strip_covered. unfold iout. destruct i as [a b]. cbn [fst snd istrip strip outer In] in *.
    assert (L : (0 < 1)%Qc) by reflexivity. destruct Hv as [<-|[<-|[<-|[<-|[]]]]]; cbn [x2 y2]; intros [O|[O|[O|O]]]; qo.
  - intros P p (i & Hi & ->) H. destruct i as [a b]. rewrite strip_side, iside_out in H. unfold iout in H. cbn [fst snd] in *.
    assert (L : (0 < 1)%Qc) by reflexivity.
    assert (E : (a <= x2 p /\ x2 p <= b /\ 0 <= y2 p /\ y2 p <= 1)%Qc).
    { repeat split; apply Qcnot_lt_le; intros O; apply H; auto. }
    cbn [istrip strip outer fst snd ring_box fold_left point_box box_add x2 y2 xmin xmax ymin ymax in_box].
    qcases; repeat split; qo.
  - split; reflexivity.
Qed.
Lemma pos_contra q : (0 < q)%Qc -> (0 < - q)%Qc -> False.
Proof.
  intros A B. apply (Qclt_not_le _ _ B). replace 0%Qc with (- 0)%Qc by reflexivity. apply Qcopp_le_compat. now apply Qclt_le_weak.
Qed.
Lemma strips_sampled : sampled_inside strips good_strip.
Proof.
  intros P ([a b] & Hi & ->). cbn [fst snd] in Hi. eexists. split; [reflexivity|]. apply strip_inside. unfold iin. cbn [fst snd x2 y2].
  assert (E3 : forall q, (q / qz 3 = q * / qz 3)%Qc) by reflexivity.
  assert (X : ((a + b + b) / qz 3 = a + (b - a) * (1 + 1) / qz 3)%Qc) by (change (qz 3) with (1 + 1 + 1)%Qc; field; intros X; discriminate X).
  assert (Y : ((a + b + b) / qz 3 = b - (b - a) / qz 3)%Qc) by (change (qz 3) with (1 + 1 + 1)%Qc; field; intros Y; discriminate Y).
  assert (P : (0 < (b - a) / qz 3)%Qc).
  { rewrite E3. rewrite <- (Qcmult_0_l (/ qz 3)). apply Qcmult_lt_compat_r; [reflexivity|]. now apply Qclt_minus_iff in Hi. }
  assert (P2 : (0 < (b - a) * (1 + 1) / qz 3)%Qc).
  { rewrite E3. rewrite <- (Qcmult_0_l (/ qz 3)). apply Qcmult_lt_compat_r; [reflexivity|]. rewrite <- (Qcmult_0_l (1 + 1)). apply Qcmult_lt_compat_r; [reflexivity|]. now apply Qclt_minus_iff in Hi. }
  repeat split.
  - rewrite X. apply Qclt_minus_iff. match goal with |- (0 < ?e)%Qc => replace e with ((b - a) * (1 + 1) / qz 3)%Qc by ring end. exact P2.
  - rewrite Y. apply Qclt_minus_iff. match goal with |- (0 < ?e)%Qc => replace e with ((b - a) / qz 3)%Qc by ring end. exact P.
Qed.
