(** * Order and sign facts about doubles. *)
From Verif Require Import Base Dbl.
Open Scope Z_scope.

(** Every non-NaN double has a key in a lexicographic order. *)
Definition dkey (x : dbl) : Z * (Z * Z) :=
  match x with
  | S754_infinity true => (-2, (0, 0))
  | S754_finite true m e => (-1, (- e, - Zpos m))
  | S754_zero _ => (0, (0, 0))
  | S754_finite false m e => (1, (e, Zpos m))
  | S754_infinity false => (2, (0, 0))
  | S754_nan => (3, (0, 0))
  end.
Definition lexlt (a b : Z * (Z * Z)) : Prop :=
  fst a < fst b \/ (fst a = fst b /\ (fst (snd a) < fst (snd b) \/
    (fst (snd a) = fst (snd b) /\ snd (snd a) < snd (snd b)))).

Lemma SFcompare_key x y : disnan x = false -> disnan y = false ->
  match SFcompare x y with
  | Some Lt => lexlt (dkey x) (dkey y)
  | Some Eq => dkey x = dkey y
  | Some Gt => lexlt (dkey y) (dkey x)
  | None => False
  end.
Proof.
  unfold lexlt.
  destruct x as [s1|s1| |s1 m1 e1], y as [s2|s2| |s2 m2 e2]; try discriminate; intros _ _;
    try destruct s1; try destruct s2; cbn; try (left; lia); auto.
  - destruct (Z.compare_spec e1 e2) as [E|E|E].
    + subst. change (Pcompare m1 m2 Eq) with (Pos.compare m1 m2).
      destruct (Pos.compare_spec m1 m2); cbn; subst; auto; right; split; auto; right; split; auto; lia.
    + right; split; auto; left; lia.
    + right; split; auto; left; lia.
  - destruct (Z.compare_spec e1 e2) as [E|E|E].
    + subst. change (Pcompare m1 m2 Eq) with (Pos.compare m1 m2).
      destruct (Pos.compare_spec m1 m2); cbn; subst; auto; right; split; auto; right; split; auto; lia.
    + right; split; auto.
    + right; split; auto.
Qed.

Lemma lexlt_irrefl a : ~ lexlt a a.
Proof. unfold lexlt. lia. Qed.
Lemma lexlt_trans a b c : lexlt a b -> lexlt b c -> lexlt a c.
Proof. unfold lexlt. lia. Qed.
Lemma lexlt_asym a b : lexlt a b -> ~ lexlt b a.
Proof. unfold lexlt. lia. Qed.
Lemma lex_total a b : lexlt a b \/ a = b \/ lexlt b a.
Proof.
  unfold lexlt. destruct a as [a1 [a2 a3]], b as [b1 [b2 b3]]; cbn.
  destruct (Z.lt_trichotomy a1 b1) as [|[|]]; [tauto| |tauto].
  destruct (Z.lt_trichotomy a2 b2) as [|[|]]; [tauto| |lia].
  destruct (Z.lt_trichotomy a3 b3) as [|[|]]; [tauto| |lia].
  right; left; congruence.
Qed.

Lemma dltb_key x y : disnan x = false -> disnan y = false ->
  (dltb x y = true <-> lexlt (dkey x) (dkey y)).
Proof.
  intros Hx Hy. pose proof (SFcompare_key x y Hx Hy) as H.
  unfold dltb, SFltb. destruct (SFcompare x y) as [[]|]; split; intros E; try easy; exfalso.
  - rewrite H in E. exact (lexlt_irrefl _ E).
  - exact (lexlt_asym _ _ H E).
Qed.
Lemma dleb_key x y : disnan x = false -> disnan y = false ->
  (dleb x y = true <-> lexlt (dkey x) (dkey y) \/ dkey x = dkey y).
Proof.
  intros Hx Hy. pose proof (SFcompare_key x y Hx Hy) as H.
  unfold dleb, SFleb. destruct (SFcompare x y) as [[]|]; split; intros E; try easy; auto; exfalso.
  destruct E as [E|E]. exact (lexlt_asym _ _ H E). rewrite E in H. exact (lexlt_irrefl _ H).
Qed.
Lemma deqb_key x y : disnan x = false -> disnan y = false ->
  (deqb x y = true <-> dkey x = dkey y).
Proof.
  intros Hx Hy. pose proof (SFcompare_key x y Hx Hy) as H.
  unfold deqb, SFeqb. destruct (SFcompare x y) as [[]|]; split; intros E; try easy; exfalso;
    rewrite E in H; exact (lexlt_irrefl _ H).
Qed.

Lemma dltb_nan_l y : dltb dnan y = false. Proof. reflexivity. Qed.
Lemma dltb_nan_r x : dltb x dnan = false. Proof. destruct x as [?|?| |? ? ?]; reflexivity. Qed.
Lemma dleb_nan_l y : dleb dnan y = false. Proof. reflexivity. Qed.
Lemma dleb_nan_r x : dleb x dnan = false. Proof. destruct x as [?|?| |? ? ?]; reflexivity. Qed.
Lemma disnan_true x : disnan x = true -> x = dnan.
Proof. destruct x; try discriminate; reflexivity. Qed.

Lemma dleb_notnan x y : dleb x y = true -> disnan x = false /\ disnan y = false.
Proof.
  intros H. split.
  - destruct (disnan x) eqn:E; auto. apply disnan_true in E; subst. discriminate.
  - destruct (disnan y) eqn:E; auto. apply disnan_true in E; subst. rewrite dleb_nan_r in H. discriminate.
Qed.
Lemma dltb_notnan x y : dltb x y = true -> disnan x = false /\ disnan y = false.
Proof.
  intros H. split.
  - destruct (disnan x) eqn:E; auto. apply disnan_true in E; subst. discriminate.
  - destruct (disnan y) eqn:E; auto. apply disnan_true in E; subst. rewrite dltb_nan_r in H. discriminate.
Qed.

Lemma dleb_refl x : disnan x = false -> dleb x x = true.
Proof. intros H. apply dleb_key; auto. Qed.
Lemma dleb_trans x y z : dleb x y = true -> dleb y z = true -> dleb x z = true.
Proof.
  intros H1 H2. destruct (dleb_notnan _ _ H1), (dleb_notnan _ _ H2).
  apply dleb_key in H1; auto. apply dleb_key in H2; auto. apply dleb_key; auto.
  destruct H1 as [H1|H1], H2 as [H2|H2]; try rewrite H1 in *; auto; try (rewrite <- H2); auto.
  left; eapply lexlt_trans; eauto.
Qed.
Lemma dltb_false_dleb x y : disnan x = false -> disnan y = false -> dltb x y = false -> dleb y x = true.
Proof.
  intros Hx Hy H. apply dleb_key; auto.
  destruct (lex_total (dkey x) (dkey y)) as [L|[L|L]]; auto.
  apply dltb_key in L; auto. congruence.
Qed.
Lemma dltb_dleb x y : dltb x y = true -> dleb x y = true.
Proof.
  intros H. destruct (dltb_notnan _ _ H). apply dleb_key; auto. left. apply dltb_key; auto.
Qed.
Lemma dleb_antisym x y : dleb x y = true -> dleb y x = true -> deqb x y = true.
Proof.
  intros H1 H2. destruct (dleb_notnan _ _ H1). apply deqb_key; auto.
  apply dleb_key in H1; auto. apply dleb_key in H2; auto.
  destruct H1 as [H1|H1], H2 as [H2|H2]; auto. exfalso; exact (lexlt_asym _ _ H1 H2).
Qed.
Lemma dleb_total x y : disnan x = false -> disnan y = false -> dleb x y = true \/ dleb y x = true.
Proof.
  intros Hx Hy. rewrite !dleb_key by auto.
  destruct (lex_total (dkey x) (dkey y)) as [L|[L|L]]; auto.
Qed.
Lemma deqb_refl x : disnan x = false -> deqb x x = true.
Proof. intros H. apply deqb_key; auto. Qed.
Lemma deqb_notnan x y : deqb x y = true -> disnan x = false /\ disnan y = false.
Proof.
  intros H. split.
  - destruct (disnan x) eqn:E; auto. apply disnan_true in E; subst. discriminate.
  - destruct (disnan y) eqn:E; auto. apply disnan_true in E; subst. destruct x as [?|?| |? ? ?]; discriminate.
Qed.
Lemma deqb_sym x y : deqb x y = deqb y x.
Proof.
  destruct (disnan x) eqn:Hx; [apply disnan_true in Hx; subst; destruct y as [?|?| |? ? ?]; reflexivity|].
  destruct (disnan y) eqn:Hy; [apply disnan_true in Hy; subst; destruct x as [?|?| |? ? ?]; reflexivity|].
  apply eq_true_iff_eq. rewrite !deqb_key by auto. split; congruence.
Qed.
Lemma deqb_trans x y z : deqb x y = true -> deqb y z = true -> deqb x z = true.
Proof.
  intros H1 H2. destruct (deqb_notnan _ _ H1), (deqb_notnan _ _ H2).
  apply deqb_key in H1; auto. apply deqb_key in H2; auto. apply deqb_key; auto. congruence.
Qed.
(** equality of doubles is equality of values, except that the zeros agree *)
Lemma deqb_eq x y : deqb x y = true -> x = y \/ (exists s t, x = S754_zero s /\ y = S754_zero t).
Proof.
  intros H. destruct (deqb_notnan _ _ H) as [Hx Hy]. apply deqb_key in H; auto.
  destruct x as [sx|[]| |[] mx ex], y as [sy|[]| |[] my ey]; try discriminate; cbn in H;
    try (inversion H; fail); eauto; left; inversion H; f_equal; lia.
Qed.

(** ** std::min and std::max *)
Lemma dmin_notnan a b : disnan a = false -> disnan (dmin a b) = false.
Proof.
  intros H. unfold dmin. destruct (dltb b a) eqn:E; auto. apply dltb_notnan in E. tauto.
Qed.
Lemma dmax_notnan a b : disnan a = false -> disnan (dmax a b) = false.
Proof.
  intros H. unfold dmax. destruct (dltb a b) eqn:E; auto. apply dltb_notnan in E. tauto.
Qed.
Lemma dmin_le_l a b : disnan a = false -> dleb (dmin a b) a = true.
Proof.
  intros H. unfold dmin. destruct (dltb b a) eqn:E. apply dltb_dleb; auto. apply dleb_refl; auto.
Qed.
Lemma dmin_le_r a b : disnan a = false -> disnan b = false -> dleb (dmin a b) b = true.
Proof.
  intros H Hb. unfold dmin. destruct (dltb b a) eqn:E. apply dleb_refl; auto. apply dltb_false_dleb; auto.
Qed.
Lemma dmax_ge_l a b : disnan a = false -> dleb a (dmax a b) = true.
Proof.
  intros H. unfold dmax. destruct (dltb a b) eqn:E. apply dltb_dleb; auto. apply dleb_refl; auto.
Qed.
Lemma dmax_ge_r a b : disnan a = false -> disnan b = false -> dleb b (dmax a b) = true.
Proof.
  intros H Hb. unfold dmax. destruct (dltb a b) eqn:E. apply dleb_refl; auto. apply dltb_false_dleb; auto.
Qed.
Lemma dmin_glb c a b : dleb c a = true -> dleb c b = true -> dleb c (dmin a b) = true.
Proof. intros. unfold dmin. destruct (dltb b a); auto. Qed.
Lemma dmax_lub c a b : dleb a c = true -> dleb b c = true -> dleb (dmax a b) c = true.
Proof. intros. unfold dmax. destruct (dltb a b); auto. Qed.
Lemma dmin_cases a b : dmin a b = a \/ dmin a b = b.
Proof. unfold dmin. destruct (dltb b a); auto. Qed.
Lemma dmax_cases a b : dmax a b = a \/ dmax a b = b.
Proof. unfold dmax. destruct (dltb a b); auto. Qed.
Lemma dmin_idem a : dmin a a = a.
Proof. unfold dmin. destruct (dltb a a); auto. Qed.
Lemma dmax_idem a : dmax a a = a.
Proof. unfold dmax. destruct (dltb a a); auto. Qed.
Lemma dmin_inf_r a : dmin a dinf = a.
Proof. unfold dmin. destruct a as [?|[]| |[] ? ?]; reflexivity. Qed.
Lemma dmin_inf_l a : disnan a = false -> dmin dinf a = a.
Proof. unfold dmin. destruct a as [?|[]| |[] ? ?]; try discriminate; reflexivity. Qed.
Lemma dmax_ninf_r a : dmax a dninf = a.
Proof. unfold dmax. destruct a as [?|[]| |[] ? ?]; reflexivity. Qed.
Lemma dmax_ninf_l a : disnan a = false -> dmax dninf a = a.
Proof. unfold dmax. destruct a as [?|[]| |[] ? ?]; try discriminate; reflexivity. Qed.
Lemma dmin_nan_r a : dmin a dnan = a.
Proof. reflexivity. Qed.
Lemma dmax_nan_r a : dmax a dnan = a.
Proof. unfold dmax. rewrite dltb_nan_r. reflexivity. Qed.

Lemma dmin_comm a b : disnan a = false -> disnan b = false -> deqb (dmin a b) (dmin b a) = true.
Proof.
  intros Ha Hb. apply dleb_antisym; apply dmin_glb; auto using dmin_le_l, dmin_le_r.
Qed.
Lemma dmax_comm a b : disnan a = false -> disnan b = false -> deqb (dmax a b) (dmax b a) = true.
Proof.
  intros Ha Hb. apply dleb_antisym; apply dmax_lub; auto using dmax_ge_l, dmax_ge_r.
Qed.
Lemma dmin_assoc a b c : disnan a = false -> disnan b = false -> disnan c = false ->
  deqb (dmin (dmin a b) c) (dmin a (dmin b c)) = true.
Proof.
  intros Ha Hb Hc.
  assert (disnan (dmin a b) = false) by auto using dmin_notnan.
  assert (disnan (dmin b c) = false) by auto using dmin_notnan.
  apply dleb_antisym; repeat apply dmin_glb; auto using dmin_le_l, dmin_le_r;
    (eapply dleb_trans; [apply dmin_le_l + apply dmin_le_r; solve [auto] |]; solve [auto using dmin_le_l, dmin_le_r]).
Qed.
Lemma dmax_assoc a b c : disnan a = false -> disnan b = false -> disnan c = false ->
  deqb (dmax (dmax a b) c) (dmax a (dmax b c)) = true.
Proof.
  intros Ha Hb Hc.
  assert (disnan (dmax a b) = false) by auto using dmax_notnan.
  assert (disnan (dmax b c) = false) by auto using dmax_notnan.
  apply dleb_antisym; repeat apply dmax_lub; auto using dmax_ge_l, dmax_ge_r;
    (eapply dleb_trans; [| apply dmax_ge_l + apply dmax_ge_r; solve [auto]]; solve [auto using dmax_ge_l, dmax_ge_r]).
Qed.

(** ** Folds of min and max over a list, starting from an infinity *)
Lemma fold_dmin_notnan l : forall a, disnan a = false -> disnan (fold_left dmin l a) = false.
Proof. induction l as [|b l IH]; intros a H; cbn; auto. apply IH. apply dmin_notnan; auto. Qed.
Lemma fold_dmax_notnan l : forall a, disnan a = false -> disnan (fold_left dmax l a) = false.
Proof. induction l as [|b l IH]; intros a H; cbn; auto. apply IH. apply dmax_notnan; auto. Qed.
Lemma fold_dmin_le_init l : forall a, disnan a = false -> dleb (fold_left dmin l a) a = true.
Proof.
  induction l as [|b l IH]; intros a H; cbn; auto using dleb_refl.
  eapply dleb_trans; [apply IH; apply dmin_notnan; auto|]. apply dmin_le_l; auto.
Qed.
Lemma fold_dmax_ge_init l : forall a, disnan a = false -> dleb a (fold_left dmax l a) = true.
Proof.
  induction l as [|b l IH]; intros a H; cbn; auto using dleb_refl.
  eapply dleb_trans; [|apply IH; apply dmax_notnan; auto]. apply dmax_ge_l; auto.
Qed.
Lemma fold_dmin_le l : forall a x, disnan a = false -> In x l -> disnan x = false ->
  dleb (fold_left dmin l a) x = true.
Proof.
  induction l as [|b l IH]; intros a x Ha Hx Hn; cbn; [destruct Hx|]. destruct Hx as [->|Hx].
  - eapply dleb_trans; [apply fold_dmin_le_init, dmin_notnan; auto|]. apply dmin_le_r; auto.
  - apply IH; auto using dmin_notnan.
Qed.
Lemma fold_dmax_ge l : forall a x, disnan a = false -> In x l -> disnan x = false ->
  dleb x (fold_left dmax l a) = true.
Proof.
  induction l as [|b l IH]; intros a x Ha Hx Hn; cbn; [destruct Hx|]. destruct Hx as [->|Hx].
  - eapply dleb_trans; [|apply fold_dmax_ge_init, dmax_notnan; auto]. apply dmax_ge_r; auto.
  - apply IH; auto using dmax_notnan.
Qed.
Lemma fold_dmin_attained l : forall a, fold_left dmin l a = a \/ In (fold_left dmin l a) l.
Proof.
  induction l as [|b l IH]; intros a; cbn; auto.
  destruct (IH (dmin a b)) as [E|E]; auto. rewrite E.
  destruct (dmin_cases a b) as [E'|E']; rewrite E'; auto.
Qed.
Lemma fold_dmax_attained l : forall a, fold_left dmax l a = a \/ In (fold_left dmax l a) l.
Proof.
  induction l as [|b l IH]; intros a; cbn; auto.
  destruct (IH (dmax a b)) as [E|E]; auto. rewrite E.
  destruct (dmax_cases a b) as [E'|E']; rewrite E'; auto.
Qed.
Lemma dleb_inf_l x : dleb dinf x = true -> x = dinf.
Proof. destruct x as [?|[]| |[] ? ?]; try discriminate; reflexivity. Qed.
Lemma dleb_ninf_r x : dleb x dninf = true -> x = dninf.
Proof. destruct x as [?|[]| |[] ? ?]; try discriminate; reflexivity. Qed.

(** ** Signs and commutation of the arithmetic operations *)
Lemma binary_round_opp s m e p x :
  binary_round p x (negb s) m e = dopp (binary_round p x s m e).
Proof.
  unfold binary_round. destruct (shl_align m e _) as [mz ez].
  unfold binary_round_aux. destruct (shr_fexp p x (Z.pos mz) ez loc_Exact) as [mrs' e'].
  destruct (shr_fexp _ _ _ _ _) as [mrs'' e''].
  destruct (shr_m mrs''); cbn; auto. destruct (e'' <=? x - p); reflexivity.
Qed.
Lemma binary_round_aux_opp s m e l p x :
  binary_round_aux p x (negb s) m e l = dopp (binary_round_aux p x s m e l).
Proof.
  unfold binary_round_aux. destruct (shr_fexp p x m e l) as [mrs' e'].
  destruct (shr_fexp _ _ _ _ _) as [mrs'' e''].
  destruct (shr_m mrs''); cbn; auto. destruct (e'' <=? x - p); reflexivity.
Qed.
Lemma dadd_comm a b : dadd a b = dadd b a.
Proof.
  unfold dadd, SFadd. destruct a as [sa|sa| |sa ma ea], b as [sb|sb| |sb mb eb]; auto;
    try (destruct sa, sb; reflexivity).
  rewrite Z.min_comm, Z.add_comm. reflexivity.
Qed.
Lemma dmul_comm a b : dmul a b = dmul b a.
Proof.
  unfold dmul, SFmul. destruct a as [sa|sa| |sa ma ea], b as [sb|sb| |sb mb eb]; auto;
    rewrite xorb_comm; auto. rewrite Pos.mul_comm, Z.add_comm. reflexivity.
Qed.
(** x - y and y - x are opposite, up to the sign of zero *)
Lemma binary_normalize_opp m e p x s :
  opposite (binary_normalize p x m e s) (binary_normalize p x (- m) e s).
Proof.
  destruct m as [|m|m]; cbn.
  - right; eauto.
  - left. change true with (negb false). rewrite binary_round_opp.
    unfold dopp, SFopp. destruct (binary_round p x false m e); rewrite ?negb_involutive; auto.
  - left. change true with (negb false). rewrite binary_round_opp. reflexivity.
Qed.
Lemma dsub_opp a b : opposite (dsub a b) (dsub b a).
Proof.
  unfold dsub, SFsub. destruct a as [sa|sa| |sa ma ea], b as [sb|sb| |sb mb eb];
    try (left; reflexivity);
    try (destruct sa; try destruct sb; cbn; solve [left; reflexivity | right; eauto]).
  rewrite (Z.min_comm eb ea).
  match goal with |- opposite (binary_normalize _ _ (?u - ?v) _ _) _ =>
      replace (v - u) with (- (u - v)) by ring end.
  apply binary_normalize_opp.
Qed.
Lemma opposite_deqb x y : opposite x y -> disnan x = false -> deqb x (dopp y) = true.
Proof.
  intros [->|(s & t & -> & ->)] H.
  - apply deqb_refl; auto.
  - reflexivity.
Qed.
Lemma opposite_nan x y : opposite x y -> disnan x = disnan y.
Proof. intros [->|(s & t & -> & ->)]; auto. destruct y; reflexivity. Qed.
