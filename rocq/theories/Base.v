(** * Base: outcomes of C++ functions, machine integers, small list helpers.

    Nothing here models project code; these are the conventions used by the
    model files.  *)
From Coq Require Export List Arith ZArith NArith Bool Ascii Lia Permutation.
From Coq Require Export ZifyBool.
Export ListNotations.
Set Implicit Arguments.

(** Exception classes thrown by the project or by the C++ library calls it makes. *)
Inductive exn : Type :=
| LogicError      (* std::logic_error *)
| OutOfRange      (* std::out_of_range *)
| LengthError     (* std::length_error *)
| OverflowError   (* std::overflow_error *)
| RangeError      (* std::range_error *)
| RuntimeError    (* std::runtime_error *)
| IosFailure      (* std::ios_base::failure *)
| FilesystemError (* boost::filesystem::filesystem_error *)
| BadCast.        (* exceptions of std / docopt conversions *)

(** Result of running a C++ function: a value, an exception, or undefined
    behaviour.  [UB] is never a normal value: a theorem that concludes [Ok _]
    excludes it. *)
Inductive outcome (A : Type) : Type :=
| Ok (a : A)
| Throw (e : exn)
| UB.
Arguments Ok {A} a.
Arguments Throw {A} e.
Arguments UB {A}.

Definition bind {A B} (x : outcome A) (f : A -> outcome B) : outcome B :=
  match x with Ok a => f a | Throw e => Throw e | UB => UB end.
Notation "'let*' x ':=' c 'in' k" := (bind c (fun x => k))
  (at level 61, c at next level, right associativity, x pattern).

Definition omap {A B} (f : A -> B) (x : outcome A) : outcome B :=
  match x with Ok a => Ok (f a) | Throw e => Throw e | UB => UB end.

(** Left-to-right traversal, stopping at the first exception or UB, as
    [std::transform] with a throwing functor. *)
Fixpoint omapM {A B} (f : A -> outcome B) (l : list A) : outcome (list B) :=
  match l with
  | [] => Ok []
  | a :: l => let* b := f a in let* bs := omapM f l in Ok (b :: bs)
  end.

(** Left fold with failure, as [std::accumulate] with a throwing functor. *)
Fixpoint ofold {A B} (f : A -> B -> outcome A) (l : list B) (a : A) : outcome A :=
  match l with
  | [] => Ok a
  | b :: l => let* a' := f a b in ofold f l a'
  end.

Lemma Ok_inj {A} (a b : A) : Ok a = Ok b -> a = b.
Proof. congruence. Qed.

(** [std::vector::at] *)
Definition vat {A} (l : list A) (i : nat) : outcome A :=
  match nth_error l i with Some a => Ok a | None => Throw OutOfRange end.
(** [std::vector::operator[]]: out of bounds is undefined. *)
Definition vidx {A} (l : list A) (i : nat) : outcome A :=
  match nth_error l i with Some a => Ok a | None => UB end.

(** size_t: 64-bit unsigned integers are [N] values kept below [size_max];
    arithmetic that may wrap goes through [wrap64]. *)
Definition two64 : N := 18446744073709551616%N.
Definition wrap64 (n : N) : N := (n mod two64)%N.
Definition nsize {A} (l : list A) : N := N.of_nat (length l).

(** [at]/[operator[]] with a size_t index. *)
Definition vatN {A} (l : list A) (i : N) : outcome A :=
  if (i <? nsize l)%N then vat l (N.to_nat i) else Throw OutOfRange.
Definition vidxN {A} (l : list A) (i : N) : outcome A :=
  if (i <? nsize l)%N then vidx l (N.to_nat i) else UB.

Fixpoint list_eqb {A} (eqb : A -> A -> bool) (l1 l2 : list A) : bool :=
  match l1, l2 with
  | [], [] => true
  | a :: l1, b :: l2 => eqb a b && list_eqb eqb l1 l2
  | _, _ => false
  end.

Lemma list_eqb_spec {A} (eqb : A -> A -> bool)
  (H : forall a b, eqb a b = true <-> a = b) :
  forall l1 l2, list_eqb eqb l1 l2 = true <-> l1 = l2.
Proof.
  induction l1 as [|a l1 IH]; intros [|b l2]; simpl; split; intros E; try easy.
  - apply andb_true_iff in E as [E1 E2]. apply H in E1. apply IH in E2. congruence.
  - inversion E; subst. apply andb_true_iff. split; [apply H|apply IH]; reflexivity.
Qed.

Definition str := list ascii.
Definition str_eqb : str -> str -> bool := list_eqb Ascii.eqb.
Lemma str_eqb_eq a b : str_eqb a b = true <-> a = b.
Proof. apply list_eqb_spec. apply Ascii.eqb_eq. Qed.
Lemma str_eqb_refl a : str_eqb a a = true.
Proof. apply str_eqb_eq; reflexivity. Qed.
Lemma str_eqb_neq a b : str_eqb a b = false <-> a <> b.
Proof. rewrite <- not_true_iff_false, str_eqb_eq. tauto. Qed.

(** Lemmas on the outcome monad. *)
Lemma bind_Ok {A B} (x : outcome A) (f : A -> outcome B) b :
  bind x f = Ok b <-> exists a, x = Ok a /\ f a = Ok b.
Proof.
  destruct x; simpl; split; intros H; try easy; eauto.
  - destruct H as (a' & E & H). inversion E; subst; auto.
  - destruct H as (a' & E & _). easy.
  - destruct H as (a' & E & _). easy.
Qed.

Lemma omapM_Ok {A B} (f : A -> outcome B) l bs :
  omapM f l = Ok bs <-> Forall2 (fun a b => f a = Ok b) l bs.
Proof.
  revert bs; induction l as [|a l IH]; intros bs; simpl.
  - split; intros H.
    + inversion H; constructor.
    + inversion H; reflexivity.
  - rewrite bind_Ok. split.
    + intros (b & Eb & H). apply bind_Ok in H as (bs' & E' & H). inversion H; subst.
      constructor; auto. apply IH; auto.
    + intros H. inversion H as [|? b ? bs' Hb Hbs]; subst. exists b; split; auto.
      apply bind_Ok. exists bs'; split; auto. apply IH; auto.
Qed.

Lemma omapM_ext {A B} (f g : A -> outcome B) l :
  (forall a, In a l -> f a = g a) -> omapM f l = omapM g l.
Proof.
  induction l as [|a l IH]; intros H; simpl; auto.
  rewrite H by (left; reflexivity). destruct (g a); simpl; auto.
  rewrite IH; auto. intros; apply H; right; auto.
Qed.

Lemma omapM_pure {A B} (f : A -> B) l : omapM (fun a => Ok (f a)) l = Ok (map f l).
Proof. induction l as [|a l IH]; simpl; auto. rewrite IH. reflexivity. Qed.

Lemma omapM_map {A B C} (f : B -> outcome C) (g : A -> B) l :
  omapM f (map g l) = omapM (fun a => f (g a)) l.
Proof. induction l as [|a l IH]; simpl; auto. rewrite IH. reflexivity. Qed.

Lemma omapM_app {A B} (f : A -> outcome B) l1 l2 :
  omapM f (l1 ++ l2) = (let* a := omapM f l1 in let* b := omapM f l2 in Ok (a ++ b)).
Proof.
  induction l1 as [|a l1 IH]; simpl.
  - destruct (omapM f l2); reflexivity.
  - destruct (f a); simpl; auto. rewrite IH. destruct (omapM f l1); simpl; auto.
    destruct (omapM f l2); reflexivity.
Qed.

Lemma vat_Ok {A} (l : list A) i a : vat l i = Ok a <-> nth_error l i = Some a.
Proof. unfold vat. destruct (nth_error l i); split; intros H; inversion H; auto. Qed.
Lemma vidx_Ok {A} (l : list A) i a : vidx l i = Ok a <-> nth_error l i = Some a.
Proof. unfold vidx. destruct (nth_error l i); split; intros H; inversion H; auto. Qed.

Lemma vatN_Ok {A} (l : list A) i a : vatN l i = Ok a <-> nth_error l (N.to_nat i) = Some a.
Proof.
  unfold vatN, nsize. destruct (N.ltb_spec i (N.of_nat (length l))).
  - apply vat_Ok.
  - split; [discriminate|]. intros E.
    assert (nth_error l (N.to_nat i) <> None) by congruence.
    apply nth_error_Some in H0. lia.
Qed.
Lemma vidxN_Ok {A} (l : list A) i a : vidxN l i = Ok a <-> nth_error l (N.to_nat i) = Some a.
Proof.
  unfold vidxN, nsize. destruct (N.ltb_spec i (N.of_nat (length l))).
  - apply vidx_Ok.
  - split; [discriminate|]. intros E.
    assert (nth_error l (N.to_nat i) <> None) by congruence.
    apply nth_error_Some in H0. lia.
Qed.
Lemma vatN_lt {A} (l : list A) i : (i < nsize l)%N -> exists a, vatN l i = Ok a.
Proof.
  intros H. destruct (nth_error l (N.to_nat i)) as [a|] eqn:E.
  - exists a. apply vatN_Ok; auto.
  - apply nth_error_None in E. unfold nsize in H. lia.
Qed.
Lemma vatN_ge {A} (l : list A) i : (nsize l <= i)%N -> vatN l i = Throw OutOfRange.
Proof. intros H. unfold vatN. destruct (N.ltb_spec i (nsize l)); [lia|reflexivity]. Qed.
Lemma vidxN_ge {A} (l : list A) i : (nsize l <= i)%N -> vidxN l i = UB.
Proof. intros H. unfold vidxN. destruct (N.ltb_spec i (nsize l)); [lia|reflexivity]. Qed.

Lemma nsize_app {A} (l1 l2 : list A) : nsize (l1 ++ l2) = (nsize l1 + nsize l2)%N.
Proof. unfold nsize. rewrite app_length. lia. Qed.
Lemma nsize_map {A B} (f : A -> B) l : nsize (map f l) = nsize l.
Proof. unfold nsize. rewrite map_length. reflexivity. Qed.

Lemma nth_error_skipn {A} (l : list A) k i : nth_error (skipn k l) i = nth_error l (k + i).
Proof. revert l; induction k as [|k IH]; intros l; cbn; auto. destruct l; cbn; auto. destruct i; reflexivity. Qed.
Lemma nth_error_firstn {A} (l : list A) k i :
  nth_error (firstn k l) i = if (i <? k)%nat then nth_error l i else None.
Proof.
  revert l i; induction k as [|k IH]; intros [|a l] [|i]; cbn [firstn nth_error]; auto.
  - destruct (S i <? S k)%nat; reflexivity.
  - rewrite IH. reflexivity.
Qed.
Lemma nth_error_ext {A} (l1 l2 : list A) : (forall i, nth_error l1 i = nth_error l2 i) -> l1 = l2.
Proof.
  revert l2; induction l1 as [|a l1 IH]; intros [|b l2] H; auto.
  - specialize (H 0%nat); discriminate.
  - specialize (H 0%nat); discriminate.
  - pose proof (H 0%nat) as H0. cbn in H0. injection H0 as ->. f_equal. apply IH. intros i. apply (H (S i)).
Qed.
Lemma Forall2_len {A B} (R : A -> B -> Prop) l1 l2 : Forall2 R l1 l2 -> length l1 = length l2.
Proof. induction 1; cbn; congruence. Qed.
