(** * Geom: exact vectors and planes.

    CGAL's exact kernel (Exact_predicates_exact_constructions_kernel,
    geometry_definitions.h:23) computes with exact rationals: coordinates are canonical
    rationals [Qc].  Nothing here models project code. *)
From Verif Require Import Base.
From Coq Require Export QArith Qcanon.
Close Scope Q_scope.
Open Scope Qc_scope.

(** ** Three dimensions: Point_3 and Vector_3 *)
Record p3 := P3 { x3 : Qc; y3 : Qc; z3 : Qc }.
Definition v0 : p3 := P3 0 0 0.
Definition vadd (a b : p3) : p3 := P3 (x3 a + x3 b) (y3 a + y3 b) (z3 a + z3 b).
Definition vsub (a b : p3) : p3 := P3 (x3 a - x3 b) (y3 a - y3 b) (z3 a - z3 b).
Definition vneg (a : p3) : p3 := P3 (- x3 a) (- y3 a) (- z3 a).
Definition vscale (k : Qc) (a : p3) : p3 := P3 (k * x3 a) (k * y3 a) (k * z3 a).
Definition dot (a b : p3) : Qc := x3 a * x3 b + y3 a * y3 b + z3 a * z3 b.
Definition cross (a b : p3) : p3 :=
  P3 (y3 a * z3 b - z3 a * y3 b) (z3 a * x3 b - x3 a * z3 b) (x3 a * y3 b - y3 a * x3 b).
(** determinant of three vectors *)
Definition det (a b c : p3) : Qc := dot (cross a b) c.
Definition sqdist (a b : p3) : Qc := dot (vsub a b) (vsub a b).

Definition Qceqb (a b : Qc) : bool := if Qc_eq_dec a b then true else false.
Lemma Qceqb_eq a b : Qceqb a b = true <-> a = b.
Proof. unfold Qceqb. destruct (Qc_eq_dec a b); split; intros; auto; discriminate. Qed.
Definition p3_eqb (a b : p3) : bool := Qceqb (x3 a) (x3 b) && Qceqb (y3 a) (y3 b) && Qceqb (z3 a) (z3 b).
Lemma p3_eq a b : x3 a = x3 b -> y3 a = y3 b -> z3 a = z3 b -> a = b.
Proof. destruct a, b; cbn; congruence. Qed.
Lemma p3_eqb_eq a b : p3_eqb a b = true <-> a = b.
Proof.
  unfold p3_eqb. rewrite !andb_true_iff, !Qceqb_eq. split.
  - intros [[A B] C]. now apply p3_eq.
  - intros ->; auto.
Qed.
Lemma p3_eqb_neq a b : p3_eqb a b = false <-> a <> b.
Proof. rewrite <- not_true_iff_false, p3_eqb_eq. tauto. Qed.

(** boolean comparisons *)
Definition Qcltb (a b : Qc) : bool := match a ?= b with Lt => true | _ => false end.
Definition Qcleb (a b : Qc) : bool := match a ?= b with Gt => false | _ => true end.
Lemma Qcltb_lt a b : Qcltb a b = true <-> a < b.
Proof. unfold Qcltb. rewrite Qclt_alt. destruct (a ?= b); split; intros; auto; discriminate. Qed.
Lemma Qcleb_le a b : Qcleb a b = true <-> a <= b.
Proof. unfold Qcleb. rewrite Qcle_alt. destruct (a ?= b); split; intros; auto; try discriminate; congruence. Qed.
Lemma Qcltb_ge a b : Qcltb a b = false <-> b <= a.
Proof. rewrite <- not_true_iff_false, Qcltb_lt. split; [apply Qcnot_lt_le|apply Qcle_not_lt]. Qed.
Lemma Qcleb_gt a b : Qcleb a b = false <-> b < a.
Proof. rewrite <- not_true_iff_false, Qcleb_le. split; [apply Qcnot_le_lt|apply Qclt_not_le]. Qed.
Definition Qcabs (a : Qc) : Qc := if Qcltb a 0 then - a else a.
(** integer constants *)
Definition qz (z : Z) : Qc := Q2Qc (inject_Z z).

(** ** Sums over lists *)
Fixpoint qsum (l : list Qc) : Qc := match l with [] => 0 | a :: l => a + qsum l end.
Lemma qsum_app a b : qsum (a ++ b) = qsum a + qsum b.
Proof. induction a as [|x a IH]; cbn; [ring|rewrite IH; ring]. Qed.
Lemma qsum_perm a b : Permutation a b -> qsum a = qsum b.
Proof. induction 1; cbn; try congruence; ring. Qed.
Lemma fold_left_qsum {A} (f : A -> Qc) l : forall a, fold_left (fun t x => t + f x) l a = a + qsum (map f l).
Proof. induction l as [|x l IH]; intros a; cbn; [ring|rewrite IH; ring]. Qed.
Definition vsum (l : list p3) : p3 := fold_right vadd v0 l.
Lemma vsum_app a b : vsum (a ++ b) = vadd (vsum a) (vsum b).
Proof.
  induction a as [|x a IH].
  - apply p3_eq; cbn; unfold vsum; ring.
  - change (vsum ((x :: a) ++ b)) with (vadd x (vsum (a ++ b))). change (vsum (x :: a)) with (vadd x (vsum a)).
    rewrite IH. apply p3_eq; cbn; ring.
Qed.
