(** * Specification vocabulary for conversions there and back: C104. *)
From Verif Require Import Base Dbl Decimal Shadow Spec_shadow Streams Spec_text.
Open Scope nat_scope.

(** the number as printed in six digits and read again; a zero may change its sign *)
Definition in_six (x y : dbl) : Prop := exists z, reads_back x z /\ deqb z y = true.
Definition pt_in_six (p q : point) : Prop := in_six (px p) (px q) /\ in_six (py p) (py q) /\ in_six (pz p) (pz q).
(** the same cycle, begun at another element *)
Definition turned {A} (a b : list A) : Prop := exists u v, a = u ++ v /\ b = v ++ u.
(** the corners of polygon [b], from one of them on, are those of [a], as [R] relates points *)
Definition polygon_over (R : point -> point -> Prop) (a b : list (option point)) : Prop :=
  exists c, turned a c /\ Forall2 (fun o o' => exists p q, o = Some p /\ o' = Some q /\ R p q) c b.
(** the mesh [y] has the polygons of [x], in order, with coordinates in six digits *)
Definition over (x y : mesh) : Prop := Forall2 (polygon_over pt_in_six) (polygons x) (polygons y).
