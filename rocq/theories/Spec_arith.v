(** * Specification vocabulary: the rational value of a double. *)
From Verif Require Import Base Dbl Shadow.
From Coq Require Import QArith.

(** (-1)^s m 2^e *)
Definition dvalue (x : dbl) : option Q :=
  match x with
  | S754_zero _ => Some 0%Q
  | S754_finite s m e => Some ((if s then - (1) else 1) * (inject_Z (Zpos m) * inject_Z 2 ^ e))%Q
  | _ => None
  end.
(** [x] is a double and its value is [q] *)
Definition represents (x : dbl) (q : Q) : Prop := dvalid x = true /\ exists v, dvalue x = Some v /\ (v == q)%Q.
(** [x] is a double and its value is the integer [z] *)
Definition is_int (x : dbl) (z : Z) : Prop := represents x (inject_Z z).
(** vectors and points with integer coordinates *)
Definition int_vect (v : vect) (c : Z * Z * Z) : Prop := is_int (vx v) (fst (fst c)) /\ is_int (vy v) (snd (fst c)) /\ is_int (vz v) (snd c).
Definition int_point (p : point) (c : Z * Z * Z) : Prop := is_int (px p) (fst (fst c)) /\ is_int (py p) (snd (fst c)) /\ is_int (pz p) (snd c).
Definition coords_within (B : Z) (c : Z * Z * Z) : Prop := (Z.abs (fst (fst c)) <= B /\ Z.abs (snd (fst c)) <= B /\ Z.abs (snd c) <= B)%Z.
(** integer vector algebra *)
Definition zsub (a b : Z * Z * Z) : Z * Z * Z := let '(x, y, z) := a in let '(x', y', z') := b in (x - x', y - y', z - z')%Z.
Definition zadd (a b : Z * Z * Z) : Z * Z * Z := let '(x, y, z) := a in let '(x', y', z') := b in (x + x', y + y', z + z')%Z.
Definition zscale (k : Z) (a : Z * Z * Z) : Z * Z * Z := let '(x, y, z) := a in (k * x, k * y, k * z)%Z.
Definition zdot (a b : Z * Z * Z) : Z := let '(x, y, z) := a in let '(x', y', z') := b in (x * x' + y * y' + z * z')%Z.
Definition zcross (a b : Z * Z * Z) : Z * Z * Z :=
  let '(x, y, z) := a in let '(x', y', z') := b in (y * z' - z * y', z * x' - x * z', x * y' - y * x')%Z.
Definition zdet (a b c : Z * Z * Z) : Z := zdot a (zcross b c).
