(** * Specification vocabulary for numbers in text (C81, C82): decimal notation, correct
    rounding, the notation written by default. Nothing of the model's scanner or printer
    is used. *)
From Verif Require Import Base Dbl Spec_text.
From Coq Require Import QArith Qabs.
Open Scope Z_scope.

(** ** Digits *)
(** the text [t] writes the digits [ds] ('0' has code 48) *)
Definition digits_text (t : str) (ds : list Z) : Prop := Forall2 (fun c d => 0 <= d <= 9 /\ Z.of_N (N_of_ascii c) = 48 + d) t ds.
(** positional value, most significant digit first *)
Fixpoint positional (ds : list Z) : Z :=
  match ds with
  | [] => 0
  | d :: r => d * 10 ^ Z.of_nat (length r) + positional r
  end.
Definition minus : ascii := "-"%char.
Definition plus : ascii := "+"%char.
Definition dot : ascii := "."%char.
Inductive sign_text : str -> bool -> Prop :=
| no_sign : sign_text [] false
| plus_sign : sign_text [plus] false
| minus_sign : sign_text [minus] true.
(** unsigned integer in decimal *)
Definition nat_text (t : str) (n : Z) : Prop := exists ds, digits_text t ds /\ ds <> [] /\ n = positional ds.
Inductive exponent_text : str -> Z -> Prop :=
| no_exponent : exponent_text [] 0
| exponent c st neg t n : (c = "e"%char \/ c = "E"%char) -> sign_text st neg -> nat_text t n -> exponent_text (c :: st ++ t) (if neg then - n else n).
Inductive fraction_text : str -> list Z -> Prop :=
| no_fraction : fraction_text [] []
| fraction t ds : digits_text t ds -> fraction_text (dot :: t) ds.
(** [t] is a decimal number of sign [neg] and absolute value [q] *)
Definition decimal_text (t : str) (neg : bool) (q : Q) : Prop :=
  exists st it ids ft fds et e,
    t = st ++ it ++ ft ++ et /\ sign_text st neg /\ digits_text it ids /\ fraction_text ft fds /\ exponent_text et e /\
    ids ++ fds <> [] /\ (q == inject_Z (positional (ids ++ fds)) * (10#1) ^ (e - Z.of_nat (length fds)))%Q.
(** [t] is a signed integer *)
Definition integer_text (t : str) (neg : bool) (n : Z) : Prop := exists st u, t = st ++ u /\ sign_text st neg /\ nat_text u n.
(** what an extraction consumes: the longest prefix of the input that some text of the language extends *)
Definition viable (L : str -> Prop) (t : str) : Prop := exists u, L (t ++ u).
Definition consumed (L : str -> Prop) (s t r : str) : Prop :=
  s = t ++ r /\ viable L t /\ forall c r', r = c :: r' -> ~ viable L (t ++ [c]).
Definition a_decimal (t : str) : Prop := exists neg q, decimal_text t neg q.
Definition an_integer (t : str) : Prop := exists neg n, integer_text t neg n.

(** ** Correct rounding *)
Definition even_mantissa (x : dbl) : Prop := match x with S754_finite _ m _ => Z.even (Zpos m) = true | _ => True end.
Definition negative (x : dbl) : bool := match x with S754_zero s | S754_infinity s | S754_finite s _ _ => s | S754_nan => false end.
(** [x] is the finite double closest to [q]; of two equally close the one with even mantissa *)
Definition nearest_double (q : Q) (x : dbl) : Prop :=
  real_double x /\
  forall y, real_double y -> (Qabs (dval x - q) <= Qabs (dval y - q))%Q /\
    ((Qabs (dval x - q) == Qabs (dval y - q))%Q -> ~ (dval x == dval y)%Q -> even_mantissa x).
(** numbers from which on the result would be an infinity: half an ulp above the largest double *)
Definition in_range (q : Q) : Prop := (Qabs q < inject_Z (2 ^ 1024 - 2 ^ 970))%Q.
Definition signed (neg : bool) (q : Q) : Q := (if neg then - q else q)%Q.

(** ** Lists of numbers *)
Definition all_blank (s : str) : Prop := forall c, In c s -> In (N_of_ascii c) [32; 9; 10; 11; 12; 13]%N.
Definition no_blank_head (s : str) : Prop := match s with [] => False | c :: _ => ~ In (N_of_ascii c) [32; 9; 10; 11; 12; 13]%N end.
(** the values taken one after the other, blanks skipped before each, until an extraction
    fails or the text ends *)
Inductive extracts {A} (one : str -> A -> str -> Prop) : str -> list A -> Prop :=
| ex_end s : all_blank s -> extracts one s []
| ex_fail b s : all_blank b -> no_blank_head s -> (forall a r, ~ one s a r) -> extracts one (b ++ s) []
| ex_one b s a r l : all_blank b -> no_blank_head s -> one s a r -> extracts one r l -> extracts one (b ++ s) (a :: l).
(** one double taken from a text that does not start with a blank *)
Definition takes_double (s : str) (x : dbl) (r : str) : Prop :=
  exists t neg q, consumed a_decimal s t r /\ decimal_text t neg q /\ in_range q /\ nearest_double (signed neg q) x /\ negative x = neg.
(** one size_t: a negative number is taken modulo 2^64, numbers from 2^64 on are refused *)
Definition takes_size (s : str) (n : N) (r : str) : Prop :=
  exists t neg v, consumed an_integer s t r /\ integer_text t neg v /\ v < 2 ^ 64 /\
    (Z.of_N n < 2 ^ 64) /\ (Z.of_N n - (if neg then - v else v)) mod 2 ^ 64 = 0.

(** ** The notation written by default: six significant digits *)
(** [D] * 10^([X]-5) is the decimal with six significant digits closest to q; of two equally
    close the one with an even last digit *)
Definition six_digits (q : Q) (D X : Z) : Prop :=
  100000 <= D <= 999999 /\
  forall D' X', 100000 <= D' <= 999999 ->
    let v := (inject_Z D * (10#1) ^ (X - 5))%Q in let w := (inject_Z D' * (10#1) ^ (X' - 5))%Q in
    (Qabs (v - q) <= Qabs (w - q))%Q /\ ((Qabs (v - q) == Qabs (w - q))%Q -> ~ (v == w)%Q -> Z.even D = true).
Definition zero : ascii := "0"%char.
(** integer part without superfluous leading zero; fraction without trailing zero *)
Definition tidy_fraction (ft : str) : Prop := ft = [] \/ exists t c, ft = dot :: t ++ [c] /\ c <> zero.
Definition sign_of (neg : bool) : str := if neg then [minus] else [].
(** text of (-1)^neg D 10^(X-5): plain notation for -4 <= X < 6, scientific otherwise *)
Definition default_text (neg : bool) (D X : Z) (t : str) : Prop :=
  exists it ids ft fds et e,
    t = sign_of neg ++ it ++ ft ++ et /\ digits_text it ids /\ fraction_text ft fds /\ exponent_text et e /\
    (inject_Z (positional (ids ++ fds)) * (10#1) ^ (e - Z.of_nat (length fds)) == inject_Z D * (10#1) ^ (X - 5))%Q /\
    tidy_fraction ft /\
    if (-4 <=? X) && (X <? 6)
    then et = [] /\ it <> [] /\ (it = [zero] \/ hd zero it <> zero)
    else length it = 1%nat /\ it <> [zero] /\
         exists sg u, et = "e"%char :: sg :: u /\ (sg = plus \/ sg = minus) /\ (2 <= length u)%nat /\ (length u = 2%nat \/ hd zero u <> zero) /\ nat_text u (Z.abs X) /\ (sg = minus <-> X < 0).
