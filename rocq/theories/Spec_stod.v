(** * Specification vocabulary for the pixel size (C100): the numbers of the C standard
    (strtod, C11 7.22.1.3), and what std::stod owes for each.  Nothing of the model's scanner
    is used. *)
From Verif Require Import Base Dbl Spec_text Spec_num.
From Coq Require Import QArith Qabs.
Open Scope Z_scope.

(** ** Hexadecimal numbers *)
(** the character [c] writes the digit [d]: '0'..'9', 'A'..'F', 'a'..'f' *)
Definition hex_digit (c : ascii) (d : Z) : Prop :=
  (0 <= d <= 9 /\ Z.of_N (N_of_ascii c) = 48 + d) \/ (10 <= d <= 15 /\ (Z.of_N (N_of_ascii c) = 55 + d \/ Z.of_N (N_of_ascii c) = 87 + d)).
Definition hex_digits (t : str) (ds : list Z) : Prop := Forall2 hex_digit t ds.
Fixpoint positional16 (ds : list Z) : Z :=
  match ds with
  | [] => 0
  | d :: r => d * 16 ^ Z.of_nat (length r) + positional16 r
  end.
Inductive hex_fraction : str -> list Z -> Prop :=
| no_hex_fraction : hex_fraction [] []
| a_hex_fraction t ds : hex_digits t ds -> hex_fraction (dot :: t) ds.
Inductive binary_exponent : str -> Z -> Prop :=
| no_binary_exponent : binary_exponent [] 0
| a_binary_exponent c st neg t n : (c = "p"%char \/ c = "P"%char) -> sign_text st neg -> nat_text t n -> binary_exponent (c :: st ++ t) (if neg then - n else n).
Definition hex_text (t : str) (neg : bool) (q : Q) : Prop :=
  exists st x it ids ft fds et e,
    t = st ++ "0"%char :: x :: it ++ ft ++ et /\ sign_text st neg /\ (x = "x"%char \/ x = "X"%char) /\ hex_digits it ids /\ hex_fraction ft fds /\ binary_exponent et e /\
    ids ++ fds <> [] /\ (q == inject_Z (positional16 (ids ++ fds)) * (2#1) ^ (e - 4 * Z.of_nat (length fds)))%Q.
(** ** Words *)
(** [t] is the word [w] of small letters, in small or capital letters *)
Definition letter (a c : ascii) : Prop := c = a \/ N_of_ascii c = (N_of_ascii a - 32)%N.
Definition spelled (w t : str) : Prop := Forall2 letter w t.
(** letters, digits and underscores *)
Definition word_char (c : ascii) : Prop :=
  let n := N_of_ascii c in (48 <= n <= 57 \/ 65 <= n <= 90 \/ 97 <= n <= 122 \/ n = 95)%N.
Inductive nan_suffix : str -> Prop :=
| no_suffix : nan_suffix []
| a_suffix t : Forall word_char t -> nan_suffix ("("%char :: t ++ [")"%char]).

(** ** The numbers *)
Inductive reading := Number (neg : bool) (q : Q) | Infinite (neg : bool) | NotANumber.
Inductive number_text : str -> reading -> Prop :=
| decimal_number t neg q : decimal_text t neg q -> number_text t (Number neg q)
| hex_number t neg q : hex_text t neg q -> number_text t (Number neg q)
| inf_number st neg t : sign_text st neg -> (spelled ["i"; "n"; "f"]%char t \/ spelled ["i"; "n"; "f"; "i"; "n"; "i"; "t"; "y"]%char t) -> number_text (st ++ t) (Infinite neg)
| nan_number st neg t u : sign_text st neg -> spelled ["n"; "a"; "n"]%char t -> nan_suffix u -> number_text (st ++ t ++ u) NotANumber.
Definition a_number (t : str) : Prop := exists v, number_text t v.
(** [t] is the longest number the text [s] begins with *)
Definition longest_number (s t : str) : Prop :=
  exists r, s = t ++ r /\ a_number t /\ forall a r', r = a ++ r' -> a_number (t ++ a) -> a = [].
(** letters, digits, underscores, signs, points and parentheses: all that a number may contain *)
Definition number_char (c : ascii) : Prop := word_char c \/ c = minus \/ c = plus \/ c = dot \/ c = "("%char \/ c = ")"%char.
Definition no_number (s : str) : Prop := forall t r, s = t ++ r -> ~ a_number t.

(** ** What is owed *)
(** smaller than the least normal double, even rounded to its precision *)
Definition below_normal (q : Q) : Prop := (0 < q /\ q * inject_Z (2 ^ 1076) < inject_Z (2 ^ 54 - 1))%Q.
(** some double is that number *)
Definition representable (q : Q) : Prop := exists x, real_double x /\ (dval x == q)%Q.
Definition owed (v : reading) (o : outcome dbl) : Prop :=
  match v with
  | Number neg q =>
    (in_range q /\ (below_normal q -> representable q) /\ exists x, o = Ok x /\ nearest_double (signed neg q) x /\ negative x = neg) \/
    ((~ in_range q \/ (below_normal q /\ ~ representable q)) /\ o = Throw OutOfRange)
  | Infinite neg => o = Ok (S754_infinity neg)
  | NotANumber => o = Ok S754_nan
  end.
