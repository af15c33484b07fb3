(** * Stod: std::stod as called on the pixel size, src/bin/orthoproject.cpp:85: libstdc++'s
    __stoa around glibc's strtod in the "C" locale (the programs never call setlocale). *)
From Verif Require Import Base Dbl Decimal.
Open Scope Z_scope.

(** the longest prefix of characters of a kind, and the rest *)
Fixpoint span (p : ascii -> bool) (s : str) : str * str :=
  match s with
  | c :: s' => if p c then let '(a, b) := span p s' in (c :: a, b) else ([], s)
  | [] => ([], [])
  end.
Definition is_digit (c : ascii) : bool := match char_digit c with Some _ => true | None => false end.
(** the value of a hexadecimal digit *)
Definition hex_val (c : ascii) : option Z :=
  let n := N_of_ascii c in
  if ((48 <=? n) && (n <=? 57))%N then Some (Z.of_N n - 48)
  else if ((65 <=? n) && (n <=? 70))%N then Some (Z.of_N n - 55)
  else if ((97 <=? n) && (n <=? 102))%N then Some (Z.of_N n - 87)
  else None.
Definition is_hex (c : ascii) : bool := match hex_val c with Some _ => true | None => false end.
Definition dec_val (c : ascii) : Z := match char_digit c with Some d => d | None => 0 end.
Definition hexa (c : ascii) : Z := match hex_val c with Some d => d | None => 0 end.
Definition is_e (c : ascii) : bool := Ascii.eqb c "e"%char || Ascii.eqb c "E"%char.
Definition is_p (c : ascii) : bool := Ascii.eqb c "p"%char || Ascii.eqb c "P"%char.
(** the digits [ds] after the number [v], in base [k] *)
Definition horner (k : Z) (val : ascii -> Z) (ds : str) : Z := fold_left (fun v c => k * v + val c) ds 0.

(** the radix character and the digits after it *)
Definition fraction_part (isd : ascii -> bool) (s : str) : str * str :=
  match s with
  | c :: s' => if Ascii.eqb c ch_dot then span isd s' else ([], s)
  | [] => ([], [])
  end.
(** the exponent.  A letter that no digit follows is not part of the number *)
Definition exponent_part (ise : ascii -> bool) (s : str) : Z :=
  match s with
  | c :: s' =>
    if ise c then
      let '(neg, s1) := scan_sign s' in
      let '(D, _) := span is_digit s1 in
      match D with [] => 0 | _ => if neg then - horner 10 dec_val D else horner 10 dec_val D end
    else 0
  | [] => 0
  end.
(** digits, fraction, exponent: (digits before, digits after, exponent).  None without a digit *)
Definition mantissa (isd ise : ascii -> bool) (s : str) : option (str * str * Z) :=
  let '(ip, s1) := span isd s in
  let '(fp, s2) := fraction_part isd s1 in
  match ip ++ fp with
  | [] => None
  | _ => Some (ip, fp, exponent_part ise s2)
  end.
(** what strtod found: (-1)^s v k^e with a power of 10 or 2, infinity, not a number *)
Inductive found := Power (s : bool) (v k e : Z) | Infinity (s : bool) | Nan.
(** upper-case letters as lower-case ones *)
Definition lower (c : ascii) : ascii :=
  let n := N_of_ascii c in if ((65 <=? n) && (n <=? 90))%N then ascii_of_N (n + 32) else c.
Fixpoint begins (w s : str) : bool :=
  match w, s with
  | [], _ => true
  | a :: w, c :: s => Ascii.eqb a (lower c) && begins w s
  | _, [] => false
  end.
Definition w_inf : str := ["i"; "n"; "f"]%char.
Definition w_nan : str := ["n"; "a"; "n"]%char.
(** strtod after the sign [sg]; None when there is no number.  ("infinity" gives what its
    beginning "inf" gives, and "nan(...)" what "nan" gives.) *)
Definition strtod_unsigned (sg : bool) (s : str) : option found :=
  if begins w_inf s then Some (Infinity sg)
  else if begins w_nan s then Some Nan
  else
    match (match s with
           | z :: x :: s2 => if Ascii.eqb z ch_0 && (Ascii.eqb x "x"%char || Ascii.eqb x "X"%char) then mantissa is_hex is_p s2 else None
           | _ => None
           end) with
    | Some (ip, fp, e) => Some (Power sg (horner 16 hexa (ip ++ fp)) 2 (e - 4 * Z.of_nat (length fp)))
    | None =>
      match mantissa is_digit is_e s with
      | Some (ip, fp, e) => Some (Power sg (horner 10 dec_val (ip ++ fp)) 10 (e - Z.of_nat (length fp)))
      | None => None
      end
    end.
Definition strtod (s : str) : option found := let '(sg, s1) := scan_sign s in strtod_unsigned sg s1.
(** does the double stand for a/b exactly? *)
Definition exactly (x : dbl) (a b : Z) : bool :=
  match x with S754_finite _ m e => let '(n, d) := frac m e in n * b =? a * d | _ => false end.
(** below the least normal double even when rounded to 53 bits: glibc then reports an
    underflow, errno = ERANGE, if digits were lost *)
Definition tiny (a b : Z) : bool := a * 2 ^ 1076 <? (2 ^ 54 - 1) * b.
(** errno = ERANGE: the number a/b is too large, or digits were lost below the normal doubles *)
Definition settle (a b : Z) (x : dbl) : outcome dbl :=
  match x with
  | S754_infinity _ => Throw OutOfRange
  | _ => if tiny a b && negb (exactly x a b) then Throw OutOfRange else Ok x
  end.
(** std::stod: std::invalid_argument (a std::logic_error) without a number, std::out_of_range
    when strtod sets errno to ERANGE; what follows the number is ignored *)
Definition stod (s : str) : outcome dbl :=
  match strtod (skip_ws s) with
  | None => Throw LogicError
  | Some (Infinity s) => Ok (S754_infinity s)
  | Some Nan => Ok S754_nan
  | Some (Power s v k e) =>
    if v =? 0 then Ok (S754_zero s)
    else
      let '(a, b) := if 0 <=? e then (v * k ^ e, 1) else (v, k ^ (- e)) in
      settle a b (rn64 s a b)
  end.
