(** * Decimal: text of doubles and of unsigned integers.

    Models of the C++ library calls the project relies on:
    - [os << double] with default flags: printf "%g", 6 significant digits,
      correctly rounded (glibc rounds the exact binary value half-to-even);
    - [is >> double] (libstdc++ [num_get::_M_extract_float] followed by [strtod],
      correctly rounded to nearest even);
    - [os << size_t], [is >> size_t] (libstdc++ [num_get::_M_extract_int]).
    Used at src/lib/shadow/point.cpp:112-116, src/lib/shadow/face.cpp:238-249,
    src/include/io/Off_stream/off_stream.h, src/include/io/Obj_stream/obj_stream.h,
    src/lib/algorithms/io_algorithms.cpp.  The "C" locale is assumed. *)
From Verif Require Import Base Dbl.
Open Scope Z_scope.

(** ** Correct rounding, in integers *)

(** nearest integer to a/b (b > 0), ties to even *)
Definition rhe (a b : Z) : Z :=
  let q := a / b in
  match 2 * (a mod b) ?= b with
  | Lt => q
  | Gt => q + 1
  | Eq => if Z.even q then q else q + 1
  end.

(** the pair (num, den) of the rational (a/b) / k^e *)
Definition scale (k a b e : Z) : Z * Z :=
  if 0 <=? e then (a, b * k ^ e) else (a * k ^ (- e), b).

(** floor(log2(a/b)) for a, b > 0 *)
Definition flog2 (a b : Z) : Z :=
  let e0 := Z.log2 a - Z.log2 b in
  let '(n, d) := scale 2 a b e0 in
  if n <? d then e0 - 1 else e0.

(** number of decimal digits of n >= 0 (0 has none) *)
Fixpoint ndigits_fuel (fuel : nat) (n : Z) : Z :=
  match fuel with
  | O => 0
  | S f => if n <=? 0 then 0 else 1 + ndigits_fuel f (n / 10)
  end.
Definition ndigits (n : Z) : Z := ndigits_fuel (Z.to_nat (Z.log2 n + 1)) n.

(** floor(log10(a/b)) for a, b > 0 *)
Definition flog10 (a b : Z) : Z :=
  if b <=? a then ndigits (a / b) - 1
  else - ndigits ((b - 1) / a).

(** the double nearest to (-1)^s a/b, ties to even; an overflow gives an infinity *)
Definition rn64 (s : bool) (a b : Z) : dbl :=
  let ex := Z.max (flog2 a b - 52) (-1074) in
  let '(n, d) := scale 2 a b ex in
  let m := rhe n d in
  let '(m, ex) := if m =? 2 ^ 53 then (2 ^ 52, ex + 1) else (m, ex) in
  match m with
  | Zpos p => if ex <=? 971 then S754_finite s p ex else S754_infinity s
  | _ => S754_zero s
  end.

(** the 6-digit decimal mantissa and exponent of a/b: (d, x) with
    10^5 <= d < 10^6 and a/b ~ d * 10^(x-5) *)
Definition dec6 (a b : Z) : Z * Z :=
  let x := flog10 a b in
  let '(n, d) := scale 10 a b (x - 5) in
  let m := rhe n d in
  if m =? 1000000 then (100000, x + 1) else (m, x).

(** the exact value of a finite double as a fraction *)
Definition frac (m : positive) (e : Z) : Z * Z :=
  if 0 <=? e then (Zpos m * 2 ^ e, 1) else (Zpos m, 2 ^ (- e)).

(** ** Characters *)
Definition digit_char (n : Z) : ascii := ascii_of_N (48 + Z.to_N n)%N.
Definition char_digit (c : ascii) : option Z :=
  let n := N_of_ascii c in
  if ((48 <=? n) && (n <=? 57))%N then Some (Z.of_N n - 48) else None.
Definition ch_minus : ascii := "-"%char.
Definition ch_plus : ascii := "+"%char.
Definition ch_dot : ascii := "."%char.
Definition ch_e : ascii := "e"%char.
Definition ch_E : ascii := "E"%char.
Definition ch_0 : ascii := "0"%char.
Definition ch_sp : ascii := " "%char.
Definition ch_nl : ascii := "010"%char.
(** isspace in the "C" locale *)
Definition is_space (c : ascii) : bool :=
  let n := N_of_ascii c in ((n =? 32) || ((9 <=? n) && (n <=? 13)))%N.

(** digits of n >= 0, most significant first ("" for 0), added before [acc] *)
Fixpoint digits_fuel (fuel : nat) (n : Z) (acc : str) : str :=
  match fuel with
  | O => acc
  | S f => if n <=? 0 then acc else digits_fuel f (n / 10) (digit_char (n mod 10) :: acc)
  end.
(** os << size_t *)
Definition print_nat (n : Z) : str :=
  if n =? 0 then [ch_0] else digits_fuel (Z.to_nat (Z.log2 n + 1)) n [].
Definition print_N (n : N) : str := print_nat (Z.of_N n).

(** the k-digit decimal string of n < 10^k, with leading zeros *)
Fixpoint fixed_digits (k : nat) (n : Z) (acc : str) : str :=
  match k with
  | O => acc
  | S k => fixed_digits k (n / 10) (digit_char (n mod 10) :: acc)
  end.
Fixpoint rstrip0 (s : str) : str :=
  match s with
  | [] => []
  | c :: s => match rstrip0 s with
              | [] => if Ascii.eqb c ch_0 then [] else [c]
              | s' => c :: s'
              end
  end.
(** decimal point and fraction, absent when the fraction is empty *)
Definition dot_frac (f : str) : str := match f with [] => [] | _ => ch_dot :: f end.
Definition sign_str (s : bool) : str := if s then [ch_minus] else [].
(** exponent: sign and at least two digits *)
Definition exp_str (x : Z) : str :=
  ch_e :: (if x <? 0 then ch_minus else ch_plus) ::
  (if Z.abs x <? 10 then ch_0 :: print_nat (Z.abs x) else print_nat (Z.abs x)).

(** %g with precision 6 of the 6-digit decimal (d, x) *)
Definition fmt_g (s : bool) (d x : Z) : str :=
  let ds := fixed_digits 6 d [] in
  sign_str s ++
  if (-4 <=? x) && (x <? 6) then
    if 0 <=? x then
      firstn (Z.to_nat (x + 1)) ds ++ dot_frac (rstrip0 (skipn (Z.to_nat (x + 1)) ds))
    else ch_0 :: dot_frac (repeat ch_0 (Z.to_nat (- x - 1)) ++ rstrip0 ds)
  else firstn 1 ds ++ dot_frac (rstrip0 (skipn 1 ds)) ++ exp_str x.

(** os << double.  (A NaN is printed "nan"; glibc prints "-nan" for a NaN whose
    sign bit is set, which the model does not distinguish.) *)
Definition print_dbl (v : dbl) : str :=
  match v with
  | S754_zero s => sign_str s ++ [ch_0]
  | S754_infinity s => sign_str s ++ ["i"; "n"; "f"]%char
  | S754_nan => ["n"; "a"; "n"]%char
  | S754_finite s m e =>
    let '(a, b) := frac m e in let '(d, x) := dec6 a b in fmt_g s d x
  end.

(** ** Scanning *)
(** longest prefix of digits: (value appended to v, number of digits, rest) *)
Fixpoint scan_digits (v : Z) (n : nat) (s : str) : Z * nat * str :=
  match s with
  | c :: s' => match char_digit c with
               | Some d => scan_digits (10 * v + d) (S n) s'
               | None => (v, n, s)
               end
  | [] => (v, n, [])
  end.
Definition scan_sign (s : str) : bool * str :=
  match s with
  | c :: s' => if Ascii.eqb c ch_minus then (true, s')
               else if Ascii.eqb c ch_plus then (false, s') else (false, s)
  | [] => (false, [])
  end.
(** strtod: the double nearest to (-1)^s v * 10^e *)
Definition dec_to_dbl (s : bool) (v e : Z) : dbl :=
  if v =? 0 then S754_zero s
  else let '(a, b) := (if 0 <=? e then (v * 10 ^ e, 1) else (v, 10 ^ (- e))) in rn64 s a b.
(** is >> double on a stream positioned on a non-space: None = failbit.
    libstdc++ accumulates [sign] digits [. digits] [e [sign] digits] and fails
    unless strtod accepts everything it accumulated; an overflow also fails. *)
Definition scan_double (s : str) : option (dbl * str) :=
  let '(sg, s1) := scan_sign s in
  let '(v1, n1, s2) := scan_digits 0 0 s1 in
  let '(v2, n2, s3) := match s2 with
                       | c :: s' => if Ascii.eqb c ch_dot then scan_digits v1 0 s' else (v1, O, s2)
                       | [] => (v1, O, [])
                       end in
  if (n1 + n2 =? 0)%nat then None
  else
    let finish e rest :=
      match dec_to_dbl sg v2 (e - Z.of_nat n2) with
      | S754_infinity _ => None
      | x => Some (x, rest)
      end in
    match s3 with
    | c :: s' =>
      if Ascii.eqb c ch_e || Ascii.eqb c ch_E then
        let '(es, s4) := scan_sign s' in
        let '(ev, en, s5) := scan_digits 0 0 s4 in
        if (en =? 0)%nat then None else finish (if es then - ev else ev) s5
      else finish 0 s3
    | [] => finish 0 []
    end.
(** is >> size_t: a '-' negates modulo 2^64, an overflow fails *)
Definition scan_size (s : str) : option (N * str) :=
  let '(sg, s1) := scan_sign s in
  let '(v, n, s2) := scan_digits 0 0 s1 in
  if (n =? 0)%nat then None
  else if Z.of_N two64 <=? v then None
  else Some (if sg then wrap64 (two64 - Z.to_N v) else Z.to_N v, s2).

Fixpoint skip_ws (s : str) : str :=
  match s with
  | c :: s' => if is_space c then skip_ws s' else s
  | [] => []
  end.
(** [std::istream_iterator<T>] over a string stream: items until the first failure
    or the end of the text.  [fuel] = number of characters suffices. *)
Fixpoint scan_list {A} (scan : str -> option (A * str)) (fuel : nat) (s : str) : list A :=
  match fuel with
  | O => []
  | S f => match skip_ws s with
           | [] => []
           | s' => match scan s' with
                   | Some (a, r) => a :: scan_list scan f r
                   | None => []
                   end
           end
  end.
Definition scan_doubles (s : str) : list dbl := scan_list scan_double (length s) s.
Definition scan_sizes (s : str) : list N := scan_list scan_size (length s) s.

(** conversion double -> size_t: truncation; undefined when the truncated value
    does not fit ([conv.fpint]) *)
Definition size_of_dbl (x : dbl) : outcome N :=
  match x with
  | S754_zero _ => Ok 0%N
  | S754_finite s m e =>
    let '(a, b) := frac m e in
    let t := a / b in
    if s then (if t =? 0 then Ok 0%N else UB)
    else if t <? Z.of_N two64 then Ok (Z.to_N t) else UB
  | _ => UB
  end.

(** [sline >> n] with n a size_t initialised to 0: (value of n, rest of the stream or
    None when failbit is set).  On failure n is 0, or 2^64-1 on overflow. *)
Definition scan_size_n (s : str) : N * option str :=
  match skip_ws s with
  | [] => (0%N, None)
  | s' => match scan_size s' with
          | Some (n, r) => (n, Some r)
          | None => let '(v, n, _) := scan_digits 0 0 (snd (scan_sign s')) in
                    if (n =? 0)%nat then (0%N, None) else ((two64 - 1)%N, None)
          end
  end.
