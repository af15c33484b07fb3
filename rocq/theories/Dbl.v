(** * Dbl: IEEE-754 binary64 ("double") and binary32 ("float") arithmetic.

    Doubles are the standard library's [spec_float]; the operations are the
    standard library's bit-exact, axiom-free specification instantiated at
    precision 53 and maximal exponent 1024.  A NaN is a single value (payloads
    are not observable in the project). *)
From Verif Require Import Base.
From Coq Require Export SpecFloat.

Definition dbl := spec_float.
Definition dprec : Z := 53%Z.
Definition demax : Z := 1024%Z.

Definition dadd : dbl -> dbl -> dbl := SFadd dprec demax.
Definition dsub : dbl -> dbl -> dbl := SFsub dprec demax.
Definition dmul : dbl -> dbl -> dbl := SFmul dprec demax.
Definition ddiv : dbl -> dbl -> dbl := SFdiv dprec demax.
Definition dsqrt : dbl -> dbl := SFsqrt dprec demax.
Definition dopp : dbl -> dbl := SFopp.
Definition deqb : dbl -> dbl -> bool := SFeqb.   (* operator == on double *)
Definition dltb : dbl -> dbl -> bool := SFltb.   (* operator <  on double *)
Definition dleb : dbl -> dbl -> bool := SFleb.   (* operator <= on double *)
Definition dnan : dbl := S754_nan.
Definition dinf : dbl := S754_infinity false.
Definition dninf : dbl := S754_infinity true.
Definition dzero : dbl := S754_zero false.
(** a value of the type double (canonical mantissa and exponent) *)
Definition dvalid (x : dbl) : bool := valid_binary dprec demax x.
Definition dfinite (x : dbl) : bool :=
  match x with S754_zero _ | S754_finite _ _ _ => true | _ => false end.
Definition disnan (x : dbl) : bool := match x with S754_nan => true | _ => false end.

(** conversion of an integer to double (exact below 2^53, else rounded to nearest even) *)
Definition dofZ (z : Z) : dbl := binary_normalize dprec demax z 0 false.
(** [std::numeric_limits<double>::epsilon()] = 2^-52 *)
Definition depsilon : dbl := S754_finite false 4503599627370496 (-104).

(** [std::min<double>(a,b)]: [b < a ? b : a]; [std::max<double>(a,b)]: [a < b ? b : a] *)
Definition dmin (a b : dbl) : dbl := if dltb b a then b else a.
Definition dmax (a b : dbl) : dbl := if dltb a b then b else a.

(** [static_cast<float>(double)] and back.  Binary32 values are kept as
    [spec_float] with 24-bit mantissas. *)
Definition f32_of_dbl (x : dbl) : spec_float :=
  match x with
  | S754_finite s m e => binary_round 24 128 s m e
  | _ => x
  end.
Definition dbl_of_f32 (x : spec_float) : dbl :=
  match x with
  | S754_finite s m e => binary_round dprec demax s m e
  | _ => x
  end.

(** equal to the opposite, up to the sign of zero *)
Definition opposite (x y : dbl) : Prop :=
  x = dopp y \/ (exists s t, x = S754_zero s /\ y = S754_zero t).
