(** * Side: the side of a matrix as Adjacency_stream computes it, in doubles. *)
From Verif Require Import Base Dbl Decimal Shadow Streams Handlers Surface.
Open Scope nat_scope.

(** static_cast<std::size_t>(std::floor(std::sqrt(size))), adjacency_stream.h:60: the size is
    converted to a double; on numbers that are not negative truncation is floor *)
Definition side_d (size : N) : outcome N := size_of_dbl (dsqrt (dofZ (Z.of_N size))).
(** Adjacency_stream << vector<bool>, adjacency_stream.h:58-71, with this side; the product is
    that of std::size_t *)
Definition adjacency_print_d (m : list bool) : outcome str :=
  let* n := side_d (nsize m) in
  if ((n * n) mod two64 =? nsize m)%N
  then let* rows := omapM (print_row m (N.to_nat n)) (seq 0 (N.to_nat n)) in Ok (concat rows)
  else Throw LogicError.
