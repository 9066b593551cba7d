(** Model of include/tnco/optimize/prob/mh.hpp with the rounding of its arithmetic, for each
    of the cost types of prob.py:128 and globals.hpp:37-45, 84-105. Numbers are reals; each
    operation is followed by the rounding of its type to the nearest number, ties to even
    (IEEE 754 for float, double and long double; MPFR_RNDN for FixedFloat,
    fixed_float.hpp:39). Simplification: no overflow, and no limit on the exponents of
    FixedFloat (those of MPFR have 63 bits). *)
From Coq Require Import ZArith Reals.
From Flocq Require Import Core.
Set Implicit Arguments.

(** prob.py:128 cost_type; globals.hpp:56-72 type_to_str: the names in bits of storage *)
Inductive cost_type := Float32 | Float64 | Float128 | Float1024.

(** Bits of precision and the exponent of the smallest positive number. float128 is long
    double, which on x86-64 has 64 bits of precision in 128 bits of storage. *)
Definition precision (t : cost_type) : Z :=
  match t with Float32 => 24 | Float64 => 53 | Float128 => 64 | Float1024 => 1024 end.
Definition exponents (t : cost_type) : Z -> Z :=
  match t with
  | Float32 => FLT_exp (-149) 24
  | Float64 => FLT_exp (-1074) 53
  | Float128 => FLT_exp (-16445) 64
  | Float1024 => FLX_exp 1024
  end.
Definition rounded (t : cost_type) (x : R) : R := round radix2 (exponents t) ZnearestE x.

(** The type in which pow(cost_type, double) computes (the promotion of std::pow;
    fixed_float.hpp:228-237 for FixedFloat). *)
Definition pow_type (t : cost_type) : cost_type :=
  match t with Float32 => Float64 | _ => t end.

(** prob/mh.hpp:43-53; [pow] is the function of the C++ library or of MPFR. The result is
    converted to the cost type. *)
Definition mh_call (t : cost_type) (pow : R -> R -> R) (beta delta_cost old_cost : R) : R :=
  if Rle_dec delta_cost 0 then 1%R
  else rounded t (pow (rounded t (1 + rounded t (delta_cost / old_cost)))%R (- beta)%R).

(** infinite_memory/optimizer.hpp:162, finite_width/greedy/optimizer.hpp:201: the move is kept
    if the drawn number is at most the probability. *)
Definition mh_keeps (t : cost_type) (pow : R -> R -> R) (beta delta_cost old_cost draw : R) : bool :=
  if Rle_dec draw (mh_call t pow beta delta_cost old_cost) then true else false.
