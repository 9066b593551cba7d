(** What is said about the Metropolis-Hastings probability in floating point. *)
From Coq Require Import ZArith Reals.
From Flocq Require Import Core.
From Verif Require Import M_ProbFloat.
Local Open Scope R_scope.

(** The probability that the documentation promises. *)
Definition chance (beta delta old : R) : R :=
  if Rle_dec delta 0 then 1 else Rpower (1 + delta / old) (- beta).

(** pow gives one of the two numbers next to the exact power (the exact one if it is a
    number); or the nearer one, the even one of two. *)
Definition faithful_pow (t : cost_type) (pow : R -> R -> R) : Prop :=
  forall x y, 0 < x ->
    pow x y = round radix2 (exponents (pow_type t)) Zfloor (Rpower x y) \/
    pow x y = round radix2 (exponents (pow_type t)) Zceil (Rpower x y).
Definition correct_pow (t : cost_type) (pow : R -> R -> R) : Prop :=
  forall x y, 0 < x -> pow x y = rounded (pow_type t) (Rpower x y).
(** The smallest positive number of a type, where there is one. *)
Definition smallest (t : cost_type) : R :=
  match t with Float32 => bpow radix2 (-149) | Float64 => bpow radix2 (-1074) | Float128 => bpow radix2 (-16445) | Float1024 => 0 end.
