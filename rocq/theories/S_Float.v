(** Specification vocabulary for rounded costs. *)
From Coq Require Import ZArith List Bool.
From Verif Require Import M_CTree M_Cost M_Float S_Opt.
Set Implicit Arguments.
Local Open Scope Z_scope.

(** [x] is [y] up to [k] relative errors of at most 2^-q:
    (1 - 2^-q)^k y <= x <= (1 + 2^-q)^k y. *)
Definition approx (q k : nat) (x y : Z) : Prop :=
  (2 ^ Z.of_nat q - 1) ^ Z.of_nat k * y <= (2 ^ Z.of_nat q) ^ Z.of_nat k * x <= (2 ^ Z.of_nat q + 1) ^ Z.of_nat k * y.

(** Rounding a non-negative number makes one relative error of at most 2^-q, and
    the power of the C library at most [kp] of them. *)
Record accurate (q kp : nat) (ar : arith) : Prop := {
  ac_rnd : forall z, 0 <= z -> approx q 1 (rnd ar z) z;
  ac_pow : forall d k, approx q kp (rpow ar d k) (Z.of_N d ^ Z.of_nat k)
}.

(** Whole numbers up to [B] are represented exactly. *)
Record exact_upto (B : Z) (ar : arith) : Prop := {
  ex_rnd : forall z, Z.abs z <= B -> rnd ar z = z;
  ex_pow : forall d k, Z.of_N d ^ Z.of_nat k <= B -> rpow ar d k = Z.of_N d ^ Z.of_nat k
}.

(** The nearest number with [p] significant bits, ties to even: the rounding of
    IEEE 754 and of MPFR_RNDN, for an unbounded exponent. *)
Definition nearest (p : nat) (z : Z) : Z :=
  let a := Z.abs z in
  let e := Z.log2 a + 1 - Z.of_nat p in
  if e <=? 0 then z else
  let u := 2 ^ e in
  let x := a / u in
  let r := a mod u in
  let x' := if 2 * r <? u then x else if u <? 2 * r then x + 1 else if Z.even x then x else x + 1 in
  Z.sgn z * (x' * u).

(** A cost type with [p] bits; the power is computed with [pp] bits first; [cl]
    is the comparison of is_valid. *)
Definition float (p pp : nat) (cl : Z -> Z -> bool) : arith :=
  mkAr (nearest p) (fun d k => nearest p (nearest pp (Z.of_N d ^ Z.of_nat k))) cl.

(** |log x - log y| <= k (log (1 + 2^-q) - log (1 - 2^-q)): include/tnco/utils.hpp:78-87
    is_logclose for the tolerance on the right hand side, which is about k 2^(1-q). *)
Definition logclose (q k : nat) (x y : Z) : bool :=
  let b := 2 ^ Z.of_nat q in
  if (x <? 0) || (y <? 0) then false else
  if (x =? 0) || (y =? 0) then x =? y else
  ((b - 1) ^ Z.of_nat k * x <=? (b + 1) ^ Z.of_nat k * y) && ((b - 1) ^ Z.of_nat k * y <=? (b + 1) ^ Z.of_nat k * x).

(** No contraction of a network with [n] indices costs more than all the
    dimensions together. *)
Definition all_dims (d : dims_t) (n : nat) : Z := prod_over (fun _ => true) (dimension d) n.

(** The number of projections can be represented. *)
Definition projs_upto (B : Z) (m : cmodel) : Prop :=
  match m with Simple => True | Sparse _ np => np <= B end.

(** The comparison of is_valid accepts two costs that are the same number up to
    [k] relative errors each. *)
Definition tolerates (q k : nat) (ar : arith) : Prop :=
  forall x y z, 0 <= z -> approx q k x z -> approx q k y z -> rclose ar x y = true.
