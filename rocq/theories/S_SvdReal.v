(** Specification vocabulary for the error of a truncated decomposition, over the
    real numbers. *)
From Coq Require Import List Arith Reals.
Import ListNotations.
From Verif Require Import M_Tensor S_Tensor S_Svd.

Definition reals : alg R := mkAlg 0%R 1%R Rplus Rmult.
(** s >= atol *)
Definition at_least (atol x : R) : bool := if Rle_dec atol x then true else false.
(** A singular value decomposition: moreover the singular values are not negative,
    and the columns of U and the rows of Vh have length at
    most one (numpy returns some of length one). *)
Definition decomposes (f : nda R -> nda R * list R * nda R) : Prop :=
  factorises reals f /\
  forall M m n, well_shaped M -> shape M = [m; n] ->
    let '(u, s, vh) := f M in
    (forall x, In x s -> (0 <= x)%R) /\
    (forall r, r < length s -> (sum_upto reals m (fun i => entry reals u [i; r] * entry reals u [i; r]) <= 1)%R) /\
    (forall r, r < length s -> (sum_upto reals n (fun j => entry reals vh [r; j] * entry reals vh [r; j]) <= 1)%R).
