(** Specification vocabulary for the singular value decomposition. *)
From Coq Require Import List Arith.
Import ListNotations.
From Verif Require Import M_Tensor S_Tensor.
Set Implicit Arguments.

(** [U] is m x k, [Vh] is k x n, where k is the smaller of m and n, and the matrix
    [M] is U diag(s) Vh. *)
Definition factors (K : Type) (A : alg K) (M : nda K) (m n : nat) (usv : nda K * list K * nda K) : Prop :=
  let '(u, s, vh) := usv in
  length s = Nat.min m n /\ well_shaped u /\ well_shaped vh /\ shape u = [m; length s] /\ shape vh = [length s; n] /\
  forall i j, i < m -> j < n ->
    entry A M [i; j] = sum_upto A (length s) (fun r => mul A (mul A (entry A u [i; r]) (nth r s (zero A))) (entry A vh [r; j])).
Definition factorises (K : Type) (A : alg K) (f : nda K -> nda K * list K * nda K) : Prop :=
  forall M m n, well_shaped M -> shape M = [m; n] -> factors A M m n (f M).

(** What the three tensors stand for: the sum over the new index [name] of the product
    of the entries. *)
Definition joined (K : Type) (A : alg K) (dim : nat -> nat) (u : nda K * list nat) (s : nda K * list nat) (v : nda K * list nat)
  (name k : nat) : (nat -> nat) -> K :=
  sum_over A (assign dim name k) [name]
    (fun w => mul A (mul A (entry_at A (fst u) (snd u) w) (entry_at A (fst s) (snd s) w)) (entry_at A (fst v) (snd v) w)).

(** The caller named the new index and the name is not taken, or, without a name, one
    of the first [fuel] random names is not taken. *)
Definition usable (names : nat -> nat) (fuel : nat) (inds : list nat) (o : option nat) : Prop :=
  match o with
  | Some x => ~ In x inds
  | None => exists k, k < fuel /\ ~ In (names k) inds
  end.
(** A proper part of the indices: distinct, not empty, not all. *)
Definition proper_part (left inds : list nat) : Prop :=
  NoDup left /\ (forall x, In x left -> In x inds) /\ left <> [] /\ exists x, In x inds /\ ~ In x left.
