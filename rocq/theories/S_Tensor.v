(** Specification vocabulary for arrays with named indices: entries at an assignment
    of the indices, and sums over assignments. *)
From Coq Require Import List Arith Ring_theory.
Import ListNotations.
From Verif Require Import M_Tensor.

(** An array has as many entries as its shape says. *)
Definition well_shaped {K : Type} (a : nda K) : Prop := length (data a) = prod (shape a).

(** The entry of the tensor with array [a] and indices [xs] when each index [x] has
    the value [v x]. *)
Definition entry_at {K : Type} (A : alg K) (a : nda K) (xs : list nat) (v : nat -> nat) : K := entry A a (map v xs).

(** The assignment [v] with [x] set to [i]. *)
Definition assign (v : nat -> nat) (x i : nat) : nat -> nat := fun y => if y =? x then i else v y.

(** The sum of [f] over all values, below [dim], of the indices [ks]. *)
Fixpoint sum_over {K : Type} (A : alg K) (dim : nat -> nat) (ks : list nat) (f : (nat -> nat) -> K) (v : nat -> nat) : K :=
  match ks with
  | [] => f v
  | k :: ks' => sum_upto A (dim k) (fun i => sum_over A dim ks' f (assign v k i))
  end.

(** The values of the indices [xs] are below their dimensions. *)
Definition in_range (dim : nat -> nat) (xs : list nat) (v : nat -> nat) : Prop := forall x, In x xs -> v x < dim x.

(** A commutative semiring. *)
Definition semiring {K : Type} (A : alg K) : Prop := semi_ring_theory (zero A) (one A) (add A) (mul A) eq.
