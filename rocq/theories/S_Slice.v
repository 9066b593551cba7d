(** Specification vocabulary for slicing: the network in which the indices [S] are
    fixed to given values. *)
From Coq Require Import List Arith.
Import ListNotations.
From Verif Require Import M_Path M_PyTree M_Tensor S_Tensor.

(** The indices other than the sliced ones. *)
Definition unsliced (S xs : list nat) : list nat := filter (fun x => negb (memb x S)) xs.

(** [b] is the array [a], with the indices [xs], in which each index [x] of [S] is
    fixed to the value [w x]. *)
Definition slice_of {K : Type} (A : alg K) (dim : nat -> nat) (S : list nat) (w : nat -> nat) (xs : list nat) (a b : nda K) : Prop :=
  well_shaped b /\ shape b = map dim (unsliced S xs) /\
  forall v, in_range dim (unsliced S xs) v -> (forall x, In x S -> v x = w x) -> entry_at A b (unsliced S xs) v = entry_at A a xs v.

(** The arrays [bs] are those of the network with the arrays [arrays] and the tensors
    [ts], sliced. *)
Definition slices_of {K : Type} (A : alg K) (dim : nat -> nat) (S : list nat) (w : nat -> nat) (ts : list (list nat)) (arrays bs : list (nda K)) : Prop :=
  length arrays = length ts /\ length bs = length ts /\
  forall t xs a b, nth_error ts t = Some xs -> nth_error arrays t = Some a -> nth_error bs t = Some b -> slice_of A dim S w xs a b.
