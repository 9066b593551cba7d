(** Specification vocabulary for decompose_hyper_inds: indices that are merged. *)
From Coq Require Import List Arith.
Import ListNotations.
From Verif Require Import M_Base M_Path M_Tensor S_Random S_Tensor.

(** [v] gives each index the same value as the indices merged into it. *)
Definition agrees (h : list (nat * list nat)) (v : nat -> nat) : Prop :=
  forall y s x, In (y, s) h -> In x s -> v x = v y.

(** The index to which the map [m] sends [x]. *)
Definition sent (m : list (nat * nat)) (x : nat) : nat := match dict_get m x with Ok y => y | Err _ => x end.
(** [v] gives each index of the network [ts] the same value as the index it is sent to. *)
Definition identified (ts : list (list nat)) (m : list (nat * nat)) (v : nat -> nat) : Prop :=
  forall t x, has ts t x -> v x = v (sent m x).

(** Some pair of axes of the tensor with array [a] and indices [xs] is diagonal. *)
Definition has_diagonal {K : Type} (A : alg K) (dim : nat -> nat) (a : nda K) (xs : list nat) : Prop :=
  exists i j x y, i < j /\ nth_error xs i = Some x /\ nth_error xs j = Some y /\ dim x = dim y /\
    forall v, in_range dim xs v -> v x <> v y -> entry_at A a xs v = zero A.
