(** Specification vocabulary for contract: the product of tensors, and the inputs
    that are accepted. *)
From Coq Require Import List Arith NArith.
Import ListNotations.
From Verif Require Import M_PyTree M_Tensor S_Path S_PyTree S_Random S_Network S_Fuse S_Tensor.

(** The product of the entries of the tensors number [l] when index [x] has the value
    [v x]. *)
Definition product {K : Type} (A : alg K) (arrays : list (nda K)) (ts : list (list nat)) (l : list nat) (v : nat -> nat) : K :=
  fold_right (mul A) (one A) (map (fun t => entry_at A (nth t arrays (mkA [] [])) (nth t ts []) v) l).
(** The product of all tensors of the network. *)
Definition network {K : Type} (A : alg K) (arrays : list (nda K)) (ts : list (list nat)) (v : nat -> nat) : K :=
  product A arrays ts (seq 0 (length ts)) v.

(** The arrays have the shapes that the dimensions [dim] give to the tensors [ts]. *)
Definition shaped {K : Type} (dim : nat -> nat) (arrays : list (nda K)) (ts : list (list nat)) : Prop :=
  Forall2 (fun a xs => shape a = map dim xs) arrays ts.

(** The output indices: the given ones or, by default, those of a single tensor. *)
Definition is_output (ts : list (list nat)) (output : option (list nat)) (x : nat) : Prop :=
  match output with Some o => In x o | None => lonely ts x end.

(** There are dimensions, and they are consistent. *)
Definition dims_fit {K : Type} (ts : list (list nat)) (arrays : option (list (nda K))) (dims : option pydims) : Prop :=
  match arrays, dims with
  | None, None => False
  | None, Some d => forall t x, has ts t x -> exists k, dim_is d x k
  | Some l, None => exists dim, shaped dim l ts
  | Some l, Some d => exists dim, shaped dim l ts /\ forall t x, has ts t x -> dim_is d x (N.of_nat (dim x))
  end.
(** There is an output, and all its indices are in the network. *)
Definition output_fits (ts : list (list nat)) (output : option (list nat)) : Prop :=
  match output with
  | None => forall x, ~ in_three ts x
  | Some o => forall x, In x o -> exists t, has ts t x
  end.
