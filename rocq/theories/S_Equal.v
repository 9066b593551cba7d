(** Specification vocabulary for the comparison of tensors and networks. *)
From Coq Require Import List Arith ZArith Bool.
Import ListNotations.
From Verif Require Import M_Base M_Path M_Tensor M_TnApp M_Equal S_Tensor S_LoadTn.
Set Implicit Arguments.

Section Equal.
Variable K : Type.
Variable A : alg K.
Variable sub : K -> K -> K.
Variable small : K -> bool.

(** A tensor that the constructor gives. *)
Definition made (t : tensor K) : Prop :=
  (exists inds dims a, make_tensor inds dims a = Ok t) /\ (forall a, t_array t = Some a -> well_shaped a).

(** A position in an array of the given shape. *)
Definition place_in (sh ix : list nat) : Prop := Forall2 lt ix sh.
(** The same indices and dimensions, and either no arrays or two arrays whose entries
    differ by little everywhere. *)
Definition alike (t u : tensor K) : Prop :=
  t_inds t = t_inds u /\ t_dims t = t_dims u /\
  match t_array t, t_array u with
  | None, None => True
  | Some a, Some b => shape a = shape b /\ forall ix, place_in (shape a) ix -> small (sub (entry A a ix) (entry A b ix)) = true
  | _, _ => False
  end.

(** Two shapes clash if, at the same distance from the last axis, they have different
    sizes of which none is 1. *)
Definition clash (s t : list nat) : Prop :=
  exists i d e, nth_error (rev s) i = Some d /\ nth_error (rev t) i = Some e /\ d <> e /\ d <> 1 /\ e <> 1.
(** Two tensors that cannot be compared. *)
Definition incomparable (t u : tensor K) : Prop :=
  exists a b, t_array t = Some a /\ t_array u = Some b /\ clash (shape a) (shape b).

Variable G : Type.
Notation network := (network K G).
(** A network that the constructors give; its tensors are objects of memory. *)
Definition in_memory (mem : nat -> option (tensor K)) (n : network) : Prop :=
  built (w_net n) /\ Forall2 (fun i t => mem i = Some t) (w_ids n) (n_list (w_net n)).
(** Two tensors in the same place of two networks. *)
Definition facing (n m : network) (k : nat) (i j : nat) (t u : tensor K) : Prop :=
  nth_error (w_ids n) k = Some i /\ nth_error (w_ids m) k = Some j /\
  nth_error (n_list (w_net n)) k = Some t /\ nth_error (n_list (w_net m)) k = Some u.
(** The same numbers of tensors, alike (or the same objects) in the same order, and the same output and sparse
    indices. *)
Definition alike_networks (n m : network) : Prop :=
  length (n_list (w_net n)) = length (n_list (w_net m)) /\
  (forall k i j t u, facing n m k i j t u -> i = j \/ alike t u) /\
  (forall x, In x (n_out (w_net n)) <-> In x (n_out (w_net m))) /\
  (forall x, In x (n_sparse (w_net n)) <-> In x (n_sparse (w_net m))).
End Equal.
