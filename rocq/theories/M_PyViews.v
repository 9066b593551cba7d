(** Model of what a Python ContractionTree reports about itself: tnco/ctree.py
    all_inds (269-277), output_inds (279-287), inds (300-327), dims (329-346: [py_dims]
    of M_PyNodes) and max_width (390-404). A frozenset is a list of its elements. *)
From Coq Require Import QArith ZArith NArith List.
From Verif Require Import M_Base M_Bitset M_Tree M_CTree M_Path M_PyTree M_PyNodes.
Import ListNotations.
Set Implicit Arguments.

(** 269-277 *)
Definition all_inds (t : pytree) : list nat := inds_order t.

(** ctree.inds[k] for 0 <= k (315-327): IndexError beyond the list. *)
Definition py_inds (t : pytree) (k : nat) : res (list nat) :=
  let! b := get (inds (core t)) k in names_of (inds_order t) b.
(** ctree.inds[-1] (287): the last one *)
Definition output_inds (t : pytree) : res (list nat) :=
  match length (inds (core t)) with O => Err Throw | S n => py_inds t n end.

(** 402-403: the product of the dimensions *)
Definition node_size (t : pytree) (xs : list nat) : res N :=
  let! ks := mapM (dict_get (py_dims t)) xs in Ok (fold_left N.mul ks 1%N).
(** max(): the first of the largest *)
Fixpoint first_max (w : Q) (ws : list Q) : Q :=
  match ws with [] => w | v :: ws' => first_max (if Qlt_le_dec w v then v else w) ws' end.
(** 400-404; [lg] is math.log2. Iterating over the proxy calls inds[0], inds[1], ... until
    the IndexError. *)
Definition max_width (lg : N -> Q) (t : pytree) : res Q :=
  let! xss := mapM (names_of (inds_order t)) (inds (core t)) in
  let! sizes := mapM (node_size t) xss in
  match map lg sizes with [] => Err Throw | w :: ws => Ok (first_max w ws) end.
