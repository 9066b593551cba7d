(** Specification vocabulary: what a valid contraction tree of a network is. *)
From Coq Require Import List ZArith NArith.
From Verif Require Import M_Base M_Tree M_CTree M_Path M_PyTree M_PyNodes M_PyViews S_Tree S_PyTree.
Import ListNotations.
Set Implicit Arguments.

(** The node [v] of the tree reports the index [x]. *)
Definition reported (t : pytree) (v x : nat) : Prop := exists xs, py_inds t v = Ok xs /\ In x xs.
(** [x] occurs in one of the tensors [l] of [ts]. *)
Definition in_tensors (ts : list (list nat)) (l : list nat) (x : nat) : Prop := exists v, In v l /\ In x (nth v ts []).

(** The tree [t], whose nodes are the tree [T], is a contraction tree of the network with
    the tensors [ts], the dimensions [d] and the output indices [out]: its leaves are the
    tensors, its indices have their dimensions, and every node has the indices that occur
    below it and still are needed, in a tensor that is not below it or as an output. *)
Definition belongs (t : pytree) (T : bt) (ts : list (list nat)) (d : pydims) (out : list nat) : Prop :=
  length ts = length (leaves T) /\
  (forall x, In x (M_PyViews.all_inds t) <-> In x (concat ts)) /\
  (forall x k, dict_get (py_dims t) x = Ok k -> dim_is d x k) /\
  (forall v x, In v (leaves T) -> reported t v x <-> In x (nth v ts [])) /\
  (forall x, In x out <-> reported t (top T) x) /\
  (forall S x, subtree S T ->
     reported t (top S) x <-> in_tensors ts (leaves S) x /\ ((exists v, In v (leaves T) /\ ~ In v (leaves S) /\ In x (nth v ts [])) \/ In x out)).
(** Every contraction of the tree is between tensors that share an index. *)
Definition shares (t : pytree) (T : bt) : Prop :=
  forall p l r, subtree (Nd p l r) T -> exists x, reported t (top l) x /\ reported t (top r) x.

(** [h] counts, for every index of the tensors, how often it is contracted: once less
    than there are tensors with it, and once more if it is an output. *)
Definition counts (ts : list (list nat)) (out : list nat) (h : list (nat * Z)) : Prop :=
  forall x, In x (concat ts) ->
    dict_get h x = Ok (Z.of_nat (length (filter (memb x) ts)) - 1 + (if memb x out then 1 else 0))%Z.

(** What holds of every ContractionTree object: it is a tree [T], its indices have
    different names, its sets are sets of these, and there is a dimension for each. *)
Definition object_of (t : pytree) (T : bt) : Prop :=
  tree_of (nodes (core t)) T /\ NoDup (inds_order t) /\
  length (inds (core t)) = length (nodes (core t)) /\
  (forall b, In b (inds (core t)) -> length b = length (inds_order t)) /\
  exists ds, length ds = length (inds_order t) /\ (forall k, In k ds -> k <> 0%N) /\ dims (core t) = collapse_dims (DVec ds).
