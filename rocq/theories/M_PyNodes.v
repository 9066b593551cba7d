(** Model of tnco/ctree.py: ContractionTree.__init__ from a list of nodes (lines
    77-97, 228-251), the properties inds and dims, pickling (253-261), and of
    Optimizer.__get_ctree__ (tnco/optimize/infinite_memory/optimizer.py:86-94, the
    same in finite_width/optimizer.py).

    Indices are naturals. A frozenset is listed by its iteration order, which is
    unspecified: [ord] reorders the indices of a tensor. *)
From Verif Require Import M_Base M_Bitset M_Tree M_CTree M_Path M_PyTree.
Set Implicit Arguments.

(** frozenset(l) != frozenset(k) (95), negated *)
Definition same_set (l k : list nat) : bool := forallb (fun x => memb x k) l && forallb (fun x => memb x l) k.

(** ctree.dims (329-346): the dimension of each index. *)
Definition py_dims (t : pytree) : list (nat * N) :=
  combine (inds_order t)
    match dims (core t) with DInt k => repeat k (length (inds_order t)) | DVec l => l end.

(** Bitset.positions() turned into names (322-324); a position beyond the list would
    be an IndexError. *)
Definition names_of (order : list nat) (b : bitset) : res (list nat) := mapM (get order) (bpositions b).

(** The fields that are passed on as _cache. *)
Definition cache := (nat * list nat * list nat)%type.
Definition cache_of (t : pytree) : cache := (n_tensors t, tensors_pos t, inds_order t).

(** 77-97 and 228-251. The dimensions come as a dictionary, so int(dims) fails
    (243-246). *)
Definition pytree_of_nodes (ns : list node) (xs : list (list nat)) (d : list (nat * N)) (c : cache) : res pytree :=
  let '(n, tpos, order) := c in
  if negb (same_set order (concat xs)) then Err Throw else                          (* 95-97 *)
  let! ps := mapM (rank_all order) xs in                                            (* 242 *)
  let! ds := dims_of (PyDict d) order in                                            (* 246 *)
  let! t := ctree_make_pos ns ps (DVec ds) false in                                 (* 249 *)
  Ok (mkPT t n tpos order).

(** __reduce__ (258-261) and __build__ (253-256). *)
Definition tree_reduce (ord : list nat -> list nat) (t : pytree)
  : res (list node * list (list nat) * list (nat * N) * cache) :=
  let! xs := mapM (names_of (inds_order t)) (inds (core t)) in
  Ok (nodes (core t), map ord xs, py_dims t, cache_of t).
Definition tree_build (x : list node * list (list nat) * list (nat * N) * cache) : res pytree :=
  let '(ns, xs, d, c) := x in pytree_of_nodes ns xs d c.

(** Optimizer.__get_ctree__: the Python tree of a C++ tree [c] of an optimizer that
    was given the tree [t]. *)
Definition get_ctree (t : pytree) (c : ctree) : res pytree :=
  let! xs := mapM (names_of (inds_order t)) (inds c) in
  pytree_of_nodes (nodes c) xs (py_dims t) (cache_of t).
