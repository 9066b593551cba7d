(** Model of include/tnco/ctree.hpp (ContractionTree). *)
From Verif Require Import M_Base M_Bitset M_Tree.
Set Implicit Arguments.

(** ctree.hpp:35-37 dims_type: one integer for all indices, or one per index
    (size_t, hence never negative). *)
Inductive dims_t := DInt (d : N) | DVec (l : list N).

(** ctree.hpp:31-40 *)
Record ctree := mkCT { nodes : tree; inds : list bitset; dims : dims_t }.

(** ctree.hpp:154 n_inds. *)
Definition n_inds (c : ctree) : nat := length (nth 0 (inds c) []).

(** ctree.hpp:138-148, one node: children intersect (when asked), the XOR of the
    children is inside, and the node is inside the union of the children. *)
Definition contraction_ok (check_shared : bool) (x0 x1 x : bitset) : bool :=
  negb (check_shared && negb (bintersects x0 x1)) &&
  bsubset (bxor x0 x1) x && bsubset x (bor x0 x1).

Definition node_contraction_ok (check_shared : bool) (c : ctree) (i : nat) (n : node) : bool :=
  if is_leaf n then true else
  match c0 n, c1 n with
  | Some a, Some b =>
      match nth_error (inds c) a, nth_error (inds c) b, nth_error (inds c) i with
      | Some x0, Some x1, Some x => contraction_ok check_shared x0 x1 x
      | _, _, _ => false
      end
  | _, _ => false
  end.

(** ctree.hpp:121-135 *)
Definition dims_ok (c : ctree) : bool :=
  match dims c with
  | DVec l => (length l =? n_inds c) && forallb (fun d => negb (d =? 0)%N) l
  | DInt d => negb (d =? 0)%N
  end.

(** ctree.hpp:101-152 ContractionTree::is_valid (first component). *)
Definition ctree_is_valid (c : ctree) (check_shared : bool) : bool :=
  tree_is_valid (nodes c) &&
  (length (inds c) =? length (nodes c)) &&
  forallb (fun xs => length xs =? n_inds c) (inds c) &&
  dims_ok c &&
  all_pos (nodes c) (node_contraction_ok check_shared c).

(** ctree.hpp:42-51 constructor from bitsets. *)
Definition ctree_make (ns : list node) (xs : list bitset) (d : dims_t) (check_shared : bool)
  : res ctree :=
  let! t := tree_make ns in
  let c := mkCT t xs d in
  if ctree_is_valid c check_shared then Ok c else Err Throw.

(** ctree.hpp:65-72: one more than the largest position. *)
Definition max_pos (xs : list (list nat)) : nat :=
  fold_right (fun l m => Nat.max (match l with [] => 0 | _ => list_max l + 1 end) m) 0 xs.

Fixpoint build_inds (xs : list (list nat)) (n : nat) : res (list bitset) :=
  match xs with
  | [] => Ok []
  | l :: xs' =>
      let! b := of_positions l n in
      let! r := build_inds xs' n in
      Ok (b :: r)
  end.

(** ctree.hpp:79-89: a constant non-empty vector collapses to one integer. *)
Definition collapse_dims (d : dims_t) : dims_t :=
  match d with
  | DVec (x :: l) => if forallb (fun y => (y =? x)%N) (x :: l) then DInt x else d
  | _ => d
  end.

(** ctree.hpp:59-94 constructor from lists of positions. *)
Definition ctree_make_pos (ns : list node) (xs : list (list nat)) (d : dims_t)
  (check_shared : bool) : res ctree :=
  let! t := tree_make ns in
  let! bs := build_inds xs (max_pos xs) in
  let c := mkCT t bs (collapse_dims d) in
  if ctree_is_valid c check_shared then Ok c else Err Throw.
