(** Specification vocabulary for contraction trees: which indices a node must
    carry, and the cost of a tree. *)
From Coq Require Import List ZArith Bool.
Import ListNotations.
From Verif Require Import M_Tree M_CTree M_Cost S_Tree.

(** Node [v] of [c] carries index [x]. *)
Definition has (c : ctree) (v x : nat) : Prop :=
  exists b, nth_error (inds c) v = Some b /\ nth_error b x = Some true.

(** [x] occurs in an input tensor of the subtree [S]; in one outside of it. *)
Definition below (c : ctree) (S : bt) (x : nat) : Prop :=
  exists l, In l (leaves S) /\ has c l x.
Definition outside (c : ctree) (T S : bt) (x : nat) : Prop :=
  exists l, In l (leaves T) /\ ~ In l (leaves S) /\ has c l x.

(** Every node carries exactly the indices that occur below it and are still
    needed: they occur in a tensor outside the subtree, or they are open ([out]:
    output indices; the code also never sums an index of a single tensor). *)
Definition exact_inds (c : ctree) (out : nat -> Prop) : Prop :=
  exists T, tree_of (nodes c) T /\
    forall S, subtree S T -> forall x,
      has c (top S) x <-> below c S x /\ (outside c T S x \/ out x).

(** Shapes: one index set per node, all of the same size [n]. *)
Definition shaped (c : ctree) (n : nat) : Prop :=
  length (inds c) = length (nodes c) /\ forall b, In b (inds c) -> length b = n.

(** Two nodes share an index. *)
Definition share (c : ctree) (a b : nat) : Prop := exists x, has c a x /\ has c b x.
(** Every contraction is between tensors that share an index. *)
Definition all_share (c : ctree) : Prop :=
  forall p a b q, nth_error (nodes c) p = Some (mkNode (Some a) (Some b) q) -> share c a b.

(** Sum over all contractions (internal nodes) of a tree. *)
Fixpoint bt_cost (f : nat -> nat -> nat -> Z) (T : bt) : Z :=
  match T with
  | Lf _ => 0
  | Nd p l r => bt_cost f l + bt_cost f r + f p (top l) (top r)
  end%Z.

(** Product over the positions below [n] that satisfy [p]. *)
Fixpoint prod_over (p : nat -> bool) (d : nat -> Z) (n : nat) : Z :=
  match n with
  | O => 1
  | S m => prod_over p d m * (if p m then d m else 1)
  end%Z.

(** Node [v] of [c] carries index [x], as a Boolean; dimension of an index. *)
Definition carries (c : ctree) (v x : nat) : bool := nth x (nth v (inds c) []) false.
Definition dimension (d : dims_t) (x : nat) : Z :=
  match d with DInt k => Z.of_N k | DVec l => Z.of_N (nth x l 1%N) end.

(** Cost of contracting nodes [a] and [b] over all the slices of [sl], the number
    of indices being [n]: the product of the dimensions of the indices of [a],
    of [b] and of the slices; of the sparse ones at most [np] combinations count. *)
Definition step_cost (m : cmodel) (c : ctree) (n : nat) (sl : nat -> bool) (a b : nat) : Z :=
  let j x := carries c a x || carries c b x || sl x in
  match m with
  | Simple => prod_over j (dimension (dims c)) n
  | Sparse sp np =>
      prod_over (fun x => j x && negb (nth x sp false)) (dimension (dims c)) n *
      Z.min (prod_over (fun x => j x && nth x sp false) (dimension (dims c)) n) np
  end%Z.

(** Cost of a contraction tree: the sum of the costs of its contractions. *)
Definition tree_cost (m : cmodel) (c : ctree) (n : nat) (sl : nat -> bool) (T : bt) : Z :=
  bt_cost (fun _ a b => step_cost m c n sl a b) T.
Definition no_slices : nat -> bool := fun _ => false.

(** [v] has [k] proper ancestors in [T]. *)
Inductive at_depth (v : nat) : nat -> bt -> Prop :=
| ad_here T : top T = v -> at_depth v 0 T
| ad_left k p l r : at_depth v k l -> at_depth v (S k) (Nd p l r)
| ad_right k p l r : at_depth v k r -> at_depth v (S k) (Nd p l r).

(** The cost model fits networks with [n] indices: the sparse set has size [n]
    and there is at least one projection (simple_sparse_inds.hpp:64). *)
Definition cmodel_ok (m : cmodel) (n : nat) : Prop :=
  match m with Simple => True | Sparse sp np => length sp = n /\ (1 <= np)%Z end.

(** Two trees contract the same tensors: same number of nodes, hence the same
    leaves; the same index sets of the leaves and of the result; same dimensions. *)
Definition same_problem (c c' : ctree) : Prop :=
  well_formed (nodes c) /\ well_formed (nodes c') /\
  dims c' = dims c /\ length (nodes c') = length (nodes c) /\ length (inds c') = length (inds c) /\
  (forall l, l < (length (nodes c) + 1) / 2 -> nth_error (inds c') l = nth_error (inds c) l) /\
  nth_error (inds c') (length (nodes c) - 1) = nth_error (inds c) (length (nodes c) - 1).
