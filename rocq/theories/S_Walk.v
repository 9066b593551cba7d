(** Calling a callback for some positions one after the other, until it raises. *)
From Coq Require Import List.
Import ListNotations.
From Verif Require Import M_Base M_Tree S_Tree.

(** [calls callback ps a k a' raised]: called for the positions [ps] in turn, starting in
    [a], the callback is called [k] times, ends in [a'], and raised or not. *)
Inductive calls {A} (callback : A -> nat -> A * bool) : list nat -> A -> nat -> A -> bool -> Prop :=
| calls_end a : calls callback [] a 0 a false
| calls_raise p ps a a' : callback a p = (a', true) -> calls callback (p :: ps) a 1 a' true
| calls_next p ps a a1 k a' r : callback a p = (a1, false) -> calls callback ps a1 k a' r -> calls callback (p :: ps) a (S k) a' r.

(** The callback leaves the tree as it is; or leaves a tree with as many nodes. *)
Definition leaves_tree {A} (tree_in : A -> tree) (callback : A -> nat -> A * bool) : Prop :=
  forall a p, tree_in (fst (callback a p)) = tree_in a.
Definition leaves_a_tree {A} (tree_in : A -> tree) (callback : A -> nat -> A * bool) : Prop :=
  forall a p, well_formed (tree_in a) ->
    well_formed (tree_in (fst (callback a p))) /\ length (tree_in (fst (callback a p))) = length (tree_in a).

(** Each position once, children before their parents. *)
Definition children_first (t : tree) (order : list nat) : Prop :=
  (forall v, In v order <-> v < length t) /\ NoDup order /\
  (forall k1 v k2 n c, order = k1 ++ v :: k2 -> nth_error t v = Some n -> c0 n = Some c \/ c1 n = Some c -> In c k1).
