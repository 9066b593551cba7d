(** Specification vocabulary: abstract binary trees whose nodes are labelled by
    positions, and what it means for a flat list of nodes to be such a tree. *)
From Coq Require Import List Permutation Arith.
Import ListNotations.
From Verif Require Import M_Tree.

Inductive bt :=
| Lf (p : nat)
| Nd (p : nat) (l r : bt).

Definition top (T : bt) : nat := match T with Lf p => p | Nd p _ _ => p end.

(** All positions, and the positions of the leaves, from left to right. *)
Fixpoint positions (T : bt) : list nat :=
  match T with Lf p => [p] | Nd p l r => p :: positions l ++ positions r end.
Fixpoint leaves (T : bt) : list nat :=
  match T with Lf p => [p] | Nd _ l r => leaves l ++ leaves r end.

(** Post-order: left subtree, right subtree, node. *)
Fixpoint postorder (T : bt) : list nat :=
  match T with Lf p => [p] | Nd p l r => postorder l ++ postorder r ++ [p] end.

(** The internal nodes in post-order, with their children. *)
Fixpoint merges (T : bt) : list (nat * nat * nat) :=
  match T with
  | Lf _ => []
  | Nd p l r => merges l ++ merges r ++ [(top l, top r, p)]
  end.

(** [subtree S T]: S occurs in T. *)
Inductive subtree (S : bt) : bt -> Prop :=
| sub_here : subtree S S
| sub_left p l r : subtree S l -> subtree S (Nd p l r)
| sub_right p l r : subtree S r -> subtree S (Nd p l r).

(** Read from its top, the list of nodes [t] spells out exactly [T]: children and
    parent links of every node are those of [T]; [q] is the parent link of the
    top. *)
Fixpoint unfolds (t : list node) (q : option nat) (T : bt) : Prop :=
  match T with
  | Lf p => nth_error t p = Some (mkNode None None q)
  | Nd p l r =>
      nth_error t p = Some (mkNode (Some (top l)) (Some (top r)) q) /\
      unfolds t (Some p) l /\ unfolds t (Some p) r
  end.

(** The list of nodes [t] is the binary tree [T]: it spells out [T] from a root
    without parent, every position of the list is used exactly once, the root is
    the last node and the leaves are the first ones. *)
Definition tree_of (t : list node) (T : bt) : Prop :=
  unfolds t None T /\
  Permutation (positions T) (seq 0 (length t)) /\
  top T = length t - 1 /\
  (forall p, In p (leaves T) <-> p < (length t + 1) / 2).

Definition well_formed (t : list node) : Prop := exists T, tree_of t T.

(** [exchange d T T']: T' is T with the subtree whose top is [d] and its uncle
    (the sibling of its parent) exchanged, both intact and each taking the other's
    place; everything else is as in T. *)
Inductive exchange (d : nat) : bt -> bt -> Prop :=
| ex_ll a b D E C : top D = d -> exchange d (Nd a (Nd b D E) C) (Nd a (Nd b C E) D)
| ex_lr a b D E C : top D = d -> exchange d (Nd a (Nd b E D) C) (Nd a (Nd b E C) D)
| ex_rl a b D E C : top D = d -> exchange d (Nd a C (Nd b D E)) (Nd a D (Nd b C E))
| ex_rr a b D E C : top D = d -> exchange d (Nd a C (Nd b E D)) (Nd a D (Nd b E C))
| ex_left a l l' r : exchange d l l' -> exchange d (Nd a l r) (Nd a l' r)
| ex_right a l r r' : exchange d r r' -> exchange d (Nd a l r) (Nd a l r').

(** [d] is neither in the tree, nor its root, nor a child of the root. *)
Definition shallow (d : nat) (T : bt) : Prop :=
  ~ In d (positions T) \/ d = top T \/
  (exists p l r, T = Nd p l r /\ (d = top l \/ d = top r)).

(** The uncle of [d]: sibling of its parent. *)
Inductive uncle (d u : nat) : bt -> Prop :=
| un_l a b l r C : (top l = d \/ top r = d) -> top C = u -> uncle d u (Nd a (Nd b l r) C)
| un_r a b l r C : (top l = d \/ top r = d) -> top C = u -> uncle d u (Nd a C (Nd b l r))
| un_left a l r : uncle d u l -> uncle d u (Nd a l r)
| un_right a l r : uncle d u r -> uncle d u (Nd a l r).
