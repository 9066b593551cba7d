(** What it means for two contraction trees to be the same contraction order. *)
From Coq Require Import QArith Reals Qreals List.
Import ListNotations.
From Verif Require Import M_Base M_Opt M_Prob S_Tree.

(** The same order of contractions: the same tensors are contracted in the same
    groups. The two operands of a contraction may be listed in either order, and
    the intermediate results may be stored at different positions. *)
Inductive same_order : bt -> bt -> Prop :=
| so_leaf p : same_order (Lf p) (Lf p)
| so_node p p' l r l' r' : same_order l l' -> same_order r r' -> same_order (Nd p l r) (Nd p' l' r')
| so_flip p p' l r l' r' : same_order l r' -> same_order r l' -> same_order (Nd p l r) (Nd p' l' r').

(** ** Dice
    The generator as two streams: the integers [prng()] returns and the numbers
    [uniform(prng)] returns, one after the other. *)
Definition dice : Type := list nat * list Q.
Definition next_int (r : dice) : nat * dice :=
  match fst r with [] => (0%nat, r) | x :: l => (x, (l, snd r)) end.
Definition next_uniform (r : dice) : Q * dice :=
  match snd r with [] => (0%Q, r) | u :: l => (u, (fst r, l)) end.
(** The acceptance test with probability [prob], with these dice. *)
Definition dice_rand (prob : Z -> Z -> R) : rand dice := r_rand next_int next_uniform prob.
