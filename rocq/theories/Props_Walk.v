(** C75: walking a tree with a callback that acts. *)
From Coq Require Import List Arith Lia.
Import ListNotations.
From Verif Require Import M_Base M_Tree S_Tree M_Walk S_Walk P_TreeMain P_Walk Props_Tree.
Set Implicit Arguments.

(** If the callback does not change the tree, traverse_tree calls it for each node, children
    first, one after the other until it raises; the state is what these calls make of it,
    the exception is passed on and the progress is the number of calls. *)
Theorem C75_callbacks : forall (A : Type) (tree_in : A -> tree) callback a, leaves_tree tree_in callback -> well_formed (tree_in a) ->
  exists order k a' raised, children_first (tree_in a) order /\ traverse_tree tree_in callback a = Ok (a', k, raised) /\
    calls callback order a k a' raised /\ (raised = false -> k = length (tree_in a)).
Proof. exact traverse_tree_ok. Qed.
Print Assumptions C75_callbacks.

(** If the callback changes the tree to others of the same size, by swaps for example, the
    walk still ends, stays within the tree and calls it at most once per node in number. *)
Theorem C75_walk_ends : forall (A : Type) (tree_in : A -> tree) callback a, leaves_a_tree tree_in callback -> well_formed (tree_in a) ->
  exists a' k raised, traverse_tree tree_in callback a = Ok (a', k, raised) /\ k <= length (tree_in a) /\ well_formed (tree_in a').
Proof. exact traverse_tree_ends. Qed.
Print Assumptions C75_walk_ends.

(** Callbacks that note the positions they are called with: one raises at a position, one
    swaps the node [d] when called for the first time. *)
Definition noting (stop : nat) (s : tree * list nat) (p : nat) : tree * list nat * bool := (fst s, snd s ++ [p], p =? stop).
Definition swapping (d : nat) (s : tree * list nat) (p : nat) : tree * list nat * bool :=
  match snd s with
  | [] => match swap_nn (fst s) d with Ok t => (t, [p], false) | Err _ => (fst s, [p], true) end
  | _ => (fst s, snd s ++ [p], false)
  end.
Lemma swapping_tree d : leaves_a_tree fst (swapping d).
Proof.
  intros (t, l) p (T & HT). unfold swapping. cbn [fst snd] in *. destruct l; [|cbn; split; [exists T; auto|auto]].
  destruct (swap_keeps_tree_lemma d HT) as (H1 & H2). destruct (swap_nn t d) as [t'|e] eqn:E; cbn [fst]; [|split; [exists T; auto|auto]].
  destruct (shallow_dec d T) as [H | H].
  - specialize (H1 H). injection H1 as ->. split; [exists T; auto|auto].
  - destruct (H2 H) as (t2 & T2 & E2 & HT2 & _ & L2 & _). injection E2 as ->. split; [exists T2; auto|auto].
Qed.
Example C75_applies : well_formed ex_tree /\ leaves_tree fst (noting 5) /\
  traverse_tree fst (noting 9) (ex_tree, []) = Ok (ex_tree, [0; 1; 4; 2; 5; 3; 6], 7, false) /\
  traverse_tree fst (noting 5) (ex_tree, []) = Ok (ex_tree, [0; 1; 4; 2; 5], 5, true).
Proof. split; [exists ex_bt; exact ex_tree_of|]. split; [intros s p; reflexivity|]. split; vm_compute; reflexivity. Qed.

(** Missing: that each node is visited if the callback swaps nodes. The swap moves a node
    that was visited below one that is not, and the other way around: one node is visited
    twice and one never. *)
Theorem C75_swaps_during_the_walk_refuted : exists t d t' l, well_formed t /\ leaves_a_tree fst (swapping d) /\
  traverse_tree fst (swapping d) (t, []) = Ok (t', l, length t, false) /\ count_occ Nat.eq_dec l 0 = 2 /\ ~ In 1 l /\ 1 < length t.
Proof.
  exists [mkNode None None (Some 4); mkNode None None (Some 3); mkNode None None (Some 3); mkNode (Some 1) (Some 2) (Some 4); mkNode (Some 0) (Some 3) None], 1.
  do 2 eexists. split.
  { exists (Nd 4 (Lf 0) (Nd 3 (Lf 1) (Lf 2))). split; [repeat split|]. split; [|split; [reflexivity|]].
    - cbn. apply Permutation.NoDup_Permutation; [repeat constructor; simpl; intuition discriminate|repeat constructor; simpl; intuition discriminate|]. intros x. simpl. tauto.
    - intros p. replace ((length _ + 1) / 2) with 3 by reflexivity. cbn. lia. }
  split; [apply swapping_tree|]. split; [vm_compute; reflexivity|]. split; [reflexivity|]. split; [simpl; intuition discriminate|simpl; lia].
Qed.
Print Assumptions C75_swaps_during_the_walk_refuted.
