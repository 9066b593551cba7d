(** Model of traverse (include/tnco/utils.hpp:34-51, bound at 115-120) and of traverse_tree
    (tnco/ctree.py:407-434) with a callback that acts while the tree is walked: it may
    change the state of the program, the tree included (the tree is passed by reference),
    and it may raise. *)
From Verif Require Import M_Base M_Tree.
Set Implicit Arguments.

Section Walk.
Variable A : Type.                            (* the state of the program *)
Variable tree_in : A -> tree.                 (* the nodes of the tree in it *)
Variable callback : A -> nat -> A * bool.     (* true: it raised *)

(** utils.hpp:34-51; the stack with its top first. The result is the state and whether the
    callback raised, which ends the walk. *)
Fixpoint walk_loop (fuel : nat) (stack : list nat) (visited : list bool) (a : A) : res (A * bool) :=
  match stack with
  | [] => Ok (a, false)
  | pos :: rest =>
      match fuel with
      | O => Err Fuel
      | S f =>
          let! n := get (tree_in a) pos in                                     (* 42 *)
          let! vis := get visited pos in
          if vis || is_leaf n then
            let '(a', raised) := callback a pos in                             (* 43-44 *)
            if raised then Ok (a', true) else walk_loop f rest visited a'
          else
            match c0 n, c1 n with
            | Some x, Some y =>
                let! visited' := set visited pos true in                       (* 46-48 *)
                walk_loop f (x :: y :: stack) visited' a
            | _, _ => Err Oob
            end
      end
  end.
(** Each node is expanded at most once. *)
Definition walk (a : A) : res (A * bool) :=
  let n := length (tree_in a) in
  walk_loop (3 * n + 1) [n - 1] (repeat false n) a.
End Walk.

(** ctree.py:407-434; the number is the progress. *)
Definition traverse_tree (A : Type) (tree_in : A -> tree) (callback : A -> nat -> A * bool) (a : A) : res (A * nat * bool) :=
  walk (fun s => tree_in (fst s)) (fun s pos => let '(a', raised) := callback (fst s) pos in (a', S (snd s), raised)) (a, 0).   (* 426-431 *)
