(** Specification vocabulary for contraction paths: what a linear path does to a
    list of tensors. *)
From Coq Require Import List Arith Bool Permutation.
Import ListNotations.

(** An intermediate tensor, written as the tree of contractions that produced it.
    The order of the two operands is irrelevant: the one with the smaller first
    tensor is written first. *)
Inductive term := T (t : nat) | C (a b : term).
Fixpoint first_tensor (a : term) : nat :=
  match a with T t => t | C a b => Nat.min (first_tensor a) (first_tensor b) end.
Definition join (a b : term) : term := if first_tensor a <=? first_tensor b then C a b else C b a.
(** The tensors an intermediate tensor is made of. *)
Fixpoint tensors (a : term) : list nat :=
  match a with T t => [t] | C a b => tensors a ++ tensors b end.

(** The list without the positions [x] and [y]. *)
Fixpoint without_from {A} (i : nat) (x y : nat) (l : list A) : list A :=
  match l with
  | [] => []
  | a :: l' => if (i =? x) || (i =? y) then without_from (S i) x y l' else a :: without_from (S i) x y l'
  end.
Definition without {A} (x y : nat) (l : list A) : list A := without_from 0 x y l.

(** Performing a linear path on a list of tensors: each step takes two different
    positions, removes these tensors and puts the new one at the end. Result: the
    contractions in the order in which they are performed, and the tensors that
    are left. None: the path is not valid. *)
Fixpoint perform (ts : list term) (p : list (nat * nat)) : option (list term * list term) :=
  match p with
  | [] => Some ([], ts)
  | (x, y) :: p' =>
      if x =? y then None else
      match nth_error ts x, nth_error ts y with
      | Some a, Some b =>
          match perform (without x y ts ++ [join a b]) p' with
          | Some (cs, rest) => Some (join a b :: cs, rest)
          | None => None
          end
      | _, _ => None
      end
  end.
(** The same, for [n] tensors numbered from 0. *)
Definition performs (n : nat) (p : list (nat * nat)) (cs rest : list term) : Prop :=
  perform (map T (seq 0 n)) p = Some (cs, rest).

(** The tensors that are touched by some contraction. *)
Definition touched (cs : list term) (t : nat) : Prop := exists c, In c cs /\ In t (tensors c).

(** Every tensor of [c] is one of [comp]. *)
Definition within (comp : list nat) (c : term) : bool :=
  forallb (fun t => existsb (Nat.eqb t) comp) (tensors c).
