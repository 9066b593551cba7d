(** Specification vocabulary for ordered sets. *)
From Coq Require Import List Arith.
Import ListNotations.
From Verif Require Import M_OSet.

(** [x] occurs in [l] for the first time at position [i]. *)
Definition first_at (l : list nat) (x i : nat) : Prop :=
  nth_error l i = Some x /\ forall j, j < i -> nth_error l j <> Some x.
(** The elements of [r] occur in [l], and stand in the order of their first
    occurrences there, without repetitions. *)
Definition ordered_by (l r : list nat) : Prop :=
  (forall x, In x r -> In x l) /\
  forall i j x y a b, i < j -> nth_error r i = Some x -> nth_error r j = Some y ->
    first_at l x a -> first_at l y b -> a < b.

(** [r] lists the elements that satisfy [P], once each, in the order of [l]. *)
Definition set_like (l r : list nat) (P : nat -> Prop) : Prop := NoDup r /\ ordered_by l r /\ forall x, In x r <-> P x.

(** The values a program can hold: what the constructor makes. *)
Definition made (s : oset) : Prop := exists l, s = ofs l.
Definition operand_made (o : operand) : Prop := match o with OSet s => made s | _ => True end.
