(** Specification vocabulary for einsum subscripts. *)
From Coq Require Import List NArith.
Import ListNotations.

(** A code point that is a surrogate, not a character. *)
Definition surrogate (c : N) : Prop := (55296 <= c < 57344)%N.
(** The characters that separate the parts of a subscripts string: ',', '-', '>'. *)
Definition separator (c : N) : Prop := c = 44%N \/ c = 45%N \/ c = 62%N.
(** The subscripts string "t1,t2,...->out" when index [x] is written [sym x]. *)
Inductive written (sym : nat -> N) : list (list nat) -> list nat -> list N -> Prop :=
| w_none out : written sym [] out ([45%N; 62%N] ++ map sym out)
| w_one xs out : written sym [xs] out (map sym xs ++ [45%N; 62%N] ++ map sym out)
| w_more xs ys ts out s : written sym (ys :: ts) out s -> written sym (xs :: ys :: ts) out (map sym xs ++ 44%N :: s).
(** The symbols tell the indices apart, and the indices from the separators. *)
Definition readable (sym : nat -> N) (occurs : nat -> Prop) : Prop :=
  (forall x y, occurs x -> occurs y -> sym x = sym y <-> x = y) /\ (forall x, occurs x -> ~ separator (sym x)).
