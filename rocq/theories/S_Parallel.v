(** Specification vocabulary for Buffer and Parallel. *)
From Coq Require Import List Arith ZArith.
Import ListNotations.
From Verif Require Import M_Base M_Parallel.
Set Implicit Arguments.

(** Python's indexing of a list of length [n]: the position that [pos] denotes. *)
Definition python_index (n : nat) (pos : Z) : option nat :=
  if ((0 <=? pos) && (pos <? Z.of_nat n))%Z then Some (Z.to_nat pos)
  else if ((- Z.of_nat n <=? pos) && (pos <? 0))%Z then Some (Z.to_nat (pos + Z.of_nat n)) else None.

Section Spec.
Variables V R St : Type.
Variable step : St -> bool -> (St * option Z) + R.

(** Arguments of run [i]: the i-th of each positional and of each keyword argument. *)
Definition arguments_of (args : list (list V)) (kwargs : list (nat * list V)) (i : nat) (a : list V) (kw : list (nat * V)) : Prop :=
  Forall2 (fun l x => nth_error l i = Some x) args a /\
  Forall2 (fun l x => fst l = fst x /\ nth_error (snd l) i = Some (snd x)) kwargs kw.
(** [n] is the length of the shortest of the lists. *)
Definition shortest (ls : list (list V)) (n : nat) : Prop :=
  (forall l, In l ls -> n <= length l) /\ exists l, In l ls /\ length l = n.

(** The value of the stop flag when it is read for the [k]-th time, the flag having been
    set before read number [cut], or never. *)
Definition flag (cut : option nat) (k : nat) : bool := match cut with Some c => c <=? k | None => false end.
(** The core, run on its own from the state [s], its next read of the flag being number
    [k], returns [r]. *)
Inductive returns (cut : option nat) : nat -> St -> R -> Prop :=
| returns_now k s r : step s (flag cut k) = inr r -> returns cut k s r
| returns_later k s s' o r : step s (flag cut k) = inl (s', o) -> returns cut (S k) s' r -> returns cut k s r.

(** The core returns within [b] steps whatever it reads. *)
Fixpoint halts (b : nat) (s : St) : Prop :=
  match b with
  | 0 => False
  | S b' => forall f, match step s f with inl (s', _) => halts b' s' | inr _ => True end
  end.
Definition works_on (i : nat) (e : event) : bool := match e with Work j => i =? j | Tick => false end.
End Spec.
