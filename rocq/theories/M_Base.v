(** Shared vocabulary of the model: results with explicit errors, checked list
    access, in-place list update, and the loops of Python/C++ over them. *)
From Coq Require Export List Arith ZArith Lia Bool.
Export ListNotations.
Set Implicit Arguments.

(** How a modelled call can end abnormally.
    [Throw]  : a C++ exception or a Python exception raised on purpose.
    [Oob]    : an unchecked container access outside its range (undefined
               behaviour in C++, IndexError in Python).
    [Crash]  : an operation that is undefined in itself (modulo by zero).
    [Fuel]   : the fuel given to a modelled [while] loop ran out (the real loop
               would still be running). *)
Inductive err := Throw | Oob | Crash | Fuel.

Inductive res (A : Type) :=
| Ok (a : A)
| Err (e : err).
Arguments Ok {A} a.
Arguments Err {A} e.

Definition bind {A B} (x : res A) (f : A -> res B) : res B :=
  match x with Ok a => f a | Err e => Err e end.

Notation "'let!' x ':=' e 'in' k" := (bind e (fun x => k))
  (at level 200, x pattern, e at level 100, k at level 200, right associativity).

(** [v[i]] of an unchecked vector. *)
Definition get {A} (l : list A) (i : nat) : res A :=
  match nth_error l i with Some a => Ok a | None => Err Oob end.

(** The list with position [i] replaced (out of range: unchanged). *)
Fixpoint upd {A} (l : list A) (i : nat) (x : A) : list A :=
  match l, i with
  | [], _ => []
  | _ :: l', O => x :: l'
  | y :: l', S i' => y :: upd l' i' x
  end.

(** [v[i] = x] of an unchecked vector. *)
Definition set {A} (l : list A) (i : nat) (x : A) : res (list A) :=
  if i <? length l then Ok (upd l i x) else Err Oob.

Definition is_ok {A} (r : res A) : bool :=
  match r with Ok _ => true | Err _ => false end.

Fixpoint map2 {A B C} (f : A -> B -> C) (l : list A) (k : list B) : list C :=
  match l, k with
  | x :: l', y :: k' => f x y :: map2 f l' k'
  | _, _ => []
  end.

Definition sumZ (l : list Z) : Z := fold_right Z.add 0%Z l.
