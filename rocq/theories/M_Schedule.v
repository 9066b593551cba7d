(** Model of the temperatures of a run: tnco/app/infinite_memory/sa.py:136-151, 194-200
    and tnco/app/finite_width/sa.py:153-168, 214-220 (the same lines), with
    more_itertools.numeric_range.

    Python floats are the numbers of the format double of M_Fixed, with infinities and
    NaN. Simplification: temperatures and bounds are floats; integers up to 2^53 behave
    like the floats of the same value (0 and 0.0 give the same temperatures). *)
From Coq Require Import ZArith List Bool.
From Verif Require Import M_Base M_Fixed M_App.
Import ListNotations.
Set Implicit Arguments.
Local Open Scope Z_scope.

(** * Arithmetic of floats (IEEE 754, to nearest, ties to even) *)
Definition dadd (x y : num) : num :=
  match x, y with
  | NaN, _ | _, NaN => NaN
  | Inf s, Inf s' => if Bool.eqb s s' then Inf s else NaN
  | Inf s, _ => Inf s
  | _, Inf s => Inf s
  | Zero s, Zero s' => if Bool.eqb s s' then Zero s else Zero false
  | Zero _, _ => y
  | _, Zero _ => x
  | Num s m e, Num s' m' e' =>
      let g := Z.min e e' in
      match signed s (Zpos m * 2 ^ (e - g)) + signed s' (Zpos m' * 2 ^ (e' - g)) with
      | Z0 => Zero false
      | Zpos k => round double false k 1 g
      | Zneg k => round double true k 1 g
      end
  end.
Definition dsub (x y : num) : num := dadd x (opposite y).
Definition dmul (x y : num) : num :=
  let s := xorb (sign x) (sign y) in
  match x, y with
  | NaN, _ | _, NaN => NaN
  | Inf _, Zero _ | Zero _, Inf _ => NaN
  | Inf _, _ | _, Inf _ => Inf s
  | Zero _, _ | _, Zero _ => Zero s
  | Num _ m e, Num _ m' e' => round double s (m * m') 1 (e + e')
  end.
(** [n] is not 0 here. *)
Definition ddiv (x y : num) : num :=
  let s := xorb (sign x) (sign y) in
  match x, y with
  | NaN, _ | _, NaN => NaN
  | Inf _, Inf _ | Zero _, Zero _ => NaN
  | Inf _, _ | _, Zero _ => Inf s
  | Zero _, _ | _, Inf _ => Zero s
  | Num _ m e, Num _ m' e' => round double s m m' (e - e')
  end.
(** float(n) for n >= 0; the OverflowError above the floats is the one of 1e400 steps
    and is modelled as an infinite number of steps. *)
Definition of_nat (n : nat) : num := match Z.of_nat n with Zpos k => round double false k 1 0 | _ => Zero false end.
(** Comparisons: false for a NaN, which compares as equal in [cmp]. *)
Definition lt (x y : num) : bool := related Rlt x y.
Definition eq (x y : num) : bool := negb (is_nan x) && negb (is_nan y) && related Req x y.

(** * more_itertools.numeric_range(start, stop, step)
    __iter__: start + n * step for n = 0, 1, ..., as long as stop > value (if the step is
    positive) or stop < value. [limit] bounds the number of values that are asked for:
    the loops of optimize break at n == n_steps. *)
Fixpoint values (start stop step : num) (growing : bool) (n limit : nat) : list num :=
  match limit with
  | O => []
  | S limit' =>
      let v := dadd start (dmul (of_nat n) step) in
      if (if growing then lt v stop else lt stop v) then v :: values start stop step growing (S n) limit' else []
  end.
(** __init__: a step equal to 0 raises ValueError; growing iff step > 0. *)
Definition numeric_range (start stop step : num) (limit : nat) : res (list num) :=
  if eq step (Zero false) then Err Throw else
  Ok (values start stop step (lt (Zero false) step) 0 limit).

(** The argument betas: a tuple of two numbers, or any other sequence. *)
Inductive betas := Between (ini fin : num) | Listed (l : list num).

(** sa.py:142-151 *)
Definition expand (b : betas) (n_steps : option nat) : res (list num) :=
  match b with
  | Listed l => Ok l
  | Between ini fin =>
      match n_steps with
      | None => Err Throw                                                            (* 144-146 *)
      | Some n =>
          if eq ini fin then Err Throw else                                          (* 147-149 *)
          numeric_range ini fin (ddiv (dsub fin ini) (of_nat n)) n                   (* 150-151 *)
      end
  end.

(** The temperatures at which a component makes an update, if the stop flag is seen
    raised after [stop] of them. *)
Definition schedule (b : betas) (n_steps : option Z) (stop : nat) : res (list num) :=
  let! n := check_steps n_steps in
  let! l := expand b n in
  Ok (performed l n stop).

(** sa.py:194-200 over an iterator, that has no length: the loop body sets prob.beta,
    calls opt.update and then raises TypeError at len(betas). What is left is the
    iterator after the values that were taken. *)
Definition loop_iterator (l : list num) (n_steps : option nat) (stop : nat) : res (list num) :=
  match l with
  | [] => Ok []
  | _ :: l' => match n_steps, stop with
               | Some O, _ => Ok l'
               | _, O => Ok l'
               | _, _ => Err Throw
               end
  end.
