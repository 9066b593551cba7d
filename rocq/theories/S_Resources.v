(** Specification for C58. *)
From Coq Require Import List.
Import ListNotations.
From Verif Require Import M_Resources.

(** The segments that exist now and did not before. *)
Definition left_over (before now : list nat) (l : list nat) : Prop :=
  NoDup l /\ forall s, In s l <-> In s now /\ ~ In s before.

(** The thread of the timer is alive: Python waits for it before it exits. *)
Definition alive (t : timer) : Prop := t = TWait \/ (exists k, t = TRun k) \/ t = TCancelled.

(** How often the thread of the timer gets its turn. *)
Definition turns (es : list event) : nat :=
  length (filter (fun e => match e with TimerStep => true | _ => false end) es).
