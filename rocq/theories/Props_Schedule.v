(** C55: the temperatures at which a run makes its updates. *)
From Coq Require Import QArith Qabs ZArith Bool List Lia Lqa.
From Verif Require Import M_Base M_Fixed M_App M_Schedule S_Fixed S_Schedule P_Base P_Fixed P_FixedMain P_FixedConv P_Schedule P_ScheduleMain P_ScheduleEx.
Import ListNotations.
Set Implicit Arguments.
Local Open Scope Z_scope.

(** With betas = (b0, b1) and n_steps = n, where b0 and b1 are different floats, there
    are at most n temperatures: the first one is b0, they move from b0 towards b1 without
    turning back and never reach b1, and the k-th one is b0 + k (b1 - b0) / n up to
    rounding. There are exactly n of them if the step is larger than what rounding can
    move. A run that sees the stop flag has used the first of them. *)
Theorem C55_interpolation b0 b1 n : is_float b0 -> is_float b1 -> ~ (val b0 == val b1)%Q -> (1 <= n)%nat -> Z.of_nat n <= 2 ^ 53 ->
  usual_range (val b0) (val b1) n ->
  exists l, (forall stop, schedule (Between b0 b1) (Some (Z.of_nat n)) stop = Ok (firstn stop l)) /\
    (length l <= n)%nat /\
    (exists b l', l = b :: l' /\ (val b == val b0)%Q) /\
    (forall k x, nth_error l k = Some x -> finite x = true /\ inside (val b0) (val b1) (val x) /\
       (Qabs (val x - ideal (val b0) (val b1) n k) <= resolution (val b0) (val b1))%Q) /\
    (forall k k' x x', (k <= k')%nat -> nth_error l k = Some x -> nth_error l k' = Some x' -> ordered (val b0) (val b1) (val x) (val x')) /\
    ((resolution (val b0) (val b1) < Qabs (val b1 - val b0) / inject_Z (Z.of_nat n))%Q -> length l = n).
Proof. exact (@schedule_ok b0 b1 n). Qed.
Print Assumptions C55_interpolation.

(** betas = (0, 100), n_steps = 100 (the README): 0, 1, ..., 99. *)
Definition hundred : num := Num false 25 2.
Example C55_interpolation_applies :
  is_float (Zero false) /\ is_float hundred /\ ~ (val (Zero false) == val hundred)%Q /\ usual_range (val (Zero false)) (val hundred) 100 /\
  (resolution (val (Zero false)) (val hundred) < Qabs (val hundred - val (Zero false)) / inject_Z (Z.of_nat 100))%Q /\
  schedule (Between (Zero false) hundred) (Some 100) 1000 = Ok (map of_nat (seq 0 100)).
Proof.
  split; [repeat split|]. split; [repeat split; simpl; lia|]. split; [intros H; discriminate H|]. split; [|split].
  - split; [|apply tiny_le; [vm_compute; reflexivity|lia]]. exists (100#1)%Q. split; [|vm_compute; discriminate].
    split; [exists 100, 0; split; [reflexivity|]; split; [unfold low_ok; simpl; lia|reflexivity]|apply big_lt; [vm_compute; discriminate|reflexivity]].
  - vm_compute. reflexivity.
  - vm_compute. reflexivity.
Qed.

(** Other sequences are used as they are, up to n_steps of them. *)
Theorem C55_listed l n_steps stop : (forall k, n_steps = Some k -> 1 <= k) ->
  schedule (Listed l) n_steps stop = Ok (firstn stop (match n_steps with Some k => firstn (Z.to_nat k) l | None => l end)).
Proof. exact (@listed_ok l n_steps stop). Qed.
Print Assumptions C55_listed.

Example C55_listed_applies : schedule (Listed [hundred; Zero false; hundred]) (Some 2) 7 = Ok [hundred; Zero false].
Proof. reflexivity. Qed.

(** ValueError: n_steps that is not positive, two betas without n_steps, equal betas. *)
Theorem C55_errors b b' n_steps n stop : is_float b -> is_float b' ->
  (n <= 0 -> forall bs, schedule bs (Some n) stop = Err Throw) /\
  schedule (Between b b') None stop = Err Throw /\
  ((val b == val b')%Q -> schedule (Between b b') n_steps stop = Err Throw).
Proof. exact (@errors_ok b b' n_steps n stop). Qed.
Print Assumptions C55_errors.

Example C55_errors_apply : is_float hundred /\ is_float (Zero true) /\ (val (Zero true) == val (Zero false))%Q /\
  schedule (Between (Zero true) (Zero false)) (Some 5) 9 = Err Throw.
Proof. repeat split; simpl; lia. Qed.

(** "The inverse temperature goes up to betas[1]" is false: it is never used. *)
Theorem C55_last_temperature_refuted : ~ (forall b0 b1 n l, is_float b0 -> is_float b1 -> ~ (val b0 == val b1)%Q -> (1 <= n)%nat ->
  schedule (Between b0 b1) (Some (Z.of_nat n)) n = Ok l -> exists x, In x l /\ (val x == val b1)%Q).
Proof. exact last_temperature_refuted. Qed.
Print Assumptions C55_last_temperature_refuted.

(** "n_steps updates are made" is false: between 2^53 and 2^53 + 2 ten steps become six,
    all of them at the same temperature. *)
Theorem C55_number_of_steps_refuted : exists b0 b1, is_float b0 /\ is_float b1 /\ usual_range (val b0) (val b1) 10 /\
  schedule (Between b0 b1) (Some 10) 1000 = Ok (repeat b0 6).
Proof. exact number_of_steps_refuted. Qed.
Print Assumptions C55_number_of_steps_refuted.

(** An infinite final temperature is accepted and no update at all is made. *)
Theorem C55_infinite_temperature_refuted b0 s n stop : is_float b0 -> (1 <= n)%nat -> Z.of_nat n <= 2 ^ 53 ->
  schedule (Between b0 (Inf s)) (Some (Z.of_nat n)) stop = Ok [].
Proof. exact (@infinite_temperature b0 s n stop). Qed.
Print Assumptions C55_infinite_temperature_refuted.

Example C55_infinite_applies : schedule (Between (Zero false) (Inf false)) (Some 1000) 1000 = Ok [].
Proof. reflexivity. Qed.

(** "betas can be any iterable" is false: with an iterator, that has no length, the first
    update is followed by a TypeError. *)
Theorem C55_iterator_refuted b l n_steps stop : (forall k, n_steps = Some k -> (1 <= k)%nat) -> (1 <= stop)%nat ->
  performed (b :: l) n_steps stop <> [] /\ loop_iterator (b :: l) n_steps stop = Err Throw.
Proof. exact (@iterator_refuted b l n_steps stop). Qed.
Print Assumptions C55_iterator_refuted.

Example C55_iterator_applies : loop_iterator [hundred; hundred] None 5 = Err Throw.
Proof. reflexivity. Qed.
