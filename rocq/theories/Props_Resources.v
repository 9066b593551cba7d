(** C58: Parallel gives back what it takes.
    Vocabulary (S_Resources.v): [left_over before now l]: [l] are the segments of shared
    memory that exist now and did not before; [alive]: Python waits for this thread before it
    exits; [turns es]: how often the thread of the timer gets its turn in [es].
    [run n timed kwnames buffers es (start buffers before)] is the state after the events
    [es] of a call with [n] runs, a timeout or none, the keyword arguments [kwnames] and the
    parameter [buffers], in a system with the segments [before]. *)
From Coq Require Import String List Arith Bool Lia.
Import ListNotations.
From Verif Require Import M_Base M_Resources S_Resources P_Resources.
Local Open Scope string_scope.
Local Open Scope list_scope.
Local Open Scope nat_scope.

(** When the call returns, whatever the timer did meanwhile, no segment of it is left, and
    its thread ends after [n + 1] turns, without waiting for the timeout. *)
Theorem C58_returning_releases n timed kwnames buffers before es :
  let st := run n timed kwnames buffers es (start buffers before) in
  NoDup (map fst buffers) -> st_place st = Returned ->
  st_linked st = before /\ forall es', n < turns es' -> ~ alive (st_timer (run n timed kwnames buffers es' st)).
Proof. intros st H E. destruct (returns E) as (_ & H1 & H2). exact (conj (H1 H) H2). Qed.
Print Assumptions C58_returning_releases.

(** While the cores are at work, the segments of all buffers exist; they are different from
    each other and from all segments of others. *)
Theorem C58_cores_find_the_buffers n timed kwnames buffers before es :
  let st := run n timed kwnames buffers es (start buffers before) in st_place st = Cores ->
  let segments := st_fixed st ++ map snd (st_dict st) in
  length (st_fixed st) = 3 /\ NoDup segments /\ forall s, In s segments -> In s (st_linked st) /\ ~ In s before.
Proof. intros st E. exact (cores E). Qed.
Print Assumptions C58_cores_find_the_buffers.

(** If the timeout passes while the cores are at work, [n] turns of the timer later every
    stop flag is set, whatever else has happened meanwhile, even if the call is over. *)
Theorem C58_timeout_stops_all n kwnames buffers before es es' :
  let st := run n true kwnames buffers es (start buffers before) in st_place st = Cores -> n <= turns es' ->
  st_flags (run n true kwnames buffers (Timeout :: es') st) = repeat true n.
Proof. intros st E T. exact (timeout_sets E eq_refl T). Qed.
Print Assumptions C58_timeout_stops_all.

(** Without runs (an argument is empty) the call raises and has taken nothing. *)
Theorem C58_no_runs timed kwnames buffers before es :
  let st := run 0 timed kwnames buffers es (start buffers before) in
  st_linked st = before /\ st_timer st = TNone /\ (In Step es -> st_place st = Raised).
Proof. exact (no_runs timed kwnames buffers before es). Qed.
Print Assumptions C58_no_runs.

(** ** What fails *)
(** Whenever a core raises (or a keyword is given twice), all segments are left, and
    without a timeout the thread of the timer waits for ever: Python cannot exit. *)
Theorem C58_raising_core_refuted n timed kwnames buffers before es e :
  let st := run n timed kwnames buffers es (start buffers before) in let st' := step n timed kwnames buffers st e in
  st_place st = Cores -> st_place st' = Raised ->
  (exists l, left_over before (st_linked st') l /\ length l = 3 + length buffers) /\
  (timed = false -> forall es', alive (st_timer (run n timed kwnames buffers es' st'))).
Proof. intros st st' E1 E2. destruct (core_raises E1 E2) as [H1 H2]. split; [exact H1|]. intros H es'. left. exact (H2 H es'). Qed.
Print Assumptions C58_raising_core_refuted.

(** A name that is given twice leaves a segment, one for each repetition. *)
Theorem C58_same_name_refuted n timed kwnames buffers before es :
  let st := run n timed kwnames buffers es (start buffers before) in st_place st = Returned ->
  exists l, left_over before (st_linked st) l /\ length l + length (nodup string_dec (map fst buffers)) = length buffers.
Proof. intros st E. exact (proj1 (returns E)). Qed.
Print Assumptions C58_same_name_refuted.

(** A buffer of an unknown type leaves those made before it; one of a type that does not
    take the number 0 also itself. *)
Theorem C58_bad_type_refuted : exists l l',
  let st dtype := run 2 false [] [("a", "q"); ("b", dtype)] [Step; Step; Step; Step; Step] (start [("a", "q"); ("b", dtype)] [7]) in
  (st_place (st "int") = Raised /\ left_over [7] (st_linked (st "int")) l /\ length l = 4) /\
  (st_place (st "c") = Raised /\ left_over [7] (st_linked (st "c")) l' /\ length l' = 5).
Proof.
  exists [11; 10; 9; 8], [12; 11; 10; 9; 8]. cbv zeta.
  split; (split; [reflexivity|split; [apply own_left|reflexivity]]); (split; [reflexivity|split]).
  all: try (repeat constructor; cbn; lia). all: cbn; lia.
Qed.
Print Assumptions C58_bad_type_refuted.

(** ** Non-trivial cases *)
Definition setup := [Step; Step; Step; Step; Step; Step].
Definition x_run timed es := run 2 timed ["x"] [("a", "q"); ("b", "d")] es (start [("a", "q"); ("b", "d")] [7; 3]).
(** The timer sets the first flag while the cores work and the second while the segments
    are unlinked; it is cancelled too late, and ends. *)
Example C58_applies :
  let es := [Timeout; TimerStep; CoresReturn; Step; Step; TimerStep; Step; Step; Step; Step] in
  NoDup (map fst [("a", "q"); ("b", "d")]) /\
  st_place (x_run true setup) = Cores /\ length (st_linked (x_run true setup)) = 7 /\
  st_place (x_run true (setup ++ es)) = Returned /\ st_timer (x_run true (setup ++ es)) = TRun 2 /\
  st_linked (x_run true (setup ++ es)) = [7; 3] /\ st_flags (x_run true (setup ++ es)) = [true; true].
Proof. split; [repeat constructor; cbn; intuition discriminate|]. repeat split. Qed.
(** Cores that return and a core that raises, without a timeout; a name given twice. *)
Example C58_refutations_apply :
  let returned := [CoresReturn; Step; Step; Step; Step; Step; Step] in
  st_timer (x_run false (setup ++ returned)) = TCancelled /\
  st_place (x_run false (setup ++ [CoreRaises])) = Raised /\ st_timer (x_run false (setup ++ [CoreRaises])) = TWait /\
  st_place (run 2 false [] [("a", "q"); ("a", "q")] (setup ++ returned) (start [("a", "q"); ("a", "q")] [])) = Returned /\
  length (st_linked (run 2 false [] [("a", "q"); ("a", "q")] (setup ++ returned) (start [("a", "q"); ("a", "q")] []))) = 1.
Proof. repeat split. Qed.
