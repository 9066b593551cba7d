(** C36, C42: parallel runs and shared buffers. *)
From Coq Require Import List Arith ZArith Lia.
Import ListNotations.
From Verif Require Import M_Base M_Parallel S_Parallel.
From Verif Require P_Parallel P_ParMain.

(** C36. Under every schedule, the i-th result is what the core returns, on its own, from
    the i-th of each argument and the number i; there are as many results as the shortest
    argument has elements. All that the schedule can change is the moment from which the
    core reads its stop flag as set, and it never does so without the timeout. *)
Theorem C36_aligned (V R St : Type) (init : list V -> list (nat * V) -> nat -> St) (step : St -> bool -> (St * option Z) + R)
  (args : list (list V)) (kwargs : list (nat * list V)) (es : list event) (rs : list R) :
  parallel init step args kwargs es = Ok rs ->
  shortest (args ++ map snd kwargs) (length rs) /\
  forall i r, nth_error rs i = Some r -> exists a kw cut, arguments_of args kwargs i a kw /\ (~ In Tick es -> cut = None) /\ returns step cut 0 (init a kw i) r.
Proof. exact (@P_ParMain.parallel_aligned V R St init step args kwargs es rs). Qed.
Print Assumptions C36_aligned.

(** Without the timeout, the results do not depend on the schedule. *)
Theorem C36_schedule_independent (V R St : Type) (init : list V -> list (nat * V) -> nat -> St) (step : St -> bool -> (St * option Z) + R)
  (args : list (list V)) (kwargs : list (nat * list V)) (es es' : list event) (rs rs' : list R) :
  ~ In Tick es -> ~ In Tick es' -> parallel init step args kwargs es = Ok rs -> parallel init step args kwargs es' = Ok rs' -> rs = rs'.
Proof. exact (@P_ParMain.parallel_independent V R St init step args kwargs es es' rs rs'). Qed.
Print Assumptions C36_schedule_independent.

(** It raises exactly when there are no arguments or one of them is empty, under every
    schedule; otherwise it has results or some worker is still at work. *)
Theorem C36_raises (V R St : Type) (init : list V -> list (nat * V) -> nat -> St) (step : St -> bool -> (St * option Z) + R)
  (args : list (list V)) (kwargs : list (nat * list V)) (es : list event) :
  ((args = [] /\ kwargs = [] \/ In [] (args ++ map snd kwargs)) -> parallel init step args kwargs es = Err Throw) /\
  (~ (args = [] /\ kwargs = [] \/ In [] (args ++ map snd kwargs)) -> parallel init step args kwargs es = Err Fuel \/ exists rs, parallel init step args kwargs es = Ok rs).
Proof.
  destruct (@P_ParMain.parallel_cases V R St init step args kwargs es) as [[E H]|(HL & HN & w & _ & _ & _ & E)].
  - split; auto. intros H'. exfalso. apply H'. destruct H as [H|(l & H1 & ->)]; auto.
  - split.
    + intros [[-> ->]|H]; [destruct HN as [HN|HN]; exfalso; apply HN; reflexivity|]. exfalso. exact (HL [] H eq_refl).
    + intros _. rewrite E. destruct (P_Parallel.collect_ok (w_tasks w)) as [(rs & -> & _)|(-> & _)]; eauto.
Qed.
Print Assumptions C36_raises.

(** It ends: if the core returns within [b i] steps, a schedule in which worker i gets
    that many turns, and two more to begin and to end, gives the results. *)
Theorem C36_finishes (V R St : Type) (init : list V -> list (nat * V) -> nat -> St) (step : St -> bool -> (St * option Z) + R)
  (args : list (list V)) (kwargs : list (nat * list V)) (es : list event) (b : nat -> nat) :
  (args <> [] \/ kwargs <> []) -> (forall l, In l (args ++ map snd kwargs) -> l <> []) ->
  (forall i a kw, arguments_of args kwargs i a kw -> halts step (b i) (init a kw i) /\ b i + 2 <= length (filter (works_on i) es)) ->
  exists rs, parallel init step args kwargs es = Ok rs.
Proof. exact (@P_ParMain.parallel_finishes V R St init step args kwargs es b). Qed.
Print Assumptions C36_finishes.

(** A core that doubles its first argument as often as its keyword argument 3 says, and
    stops early when told to. Two of the workers are interleaved; the timer stops the
    second before its last two rounds. *)
Definition double_init (a : list Z) (kw : list (nat * Z)) (idx : nat) : Z * nat := (nth 0 a 0%Z, Z.to_nat (match kw with (3, n) :: _ => n | _ => 0%Z end)).
Definition double_step (s : Z * nat) (f : bool) : (Z * nat * option Z) + Z :=
  match s with
  | (x, 0) => inr x
  | (x, S n) => if f then inr x else inl ((x + x, n)%Z, Some (Z.of_nat n))
  end.
Example C36_applies :
  let work := [Work 1; Work 0; Work 0; Work 1; Work 0; Work 1; Work 0; Work 0] in
  parallel double_init double_step [[5; 7; 9]%Z] [(3, [2; 4]%Z)] (work ++ [Work 1; Work 1; Work 1; Work 1]) = Ok [20; 112]%Z /\
  parallel double_init double_step [[5; 7; 9]%Z] [(3, [2; 4]%Z)] (Work 0 :: work ++ [Tick; Tick; Work 1; Work 1]) = Ok [20; 28]%Z /\
  parallel double_init double_step [[5; 7; 9]%Z] [(3, [2; 4]%Z)] work = Err Fuel /\
  (forall i a kw, arguments_of [[5; 7; 9]%Z] [(3, [2; 4]%Z)] i a kw -> halts double_step 5 (double_init a kw i)) /\
  parallel double_init double_step [[5; 7; 9]%Z] [(3, [])] work = Err Throw.
Proof.
  split; [reflexivity|]. split; [reflexivity|]. split; [reflexivity|]. split; [|reflexivity].
  intros i a kw [H1 H2]. inversion H1 as [|? x ? xs A1 A2]; subst. inversion A2; subst. inversion H2 as [|? (n, y) ? ys [B1 B2] B3]; subst. inversion B3; subst. simpl in B1. subst n. simpl in B2.
  destruct i as [|[|[|i]]]; simpl in B2; try discriminate; inversion B2; subst; simpl.
  all: repeat match goal with |- context [Pos.to_nat ?p] => let n := eval compute in (Pos.to_nat p) in change (Pos.to_nat p) with n end; simpl.
  all: repeat (intros []; simpl; auto).
Qed.

(** C42. A Buffer behaves as a Python list of fixed length: [enc] and [dec] are struct's
    packing and unpacking of one value into [k] bytes, and the bytes of a buffer that
    holds the values [l] are those of its values. *)
Theorem C42_get (V : Type) (enc : V -> list nat) (dec : list nat -> V) (k : nat) : 1 <= k -> (forall v, length (enc v) = k) -> (forall v, dec (enc v) = v) ->
  forall l pos, buf_get dec k (flat_map enc l) pos = match python_index (length l) pos with
    | Some i => match nth_error l i with Some v => Ok v | None => Err Throw end | None => Err Throw end.
Proof. exact (@P_Parallel.get_ok V enc dec k). Qed.
Print Assumptions C42_get.
Theorem C42_set (V : Type) (enc : V -> list nat) (k : nat) : 1 <= k -> (forall v, length (enc v) = k) ->
  forall l pos v, buf_set enc k (flat_map enc l) pos v = match python_index (length l) pos with
    | Some i => Ok (flat_map enc (upd l i v)) | None => Err Throw end.
Proof. exact (@P_Parallel.set_ok V enc k). Qed.
Print Assumptions C42_set.
Theorem C42_new (V : Type) (enc : V -> list nat) (k : nat) (z : V) : 1 <= k -> (forall v, length (enc v) = k) -> enc z = repeat 0 k ->
  (forall l, buffer_of enc k l = match l with [] => Err Throw | _ => Ok (flat_map enc l) end) /\
  (forall n, buffer_of_size enc k n = if (n <=? 0)%Z then Err Throw else Ok (flat_map enc (repeat z (Z.to_nat n)))) /\
  (forall l, buf_len k (flat_map enc l) = length l).
Proof.
  intros K E Z. split; [exact (P_Parallel.buffer_of_ok enc K)|]. split; [intros n; exact (P_Parallel.buffer_of_size_ok K n Z)|exact (P_Parallel.len_ok K E)].
Qed.
Print Assumptions C42_new.

(** Two bytes per value. *)
Definition enc2 (v : nat * nat) : list nat := [fst v; snd v].
Definition dec2 (b : list nat) : nat * nat := (nth 0 b 0, nth 1 b 0).
Example C42_applies : (forall v, length (enc2 v) = 2) /\ (forall v, dec2 (enc2 v) = v) /\ enc2 (0, 0) = repeat 0 2 /\
  buffer_of enc2 2 [(1, 2); (3, 4); (5, 6)] = Ok [1; 2; 3; 4; 5; 6] /\
  buf_get dec2 2 [1; 2; 3; 4; 5; 6] (-2) = Ok (3, 4) /\ buf_get dec2 2 [1; 2; 3; 4; 5; 6] 3 = Err Throw /\ buf_get dec2 2 [1; 2; 3; 4; 5; 6] (-4) = Err Throw /\
  buf_set enc2 2 [1; 2; 3; 4; 5; 6] 1 (8, 9) = Ok [1; 2; 8; 9; 5; 6].
Proof. repeat split. intros [x y]. reflexivity. Qed.
