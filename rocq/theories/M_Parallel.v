(** Model of Buffer and Parallel (tnco/parallel.py:51-101, 185-359). *)
From Verif Require Import M_Base M_Path.
Set Implicit Arguments.

(** * Buffer (51-101)

    A block of shared memory is a list of bytes (naturals). [enc] and [dec] are
    struct's packing and unpacking of one value of the buffer's type, [k] is
    calcsize(dtype). That dtype has length 1 and is known (56-62) is not modelled;
    SharedMemory's size is exactly the one asked for (Linux). *)
Section Buffer.
Variable V : Type.
Variable enc : V -> list nat.
Variable dec : list nat -> V.
Variable k : nat.

(** 64-80. SharedMemory(create=True, size=n) raises unless n > 0, and is zeroed. *)
Definition new_buffer (size : Z) (sequence : list V) : res (list nat) :=
  if (size * Z.of_nat k <=? 0)%Z then Err Throw else                      (* 76 *)
  match sequence with
  | [] => Ok (repeat 0 (Z.to_nat size * k))
  | _ => Ok (flat_map enc sequence)                                       (* 80 *)
  end.
Definition buffer_of_size (n : Z) : res (list nat) := new_buffer n [].    (* 66-67 *)
Definition buffer_of (s : list V) : res (list nat) := new_buffer (Z.of_nat (length s)) s.  (* 69-70 *)

(** 83 *)
Definition buf_len (b : list nat) : nat := length b / k.
(** The place of [k] bytes at an offset in struct's pack_into and unpack_from: negative
    offsets count from the end; an error unless all the bytes are inside. *)
Definition place (b : list nat) (offset : Z) : res nat :=
  let n := Z.of_nat (length b) in
  if (offset <? 0)%Z then
    if (offset + Z.of_nat k >? 0)%Z then Err Throw else
    if (offset + n <? 0)%Z then Err Throw else Ok (Z.to_nat (offset + n))
  else if (n - offset <? Z.of_nat k)%Z then Err Throw else Ok (Z.to_nat offset).
(** 88-92 *)
Definition buf_get (b : list nat) (pos : Z) : res V :=
  if (Z.of_nat (buf_len b) <=? pos)%Z then Err Throw else
  let! o := place b (pos * Z.of_nat k) in Ok (dec (firstn k (skipn o b))).
(** 94-97 *)
Definition buf_set (b : list nat) (pos : Z) (v : V) : res (list nat) :=
  if (Z.of_nat (buf_len b) <=? pos)%Z then Err Throw else
  let! o := place b (pos * Z.of_nat k) in Ok (firstn o b ++ enc v ++ skipn (o + k) b).
End Buffer.

(** * Parallel (185-359)

    The values passed to the core have type [V], what it returns has type [R]; keyword
    names are naturals. The core is a process: [init args kwargs idx] is its state when
    it starts, and a step reads stop[idx] and either continues, possibly writing
    status[idx], or returns. So it is assumed to use the shared buffers at [idx] only,
    as the documentation asks; the additional buffers, the progress bar and the choice
    between joblib and the sequential loop are not modelled: a schedule is any list of
    events, in which a worker does its next step or the timer thread sets the next stop
    flag. joblib is assumed to return the results in the order of the jobs. The three
    buffers are lists (see the theorems about Buffer). *)
Section Parallel.
Variables V R St : Type.
Variable init : list V -> list (nat * V) -> nat -> St.
Variable step : St -> bool -> (St * option Z) + R.

(** zip of one or more sequences *)
Fixpoint zip_all (ls : list (list V)) : list (list V) :=
  match ls with
  | [] => []
  | l :: ls' => match ls' with [] => map (fun x => [x]) l | _ => map2 cons l (zip_all ls') end
  end.
(** 210-214: the positional and keyword arguments of each run. *)
Definition jobs (args : list (list V)) (kwargs : list (nat * list V)) : list (list V * list (nat * V)) :=
  let rows := map (combine (map fst kwargs)) (zip_all (map snd kwargs)) in
  match args, kwargs with
  | _, [] => map (fun a => (a, [])) (zip_all args)
  | [], _ => map (pair []) rows
  | _, _ => map2 pair (zip_all args) rows
  end.

Inductive task := Idle | Running (s : St) | Returned (r : R) | Finished (r : R).
Record world := mkW { w_tasks : list task; w_stop : list bool; w_status : list Z; w_completed : list bool; w_timer : nat }.
Inductive event := Work (i : nat) | Tick.

(** 219-226 *)
Definition start (n : nat) : world := mkW (repeat Idle n) (repeat false n) (repeat 0%Z n) (repeat false n) 0.

(** What worker [i] does next (310-318): call the core with the arguments of its run and
    its number (326-332), make a step of it, set completed[i], or nothing. *)
Definition work (js : list (list V * list (nat * V))) (w : world) (i : nat) : res world :=
  match nth_error (w_tasks w) i with
  | Some Idle =>
      let! (a, kw) := get js i in
      Ok (mkW (upd (w_tasks w) i (Running (init a kw i))) (w_stop w) (w_status w) (w_completed w) (w_timer w))
  | Some (Running s) =>
      let! b := get (w_stop w) i in
      match step s b with
      | inl (s', None) => Ok (mkW (upd (w_tasks w) i (Running s')) (w_stop w) (w_status w) (w_completed w) (w_timer w))
      | inl (s', Some z) =>
          let! st := set (w_status w) i z in
          Ok (mkW (upd (w_tasks w) i (Running s')) (w_stop w) st (w_completed w) (w_timer w))
      | inr r => Ok (mkW (upd (w_tasks w) i (Returned r)) (w_stop w) (w_status w) (w_completed w) (w_timer w))
      end
  | Some (Returned r) =>
      let! c := set (w_completed w) i true in                              (* 315 *)
      Ok (mkW (upd (w_tasks w) i (Finished r)) (w_stop w) (w_status w) c (w_timer w))
  | _ => Ok w
  end.
(** 234-236: the timer thread sets the flags one after the other. *)
Definition tick (w : world) : res world :=
  if w_timer w <? length (w_stop w) then
    let! s := set (w_stop w) (w_timer w) true in Ok (mkW (w_tasks w) s (w_status w) (w_completed w) (Datatypes.S (w_timer w)))
  else Ok w.
Fixpoint run_events (js : list (list V * list (nat * V))) (es : list event) (w : world) : res world :=
  match es with
  | [] => Ok w
  | Work i :: es' => let! w' := work js w i in run_events js es' w'
  | Tick :: es' => let! w' := tick w in run_events js es' w'
  end.
(** The results, in the order of the jobs; [Fuel] if some worker has not finished. *)
Fixpoint collect (ts : list task) : res (list R) :=
  match ts with
  | [] => Ok []
  | Finished r :: ts' => let! rs := collect ts' in Ok (r :: rs)
  | _ => Err Fuel
  end.

(** 206-359, under the schedule [es]. *)
Definition parallel (args : list (list V)) (kwargs : list (nat * list V)) (es : list event) : res (list R) :=
  match args, kwargs with
  | [], [] => Err Throw                                                    (* 206-207 *)
  | _, _ =>
      let js := jobs args kwargs in
      match js with
      | [] => Err Throw                                                    (* 220: a buffer of size 0 *)
      | _ => let! w := run_events js es (start (length js)) in collect (w_tasks w)
      end
  end.
End Parallel.
