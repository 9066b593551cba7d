(** Model of what Parallel takes from the system and gives back (tnco/parallel.py:195-359):
    segments of shared memory and the thread of its timer.

    A segment is known by its name, a natural number; [st_linked] are the names of all the
    segments that exist, [fresh] is the one that the next segment gets (SharedMemory tries
    random names until one is free). Other programs do not make or remove segments
    meanwhile. The segments' contents are not modelled but for the stop flags; see
    M_Parallel.v for what the cores do with them. A segment stays in memory after it is
    unlinked, as long as it is used, so the timer can write to it at any time.

    Two threads and the cores take turns in any order: the list of events says who does
    something next, when the timeout has passed, and what the system and the cores decide.
    The progress bar (250-307) is not modelled; its thread is a daemon. *)
From Coq Require Import String List Arith Bool Ascii.
Import ListNotations.
From Verif Require Import M_Base.
Set Implicit Arguments.
Local Open Scope string_scope.
Local Open Scope list_scope.
Local Open Scope nat_scope.

(** struct.calcsize of a format of one character, on 64-bit Linux; [None] if it raises. *)
Definition calcsize (c : ascii) : option nat :=
  match c with
  | "x"%char | "c"%char | "b"%char | "B"%char | "?"%char | "s"%char | "p"%char => Some 1
  | "h"%char | "H"%char | "e"%char => Some 2
  | "i"%char | "I"%char | "f"%char => Some 4
  | "l"%char | "L"%char | "q"%char | "Q"%char | "n"%char | "N"%char | "d"%char | "P"%char => Some 8
  | "@"%char | "="%char | "<"%char | ">"%char | "!"%char => Some 0
  | _ => if (nat_of_ascii c =? 32) || ((9 <=? nat_of_ascii c) && (nat_of_ascii c <=? 13)) then Some 0 else None
  end.
(** Whether struct.pack takes the number 0 for this format. *)
Definition takes_zero (c : ascii) : bool :=
  match c with "x"%char | "c"%char | "s"%char | "p"%char => false | _ => true end.

(** What the events of a run are: the main thread does its next step; the system refuses
    to make a segment; all cores have returned; a core raises (or the user interrupts); the
    timeout has passed; the thread of the timer does its next step. *)
Inductive event := Step | Refused | CoresReturn | CoreRaises | Timeout | TimerStep.

(** The thread of the timer (threading.Timer): not started; waiting; about to set flag
    [k]; told not to run; ended. *)
Inductive timer := TNone | TWait | TRun (k : nat) | TCancelled | TEnded.

(** Where the main thread is: making the buffers in the list (219-231), the timer (238-239),
    the cores (321-345), unlinking the segments in the list (352-355), the end. *)
Inductive place :=
| Make (todo : list (option string * string))
| Cores
| Unlink (todo : list nat)
| Returned
| Raised.

Record state := mkState {
  st_place : place;
  st_linked : list nat;
  st_fixed : list nat;              (* the segments of status, stop, completed *)
  st_dict : list (string * nat);    (* buffers, with the segment of each *)
  st_flags : list bool;             (* stop *)
  st_timer : timer }.

Definition fresh (l : list nat) : nat := S (list_max l).

(** Buffer([0] * n, dtype) (51-80): the segments that exist afterwards, and the buffer's
    segment unless it raises. *)
Definition make_buffer (linked : list nat) (n : nat) (dtype : string) : list nat * option nat :=
  match dtype with
  | String c EmptyString =>                                                (* 56-57 *)
      match calcsize c with
      | None => (linked, None)                                             (* 59-62 *)
      | Some k =>
          if n * k =? 0 then (linked, None) else                           (* 76: a size of 0 *)
          let s := fresh linked in
          if takes_zero c then (s :: linked, Some s)                       (* 76-80 *)
          else (s :: linked, None)                                         (* 80: pack_into raises *)
      end
  | _ => (linked, None)
  end.

(** d[name] = s *)
Fixpoint put (d : list (string * nat)) (name : string) (s : nat) : list (string * nat) :=
  match d with
  | [] => [(name, s)]
  | (k, v) :: d' => if String.eqb k name then (k, s) :: d' else (k, v) :: put d' name s
  end.

(** os.unlink of a segment; [None] if there is none. *)
Definition unlink (l : list nat) (s : nat) : option (list nat) :=
  if existsb (Nat.eqb s) l then Some (filter (fun x => negb (x =? s)) l) else None.

Section Run.
(** The number of runs (217), whether there is a timeout, the names of kwargs and the
    parameter buffers. *)
Variable n : nat.
Variable timed : bool.
Variable kwnames : list string.
Variable buffers : list (string * string).

(** 219-231: the buffers in the order in which they are made. *)
Definition all_buffers : list (option string * string) :=
  (None, "f") :: (None, "b") :: (None, "?") :: map (fun b => (Some (fst b), snd b)) buffers.

(** Whether a keyword is given twice in 326-331 or 340-345, which raises. *)
Definition keyword_twice : bool :=
  let given := ["idx"; "status"; "stop"] ++ kwnames in
  existsb (fun b => existsb (String.eqb (fst b)) given) buffers
  || existsb (fun k => existsb (String.eqb k) ["idx"; "status"; "stop"]) kwnames.

Definition start (linked : list nat) : state := mkState (Make all_buffers) linked [] [] [] TNone.

Definition go (st : state) (p : place) : state :=
  mkState p (st_linked st) (st_fixed st) (st_dict st) (st_flags st) (st_timer st).

(** threading.Timer.cancel (358): a timer that waits will not run its function; one that
    runs it goes on. *)
Definition cancel (t : timer) : timer := match t with TWait => TCancelled | _ => t end.

(** 219-359: one event. *)
Definition step (st : state) (e : event) : state :=
  match e with
  | Timeout =>                                                             (* 238 *)
      match st_timer st with
      | TWait => if timed then mkState (st_place st) (st_linked st) (st_fixed st) (st_dict st) (st_flags st) (TRun 0) else st
      | _ => st
      end
  | TimerStep =>
      match st_timer st with
      | TRun k =>                                                          (* 234-236 *)
          if k <? length (st_flags st) then
            mkState (st_place st) (st_linked st) (st_fixed st) (st_dict st) (upd (st_flags st) k true) (TRun (S k))
          else mkState (st_place st) (st_linked st) (st_fixed st) (st_dict st) (st_flags st) TEnded
      | TCancelled => mkState (st_place st) (st_linked st) (st_fixed st) (st_dict st) (st_flags st) TEnded
      | _ => st
      end
  | Step =>
      match st_place st with
      | Make [] => mkState Cores (st_linked st) (st_fixed st) (st_dict st) (repeat false n) TWait   (* 238-239 *)
      | Make ((name, dtype) :: todo) =>
          match make_buffer (st_linked st) n dtype with
          | (linked, None) => mkState Raised linked (st_fixed st) (st_dict st) (st_flags st) (st_timer st)
          | (linked, Some s) =>
              match name with
              | None => mkState (Make todo) linked (st_fixed st ++ [s]) (st_dict st) (st_flags st) (st_timer st)
              | Some k => mkState (Make todo) linked (st_fixed st) (put (st_dict st) k s) (st_flags st) (st_timer st)
              end
          end
      | Unlink [] => mkState Returned (st_linked st) (st_fixed st) (st_dict st) (st_flags st) (cancel (st_timer st))  (* 358-361 *)
      | Unlink (s :: todo) =>                                              (* 352-355 *)
          match unlink (st_linked st) s with
          | Some linked => mkState (Unlink todo) linked (st_fixed st) (st_dict st) (st_flags st) (st_timer st)
          | None => go st Raised
          end
      | _ => st
      end
  | Refused => match st_place st with Make (_ :: _) => go st Raised | _ => st end
  | CoresReturn =>
      match st_place st with
      | Cores =>
          if keyword_twice then go st Raised else
          match st_fixed st with
          | [status; stop; completed] => go st (Unlink ([status; completed; stop] ++ map snd (st_dict st)))
          | _ => go st Raised
          end
      | _ => st
      end
  | CoreRaises => match st_place st with Cores => go st Raised | _ => st end
  end.
Fixpoint run (es : list event) (st : state) : state :=
  match es with [] => st | e :: es' => run es' (step st e) end.
End Run.
