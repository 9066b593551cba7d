(** Model of the optimizer that a user makes, calls and whose results are written: the
    factory Optimizer (tnco/app/app.py:787-869), BaseOptimizer (app.py:707-785), optimize
    of the two classes around its core (tnco/app/infinite_memory/sa.py and
    tnco/app/finite_width/sa.py) and the command line (tnco/app/cli.py:56-71). *)
From Coq Require Import String.
From Verif Require Import M_Base M_Cost M_Opt M_InfMem M_FinWidth M_Random M_App M_Parallel M_Tensor M_TnApp M_LoadTn
  M_Json M_JsonTn M_Dump M_Seed.
Set Implicit Arguments.

(** max_width: a number on the scale of M_FinWidth, or one of the three special floats. *)
Inductive bound := Fin (w : Z) | PosInf | NegInf | NaN.

(** The options (app.py:753-765). atol, dtype, backend and verbose are not modelled. *)
Record options := mk_options {
  u_method : text; u_max : option bound; u_jobs : Z; u_width_type : text; u_cost_type : text;
  u_format : option text; u_name : option text; u_compression : text; u_overwrite : bool; u_seed : nat }.

(** app.py:854: max_width is not None and max_width < float('inf'). *)
Inductive module := InfiniteMemory | FiniteWidth (w : bound).
Definition choose (m : option bound) : module :=
  match m with
  | None => InfiniteMemory
  | Some PosInf | Some NaN => InfiniteMemory
  | Some w => FiniteWidth w
  end.
(** import_module (app.py:866): in both packages 'sa' is the only module with an Optimizer. *)
Definition has_method (s : text) : bool := teqb s (str "sa").

(** What a result is turned into: to_json, pickle, gzip, bz2, str.encode. *)
Record writers (Y : Type) := mk_writers {
  to_text : Y -> option text; to_pickle : Y -> bytes * bool; w_gzip : bytes -> bytes; w_bz2 : bytes -> bytes; w_encode : text -> bytes }.
(** _dump_results (app.py:779-786). *)
Definition dump_call {Y} (W : writers Y) (u : options) (only : bool) (y : option Y) : M_Dump.call :=
  M_Dump.mk_call false (u_format u) (u_name u) (u_compression u) (u_overwrite u) only
    (match y with Some y => to_text W y | None => None end) (match y with Some y => to_pickle W y | None => ([], true) end)
    (w_gzip W) (w_bz2 W) (w_encode W).
(** dump_results as a process that no other disturbs while it writes, after some steps. *)
Definition dump (L : lib) (c : M_Dump.call) (moves : list nat) (fs : files) : option state * files :=
  let r := run L [c] (map (fun k => (0%nat, Some k)) moves) fs in (nth_error (fst r) 0, snd r).

(** What the user gets from a call: an exception, None, the pair, the text; or nothing yet. *)
Inductive seen (Y : Type) := SRaise | SNone | SPair (y : Y) | SText (t : text) | SBusy.
Arguments SRaise {Y}. Arguments SNone {Y}. Arguments SPair {Y} y. Arguments SText {Y} t. Arguments SBusy {Y}.
Definition see {Y} (y : Y) (s : option state) : seen Y :=
  match s with
  | Some (Ended RetNone) => SNone
  | Some (Ended RetPair) => SPair y
  | Some (Ended (RetText t)) => SText t
  | Some (Ended (Raise _)) => SRaise
  | _ => SBusy
  end.

Section Life.
Variables (P R B K : Type) (g : prng P) (next32 : P -> nat * P) (py_seed : nat -> P) (cpp_seed : nat -> R)
  (A : alg K) (eqb : K -> K -> bool) (L : lib).
(** tn and sorted(results). *)
Definition answer := (object K * (list im_result + list fw_result))%type.
Variable W : writers answer.
(** joblib can be imported (parallel.py:186-194). *)
Variable joblib : bool.

(** A call of optimize, with what the user does not control: the sets of Python, the
    schedule of the processes, the decisions of C++, what others do to the files while the
    call works, and the pieces in which the output is written. *)
Record event := mk_event {
  ev_call : M_Seed.call B K; ev_lg : N -> Z; ev_arr : list nat -> list nat; ev_pick : list nat -> nat; ev_sched : list M_Parallel.event;
  ev_rule : B -> rand R; ev_frule : B -> frand R; ev_fr0 : frand R; ev_update_slices : nat;
  ev_others : files -> files; ev_moves : list nat }.

(** __post_init__ (app.py:780-785) after the factory; None: an exception. *)
Definition construct (u : options) (fs : files) : option (optimizer P) :=
  if has_method (u_method u) then
    match fst (dump L (dump_call W u true None) [0] fs) with
    | Some (Ended RetNone) => Some (new_optimizer py_seed (u_seed u))
    | _ => None
    end
  else None.

(** The checks of the types in the cost models
    (tnco/optimize/infinite_memory/cost_model.py:73-76, finite_width/cost_model.py:88-96). *)
Definition one_of_types (s : text) (l : list string) : bool := existsb (fun x => teqb (lower L s) (str x)) l.
Definition types_ok (u : options) : bool :=
  one_of_types (u_cost_type u) ["float32"; "float64"; "float128"; "float1024"]%string &&
  match choose (u_max u) with InfiniteMemory => true | FiniteWidth _ => one_of_types (u_width_type u) ["float32"; "float64"; "float128"]%string end.
(** Parallel with n_jobs=0 raises if joblib is there (parallel.py:186-194, 320-332). *)
Definition jobs_ok (u : options) : bool := negb (u_jobs u =? 0)%Z || negb joblib.

(** optimize up to its last line. The exceptions of the types come after those of load_tn
    and n_steps; as all of them leave the optimizer as it was, they are raised first here. *)
Definition tag {X Y} (f : list X -> Y) (r : res (object K * list X)) : res (object K * Y) := let! x := r in Ok (fst x, f (snd x)).
Definition work (u : options) (e : event) (o : optimizer P) : res answer * optimizer P :=
  if types_ok u then
    let r :=
      match choose (u_max u) with
      | InfiniteMemory =>
          let r := im_call g next32 py_seed cpp_seed A eqb (ev_lg e) (ev_rule e) (ev_arr e) (ev_pick e) (ev_sched e) o (ev_call e) in
          (tag inl (fst r), snd r)
      | FiniteWidth (Fin w) =>
          let r := fw_call g next32 py_seed cpp_seed A eqb (ev_lg e) w (ev_fr0 e) (ev_frule e) (ev_update_slices e) (ev_arr e) (ev_pick e) (ev_sched e) o (ev_call e) in
          (tag inr (fst r), snd r)
      | FiniteWidth _ => (Err Throw, o)                       (* finite_width/cost_model.py:85: -inf < 0 *)
      end in
    ((if jobs_ok u then fst r else let! _ := fst r in Err Throw), snd r)
  else (Err Throw, o).

(** optimize: return self._dump_results(tn, sorted(results)). *)
Definition optimize (u : options) (e : event) (o : optimizer P) (fs : files) : seen answer * optimizer P * files :=
  let fs1 := ev_others e fs in
  let '(y, o') := work u e o in
  match y with
  | Err _ => (SRaise, o', fs1)
  | Ok y => let r := dump L (dump_call W u false (Some y)) (ev_moves e) fs1 in (see y (fst r), o', snd r)
  end.
(** Calls one after the other; after each, what the user sees and the files. *)
Fixpoint calls (u : options) (evs : list event) (o : optimizer P) (fs : files) : list (seen answer * files) :=
  match evs with
  | [] => []
  | e :: evs' => let '(s, o', fs') := optimize u e o fs in (s, fs') :: calls u evs' o' fs'
  end.

(** Main (cli.py:58-71): Fire gives every argument, those that are missing by their default. *)
Definition main_options (u : options) : options :=
  match u_format u with
  | Some _ => u
  | None => mk_options (u_method u) (u_max u) (u_jobs u) (u_width_type u) (u_cost_type u) (Some (str "json")) (u_name u) (u_compression u) (u_overwrite u) (u_seed u)
  end.
End Life.
