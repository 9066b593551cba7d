(** Model of the class Sampler (tnco/app/circuit/sampling.py:416-545) and of the part
    of sample that it adds to M_Sampling: the seed (240), the intermediate states
    (165, 233-238, 243-248) and the report (350-370).

    Python's generators: [randrange] is rng.randrange(2**32) on the generator of the
    Sampler, and [random s i] is number [i] of Random(s).random(). The optimizer that
    the Sampler keeps is seeded with the first number; its paths, and the generator that
    load seeds by itself (189-196: it is not given a seed), are an argument of every
    call. dtype, backends, n_jobs, and the types of costs are dropped. *)
From Coq Require Import Reals.
From Verif Require Import M_Base M_Path M_PyTree M_OSet M_Tensor M_Contract M_Random M_Fuse M_Decompose M_Circuit M_Sampling.
Set Implicit Arguments.
Local Open Scope nat_scope.

(** max_width: None or a float. *)
Inductive max_width := WNone | WNaN | WInf | WMinusInf | WNumber (z : Z).
(** max_width is not None and max_width < float('inf') (468) *)
Definition finite_width (w : max_width) : bool :=
  match w with WNone | WNaN | WInf => false | WMinusInf | WNumber _ => true end.

Section Sampler.
Variable K : Type.
Variable F : nums K.
Variable abs2 : K -> R.
Variable ix : nat -> mark -> nat.
Variable qubit_of : nat -> nat.
Variables (G : Type) (g : prng G) (lg : N -> Z).
Variables (P : Type) (py_seed : nat -> P) (randrange : P -> nat * P) (random : nat -> nat -> R).

Record sampler := mkSampler { sp_rng : P; sp_optimizer_seed : nat }.
(** __post_init__ (449-471): the optimizer is made before the width is checked. *)
Definition new_sampler (seed : nat) (w : max_width) : res sampler :=
  let '(x, r) := randrange (py_seed seed) in                                       (* 451, 461 *)
  if finite_width w then Err Throw else Ok (mkSampler r x).                        (* 466-470 *)

(** What the user does not choose in a call: the generators of load, and the paths that
    the optimizer finds, by gate. *)
Record chances := mkChances { ch_r : nat -> nat -> G; ch_opt : nat -> list (list nat) -> path }.
(** The options of a call. *)
Record options := mkOptions { op_simplify : bool; op_commute : bool; op_decompose : bool; op_fuse : option Z;
  op_order : option (list nat); op_samples : nat; op_normalize : bool }.

(** The order of the elements in sets, in this process. *)
Variable arr : list nat -> list nat.

(** SamplingIntermediateState: the operations and the qubits (68-90). *)
Definition intermediate := (list (operation K) * list nat)%type.
(** 165-233 *)
Definition prepared (circuit : list (gate K)) (o : options) (c : chances) : res intermediate :=
  prepare F ix qubit_of g lg arr (ch_r c) (op_simplify o) (op_commute o) (op_decompose o) (op_fuse o) (ch_opt c) circuit (op_order o).

(** The value of a bitstring in the report (358-364). *)
Definition report (o : options) (bs : list (list nat)) : list (list nat * R) :=
  if op_normalize o then fractions (op_samples o) (counts bs) else map (fun e => (fst e, INR (snd e))) (counts bs).
(** What a program does with the numbers [u 0], [u 1], ... *)
Fixpoint run_draws {X : Type} (u : nat -> R) (t : draws X) : res X :=
  match t with
  | Return x => x
  | Draw p yes no => if Rlt_dec (u 0) p then run_draws (fun i => u (S i)) yes else run_draws (fun i => u (S i)) no
  end.
(** 239-370, from an intermediate state *)
Definition sampled (s : intermediate) (o : options) (seed : nat) : res (list (list nat * R) * list nat) :=
  let (ops, all) := s in
  let! qubits := match op_order o with
    | Some q => if forallb (fun x => memb x all) q && forallb (fun x => memb x q) all then Ok q else Err Throw   (* 244-247 *)
    | None => Ok (arr all)                                                         (* 249 *)
    end in
  let! bs := run_draws (random seed) (sample_many F abs2 arr qubits ops (op_samples o)) in
  Ok (report o bs, qubits).

(** A call of Sampler.sample: of a circuit; of a circuit, with
    return_intermediate_state_only; of the intermediate state that an earlier call gave. *)
Inductive request :=
| Circuit (c : list (gate K)) (o : options)
| Only (c : list (gate K)) (o : options)
| Resume (k : nat) (o : options).
(** What it gives. *)
Inductive answer := Samples (d : list (list nat * R)) (qubits : list nat) | State.

(** One call. The seed is drawn before sample is called (543); [past] are the
    intermediate states that the earlier calls gave. *)
Definition call_sampler (s : sampler) (past : list (option intermediate)) (q : request) (c : chances)
  : res answer * option intermediate * sampler :=
  let '(seed, r) := randrange (sp_rng s) in
  let s' := mkSampler r (sp_optimizer_seed s) in
  let finish (m : intermediate) o := let! (d, qs) := sampled m o seed in Ok (Samples d qs) in
  match q with
  | Circuit circuit o => ((let! m := prepared circuit o c in finish m o), None, s')
  | Only circuit o =>
      match prepared circuit o c with
      | Ok m => (Ok State, Some m, s')
      | Err e => (Err e, None, s')
      end
  | Resume k o => match nth k past None with Some m => (finish m o, None, s') | None => (Err Throw, None, s') end
  end.
(** Calls one after the other on one Sampler; exceptions are caught. *)
Fixpoint sampler_session (s : sampler) (past : list (option intermediate)) (l : list (request * chances)) : list (res answer) :=
  match l with
  | [] => []
  | (q, c) :: l' => let '(a, m, s') := call_sampler s past q c in a :: sampler_session s' (past ++ [m]) l'
  end.
End Sampler.
