(** Model of the conversion of circuits of Cirq and Qiskit: tnco/utils/circuit.py:519-603
    and the registrations in tnco/app/circuit/sampling.py:371-410.

    Of an operation of Cirq only what the code reads is kept: cirq.is_measurement,
    cirq.unitary (None: it raises a TypeError) and qubits; of an instruction of Qiskit
    matrix (None for an instruction that is not a gate, as a measurement or a barrier)
    and qubits. Qubits are numbered. dtype and backend are dropped. *)
From Coq Require Import Reals String.
From Verif Require Import M_Base M_Path M_PyTree M_OSet M_Tensor M_Contract M_Random M_Fuse M_Decompose M_Circuit M_Sampling.
Set Implicit Arguments.
Local Open Scope nat_scope.

Record cirq_op (K : Type) := mkCop { co_measures : bool; co_unitary : option (nda K); co_qubits : list nat }.
(** A circuit is a list of moments. *)
Definition cirq_circuit (K : Type) := list (list (cirq_op K)).
Record qiskit_op (K : Type) := mkQop { qo_matrix : option (nda K); qo_qubits : list nat }.
(** The code reads the instructions only; global_phase is kept for the specification. *)
Record qiskit_circuit (K : Type) := mkQk { qk_ops : list (qiskit_op K); qk_phase : K }.

Section Convert.
Variable K : Type.
Variable F : nums K.
Variable ix : nat -> mark -> nat.

(** cirq_to_arrays (537-549) *)
Definition cirq_to_arrays (ops : list (cirq_op K)) : res (list (gate K)) :=
  mapM (fun o => match co_unitary o with Some m => Ok (m, co_qubits o) | None => Err Throw end)
       (filter (fun o => negb (co_measures o)) ops).
(** qiskit_to_arrays (590-592). numpy's asarray(None) is an array without axes. *)
Definition qiskit_to_arrays (c : qiskit_circuit K) : list (gate K) :=
  map (fun o => (match qo_matrix o with Some m => m | None => mkA [] [zero (n_alg F)] end, qo_qubits o)) (qk_ops c).

Section Load.
Variables (R : Type) (g : prng R) (lg : N -> Z) (arr : list nat -> list nat) (r : nat -> R).
(** 552-557: all_operations goes through the moments. *)
Definition load_cirq (c : cirq_circuit K) (initial final : state_arg K) (simplify um dec : bool) (fuse_width : option Z)
  : res (list (nda K) * list (list nat) * list nat) :=
  let! gs := cirq_to_arrays (concat c) in
  load F ix g lg arr r gs initial final simplify um dec fuse_width.
(** 594-600 *)
Definition load_qiskit (c : qiskit_circuit K) (initial final : state_arg K) (simplify um dec : bool) (fuse_width : option Z)
  : res (list (nda K) * list (list nat) * list nat) :=
  load F ix g lg arr r (qiskit_to_arrays c) initial final simplify um dec fuse_width.
End Load.

Variable abs2 : K -> Rdefinitions.R.
Variable qubit_of : nat -> nat.
Variables (G : Type) (g : prng G) (lg : N -> Z).
(** sampling.py:377-383 *)
Definition sample_cirq (arr : list nat -> list nat) (r : nat -> nat -> G) (simplify um dec : bool) (fuse_width : option Z) (opt : nat -> list (list nat) -> path)
  (c : cirq_circuit K) (qubit_order : option (list nat)) (n : nat) : draws (list (list nat) * list nat) :=
  match cirq_to_arrays (concat c) with
  | Err e => Return (Err e)
  | Ok gs => sample F abs2 ix qubit_of g lg arr r simplify um dec fuse_width opt gs qubit_order n
  end.
End Convert.

Local Open Scope string_scope.
(** The arguments of load after the circuit, all by name (circuit.py:203-215; _qubits: 338). *)
Definition load_keywords : list string :=
  ["initial_state"; "final_state"; "simplify"; "use_matrix_commutation"; "decompose_hyper_inds"; "fuse"; "dtype"; "atol"; "backend"; "seed"; "verbose"; "_qubits"].
(** sampling.py:403-409: sample of a circuit of Qiskit passes its arguments to load. A
    call with [args] arguments by position after the circuit and the given names; [loaded]
    is what load gives if it takes them. *)
Definition sample_qiskit {X : Type} (args : nat) (keywords : list string) (loaded : res X) : res X :=
  if negb (Nat.eqb args 0) then Err Throw
  else if negb (forallb (fun k => existsb (String.eqb k) load_keywords) keywords) then Err Throw
  else loaded.
(** The names that Sampler.sample gives (sampling.py:530-545); those of optimize_params follow. *)
Definition sampler_keywords : list string :=
  ["optimizer"; "n_samples"; "simplify"; "use_matrix_commutation"; "decompose_hyper_inds"; "fuse"; "qubit_order"; "normalize"; "return_intermediate_state_only";
   "dtype"; "optimization_backend"; "contraction_backend"; "seed"; "verbose"].
