(** Specification vocabulary for C69: what circuits of Cirq and Qiskit mean. *)
From Coq Require Import List Arith Reals.
Import ListNotations.
From Verif Require Import M_Base M_Tensor S_Tensor M_Circuit S_Circuit S_Amplitude M_Convert.
Set Implicit Arguments.
Local Open Scope nat_scope.

(** ** Cirq *)
(** What happens in a circuit: gates, whose matrices have the first qubit as the most
    significant bit, and measurements of single qubits. *)
Inductive event (K : Type) := Does (g : nda K * list nat) | Looks (q : nat).
Definition events {K : Type} (o : cirq_op K) : list (event K) :=
  if co_measures o then map (@Looks K) (co_qubits o) else match co_unitary o with Some m => [Does (m, co_qubits o)] | None => [] end.
Definition gates {K : Type} (es : list (event K)) : list (nda K * list nat) := flat_map (fun e => match e with Does g => [g] | Looks _ _ => [] end) es.
(** The gates of the operations. *)
Definition cirq_gates {K : Type} (ops : list (cirq_op K)) : list (nda K * list nat) := gates (flat_map events ops).

(** The operations that are not measurements have a unitary, on different qubits and of
    the right size; the operations of a moment are on different qubits. *)
Definition cirq_ok {K : Type} (F : nums K) (c : cirq_circuit K) : Prop :=
  forall moment, In moment c -> NoDup (concat (map (@co_qubits K) moment)) /\
    forall o, In o moment -> co_measures o = false -> exists m, co_unitary o = Some m /\ is_gate (m, co_qubits o) /\ unitary F (m, co_qubits o).

(** The probability that the qubits have the values [v] at the end. A measurement gives
    0 or 1 and leaves the part of the state where the qubit has that value. *)
Fixpoint outcome {K : Type} (F : nums K) (abs2 : K -> R) (es : list (event K)) (psi : (nat -> nat) -> K) (v : nat -> nat) : R :=
  match es with
  | [] => abs2 (psi v)
  | Does g :: l => outcome F abs2 l (act F g psi) v
  | Looks _ q :: l => (outcome F abs2 l (fun w => if w q =? 0 then psi w else zero (n_alg F)) v + outcome F abs2 l (fun w => if w q =? 1 then psi w else zero (n_alg F)) v)%R
  end.
(** No gate acts on a qubit after it was measured. *)
Fixpoint settled {K : Type} (es : list (event K)) : Prop :=
  match es with
  | [] => True
  | Does _ :: l => settled l
  | Looks _ q :: l => (forall g, In (Does g) l -> ~ In q (snd g)) /\ settled l
  end.

(** ** Qiskit *)
(** The matrix of a gate has its first qubit as the least significant bit; so the
    qubits, the most significant first, are the reversed list. *)
Definition big_endian {K : Type} (g : nda K * list nat) : nda K * list nat := (fst g, rev (snd g)).
Definition qiskit_gates {K : Type} (c : qiskit_circuit K) : list (nda K * list nat) :=
  flat_map (fun o => match qo_matrix o with Some m => [(m, qo_qubits o)] | None => [] end) (qk_ops c).
(** The amplitude, as for C34, with the global phase. *)
Definition qiskit_amplitude {K : Type} (F : nums K) (c : qiskit_circuit K) (Q : list nat) (i f : nat -> option (nat -> K)) (vi vf : nat -> nat) : K :=
  mul (n_alg F) (qk_phase c) (amplitude F (map big_endian (qiskit_gates c)) Q i f vi vf).
(** The instructions are gates. *)
Definition qiskit_ok {K : Type} (F : nums K) (c : qiskit_circuit K) : Prop :=
  phase F (qk_phase c) /\ forall o, In o (qk_ops c) -> exists m, qo_matrix o = Some m /\ is_gate (m, qo_qubits o) /\ unitary F (m, qo_qubits o).
(** The gate does the same to the reversed qubits, as do gates on one qubit, swap, or cz. *)
Definition reversible_qubits {K : Type} (F : nums K) (g : nda K * list nat) : Prop :=
  forall v w, bits v -> bits w -> element F (big_endian g) v w = element F g v w.
