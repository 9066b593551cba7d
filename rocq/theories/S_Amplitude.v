(** Specification vocabulary for C34: the amplitudes of a circuit. *)
From Coq Require Import List Arith.
Import ListNotations.
From Verif Require Import M_Base M_Tensor S_Tensor M_Circuit S_Circuit.

Section Amplitude.
Context {K : Type}.
Variable F : nums K.
Local Notation A := (n_alg F).

(** The amplitudes of the states '0', '1', '+' and '-'. *)
Definition token_amp (t : token) (b : nat) : K :=
  match t with
  | T0 => if b =? 0 then one A else zero A
  | T1 => if b =? 0 then zero A else one A
  | TPlus => n_root F
  | TMinus => if b =? 0 then n_root F else n_mroot F
  | TOther => zero A
  end.
(** The state that the argument gives to a qubit; None if the qubit is open. *)
Definition closing (s : state_arg K) (q : nat) : option (nat -> K) :=
  match s with
  | SNone | SOther => None
  | SStr t => Some (token_amp t)
  | SDict l => match find (fun e => fst e =? q) l with
               | Some (_, Tok t) => Some (token_amp t)
               | Some (_, Vec a) => Some (fun b => entry A a [b])
               | None => None
               end
  end.
(** The arguments that are accepted for the qubits [Q]: nothing, one of the four
    names, or a dict of names and, for the qubits of [Q], normalized vectors. *)
Definition valid_state (Q : list nat) (s : state_arg K) : Prop :=
  match s with
  | SNone => True
  | SStr t => t <> TOther
  | SDict l => NoDup (map fst l) /\ (forall q, ~ In (q, Tok TOther) l) /\
               forall q a, In (q, Vec a) l -> In q Q -> shape a = [2] /\ n_unit F a = true
  | SOther => False
  end.
(** The keys of a dict are different. *)
Definition dict_keys (s : state_arg K) : Prop := match s with SDict l => NoDup (map fst l) | _ => True end.
(** The four named states pass the test for normalization. *)
Definition names_normalized : Prop :=
  n_unit F (mkA [2] [one A; zero A]) = true /\ n_unit F (mkA [2] [zero A; one A]) = true /\
  n_unit F (mkA [2] [n_root F; n_root F]) = true /\ n_unit F (mkA [2] [n_root F; n_mroot F]) = true.
(** The vectors of the argument are arrays with as many entries as their shape says. *)
Definition proper_state (s : state_arg K) : Prop :=
  match s with SDict l => forall q a, In (q, Vec a) l -> well_shaped a | _ => True end.

Definition times (l : list K) : K := fold_right (mul A) (one A) l.

(** The sum over all values [w] of the qubits [Q] after the circuit of the product of
    - for each qubit that is closed at the end, the conjugate of the amplitude of
      its final state; a qubit that is open has the value [vf];
    - the amplitude of [w] after the circuit is applied to the initial state, in
      which the open qubits have the values [vi]. *)
Definition amplitude (gs : list (nda K * list nat)) (Q : list nat) (i f : nat -> option (nat -> K)) (vi vf : nat -> nat) : K :=
  sum_over A (fun _ => 2) Q (fun w =>
    mul A (times (map (fun q => match f q with Some a => n_conj F (a (w q)) | None => if w q =? vf q then one A else zero A end) Q))
          (run F gs (fun u => times (map (fun q => match i q with Some a => a (u q) | None => if u q =? vi q then one A else zero A end) Q)) w))
    (fun _ => 0).
End Amplitude.

(** The open ends of the qubits [Q]. *)
Definition open_end {K : Type} (ix : nat -> mark -> nat) (Q : list nat) (i f : nat -> option (nat -> K)) (x : nat) : Prop :=
  exists q, In q Q /\ ((x = ix q Ini /\ i q = None) \/ (x = ix q Fin /\ f q = None)).
