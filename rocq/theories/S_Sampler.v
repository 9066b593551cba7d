(** Specification vocabulary for C68. *)
From Coq Require Import List Arith Reals Permutation.
Import ListNotations.
From Verif Require Import M_Base M_Path M_Tensor S_Tensor S_Path M_Circuit S_Circuit M_Sampling S_Sampling M_Sampler.
Set Implicit Arguments.
Local Open Scope nat_scope.

(** The gates have matrices of the right size, and they are unitary. *)
Definition proper {K : Type} (F : nums K) (circuit : list (gate K)) : Prop := forall h, In h circuit -> is_gate h /\ unitary F h.
(** An order of qubits lists each of them once. *)
Definition order_of (o : options) : list nat := match op_order o with Some q => q | None => [] end.
Definition allowed {K : Type} (F : nums K) (q : request K) : Prop :=
  match q with
  | Circuit c o => proper F c /\ NoDup (order_of o)
  | Only c o => proper F c
  | Resume _ k o => NoDup (order_of o)
  end.
(** The request fixes the order of the qubits. *)
Definition ordered {K : Type} (q : request K) : Prop :=
  match q with Circuit _ o => op_order o <> None | Only _ _ => True | Resume _ _ o => op_order o <> None end.
(** The optimizer finds paths that contract everything. *)
Definition solves {G : Type} (c : chances G) : Prop :=
  forall i ts, ts <> [] -> (forall xs, In xs ts -> NoDup xs) -> exists cs t, performs (length ts) (ch_opt c i ts) cs [t].

(** The seed of call number [k]. *)
Fixpoint seed_at {P : Type} (randrange : P -> nat * P) (r : P) (k : nat) : nat :=
  match k with O => fst (randrange r) | S k' => seed_at randrange (snd (randrange r)) k' end.

(** Options that may differ in what they do to the networks, but not in what they ask for. *)
Definition similar (o o' : options) : Prop :=
  op_order o = op_order o' /\ op_samples o = op_samples o' /\ op_normalize o = op_normalize o'.
Definition alike {K : Type} (q q' : request K) : Prop :=
  match q, q' with
  | Circuit c o, Circuit c' o' => c = c' /\ similar o o'
  | Only c o, Only c' o' => c = c' /\ similar o o'
  | Resume _ k o, Resume _ k' o' => k = k' /\ similar o o'
  | _, _ => False
  end.

(** What a sampling with a given seed gives, without a Sampler: the bitstrings of sample
    (as in C35), counted. *)
Definition alone_with {K G : Type} (F : nums K) (abs2 : K -> R) (ix : nat -> mark -> nat) (qubit_of : nat -> nat) (g : M_Random.prng G) (lg : BinNums.N -> BinNums.Z) (random : nat -> nat -> R)
    (arr : list nat -> list nat) (circuit : list (gate K)) (o : options) (c : chances G) (seed : nat) : res answer :=
  match play (random seed) (sample F abs2 ix qubit_of g lg arr (ch_r c) (op_simplify o) (op_commute o) (op_decompose o) (op_fuse o) (ch_opt c) circuit (op_order o) (op_samples o)) with
  | Ok (bs, qubits) => Ok (Samples (report o bs) qubits)
  | Err e => Err e
  end.
