(** Specification vocabulary for C35: probabilities of programs that draw numbers,
    and the Born probabilities of a circuit. *)
From Coq Require Import List Arith Reals.
Import ListNotations.
From Verif Require Import M_Base M_Tensor S_Tensor M_Circuit S_Circuit M_Sampling.
Local Open Scope nat_scope.

(** [abs2 x] behaves like the square of the absolute value of a complex number [x]:
    it is the real part of x times its conjugate, positive unless [x] is zero. *)
Definition modulus {K : Type} (F : nums K) (abs2 : K -> R) : Prop :=
  exists re : K -> R,
    (forall x y, re (add (n_alg F) x y) = (re x + re y)%R) /\ re (one (n_alg F)) = 1%R /\
    (forall x, abs2 x = re (mul (n_alg F) x (n_conj F x))) /\
    (forall x, (0 <= abs2 x)%R) /\ (forall x, abs2 x = 0%R -> x = zero (n_alg F)).

(** The probability that the program ends in a result with property [P], when the
    numbers that are drawn are independent and each is less than [p] with
    probability [p]. *)
Fixpoint chance {X : Type} (P : res X -> bool) (t : draws X) : R :=
  match t with
  | Return x => if P x then 1%R else 0%R
  | Draw p yes no => (p * chance P yes + (1 - p) * chance P no)%R
  end.
(** The result is [x]. *)
Definition gives {X : Type} (dec : forall x y : X, {x = y} + {x <> y}) (x : X) (r : res X) : bool :=
  match r with Ok y => if dec x y then true else false | Err _ => false end.
(** What the program does if the numbers that it draws are [u 0], [u 1], ... *)
Fixpoint play {X : Type} (u : nat -> R) (t : draws X) : res X :=
  match t with
  | Return x => x
  | Draw p yes no => if Rlt_dec (u 0) p then play (fun i => u (S i)) yes else play (fun i => u (S i)) no
  end.

(** The state in which all qubits [Q] are 0. *)
Definition zero_state {K : Type} (F : nums K) (Q : list nat) (v : nat -> nat) : K :=
  if forallb (fun q => v q =? 0) Q then one (n_alg F) else zero (n_alg F).
(** The values of the qubits when those in [qubits] have the values [b], in that
    order. *)
Definition reading (qubits b : list nat) (q : nat) : nat :=
  match find (fun e => fst e =? q) (combine qubits b) with Some (_, x) => x | None => 0 end.
(** The probability of measuring [b] after the circuit is applied to that state. *)
Definition born {K : Type} (F : nums K) (abs2 : K -> R) (circuit : list (nda K * list nat)) (qubits b : list nat) : R :=
  abs2 (run F circuit (zero_state F qubits) (reading qubits b)).
(** A list of [n] bits. *)
Definition bitstring (n : nat) (b : list nat) : Prop := length b = n /\ Forall (fun x => x < 2) b.

(** Each column of the matrix has a single entry that is not zero, a phase, and these
    entries are in different rows: up to phases, the gate permutes the basis. *)
Definition permutation_gate {K : Type} (F : nums K) (g : nda K * list nat) : Prop :=
  let n := 2 ^ length (snd g) in
  exists s : nat -> nat, (forall j, j < n -> s j < n) /\ (forall i j, i < n -> j < n -> s i = s j -> i = j) /\
    forall i j, i < n -> j < n ->
      (i = s j -> phase F (entry (n_alg F) (fst g) [i; j])) /\ (i <> s j -> entry (n_alg F) (fst g) [i; j] = zero (n_alg F)).
