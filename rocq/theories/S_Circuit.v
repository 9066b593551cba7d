(** Specification vocabulary for circuits: how gates act on the states of qubits. *)
From Coq Require Import List Arith.
Import ListNotations.
From Verif Require Import M_Base M_Tensor S_Tensor M_Circuit.

(** Numbers that behave like complex numbers: a field with a conjugation. *)
Record numbers {K : Type} (F : nums K) : Prop := mkNumbers {
  num_ring : semiring (n_alg F);
  num_nontrivial : one (n_alg F) <> zero (n_alg F);
  num_eqb : forall x y, n_eqb F x y = true <-> x = y;
  num_div : forall x y, y <> zero (n_alg F) -> mul (n_alg F) (n_div F x y) y = x;
  conj_add : forall x y, n_conj F (add (n_alg F) x y) = add (n_alg F) (n_conj F x) (n_conj F y);
  conj_mul : forall x y, n_conj F (mul (n_alg F) x y) = mul (n_alg F) (n_conj F x) (n_conj F y);
  conj_conj : forall x, n_conj F (n_conj F x) = x }.

(** Different tuples (qubit, mark) are different indices. *)
Definition distinct (ix : nat -> mark -> nat) : Prop :=
  forall q m q' m', ix q m = ix q' m' -> q = q' /\ m = m'.

Section Circuits.
Context {K : Type}.
Variable F : nums K.
Local Notation A := (n_alg F).

(** An assignment gives every qubit the value 0 or 1. *)
Definition bits (v : nat -> nat) : Prop := forall q, v q < 2.
(** The number with the binary digits [l], the most significant first. *)
Definition number (l : list nat) : nat := fold_left (fun n b => 2 * n + b) l 0.

(** A state of the qubits [Q] is a function of their values: its amplitudes. *)
Definition state_of (Q : list nat) (psi : (nat -> nat) -> K) : Prop :=
  forall v w, (forall q, In q Q -> v q = w q) -> psi v = psi w.

(** The entry of the matrix of gate [g] in the row given by the values [v] and the
    column given by the values [w] of its qubits. *)
Definition element (g : nda K * list nat) (v w : nat -> nat) : K :=
  entry A (fst g) [number (map v (snd g)); number (map w (snd g))].

(** The state after gate [g]. *)
Definition act (g : nda K * list nat) (psi : (nat -> nat) -> K) (v : nat -> nat) : K :=
  sum_over A (fun _ => 2) (snd g) (fun w => mul A (element g v w) (psi w)) v.
(** The state after all gates of a circuit, the first one applied first. *)
Definition run (gs : list (nda K * list nat)) (psi : (nat -> nat) -> K) : (nat -> nat) -> K :=
  fold_left (fun phi g => act g phi) gs psi.

(** A square matrix of the right size, on one or more different qubits. *)
Definition is_gate (g : nda K * list nat) : Prop :=
  snd g <> [] /\ NoDup (snd g) /\ shape (fst g) = [2 ^ length (snd g); 2 ^ length (snd g)] /\ well_shaped (fst g).

(** The columns of the matrix are orthonormal, and so are its rows. *)
Definition unitary (g : nda K * list nat) : Prop :=
  let n := 2 ^ length (snd g) in
  forall i j, i < n -> j < n ->
    sum_upto A n (fun k => mul A (n_conj F (entry A (fst g) [k; i])) (entry A (fst g) [k; j])) = (if i =? j then one A else zero A) /\
    sum_upto A n (fun k => mul A (entry A (fst g) [i; k]) (n_conj F (entry A (fst g) [j; k]))) = (if i =? j then one A else zero A).

(** A number of absolute value one. *)
Definition phase (c : K) : Prop := mul A c (n_conj F c) = one A.

(** Applying the two gates in either order has the same effect on every state. *)
Definition commuting (g h : nda K * list nat) : Prop :=
  forall Q psi v, incl (snd g) Q -> incl (snd h) Q -> state_of Q psi -> bits v -> act g (act h psi) v = act h (act g psi) v.
(** The gates act on the same qubits, and one matrix is a multiple of the other. *)
Definition proportional (g h : nda K * list nat) : Prop :=
  (forall q, In q (snd g) <-> In q (snd h)) /\
  exists c, c <> zero A /\ forall v w, bits v -> bits w -> element g v w = mul A c (element h v w).
(** The gates act on the same qubits, and one matrix is a multiple of the conjugate
    transpose of the other. For unitary gates: they cancel up to a factor. *)
Definition inverses (h g : nda K * list nat) : Prop :=
  (forall q, In q (snd h) <-> In q (snd g)) /\
  exists c, c <> zero A /\ forall v w, bits v -> bits w -> element h v w = mul A c (n_conj F (element g w v)).
(** Some entry of the matrix is not zero. *)
Definition nonzero (g : nda K * list nat) : Prop := exists v w, bits v /\ bits w /\ element g v w <> zero A.

(** The qubits of a circuit. *)
Definition touches (gs : list (nda K * list nat)) (q : nat) : Prop := exists g, In g gs /\ In q (snd g).
End Circuits.
