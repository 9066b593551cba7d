(** Model of tnco/app/circuit/sampling.py: is_classical_operation and sample.

    Qubits are naturals (in Python: any hashable). The conversions of arrays
    (asarray, dtype, backends), the display of progress, and the check (303) that
    only formats the indices of the network are dropped. The paths that the
    optimizer finds (212-219) are an argument: any function of the number of the
    gate and of the network. The registrations for cirq and qiskit (373-410) are in
    M_Convert, the class Sampler is in M_Sampler. *)
From Coq Require Import Reals.
From Verif Require Import M_Base M_Path M_PyTree M_OSet M_Tensor M_Contract M_Random M_Fuse M_Decompose M_Circuit.
Set Implicit Arguments.
Local Open Scope nat_scope.

(** What a program that draws random numbers does: it returns, or it draws a number
    and goes on with [yes] if the number is less than [p], and with [no] if it is
    not. *)
Inductive draws (X : Type) : Type :=
| Return (x : res X)
| Draw (p : R) (yes no : draws X).
Arguments Return {X}.
Fixpoint then_ {X Y : Type} (t : draws X) (k : X -> draws Y) : draws Y :=
  match t with
  | Return (Ok x) => k x
  | Return (Err e) => Return (Err e)
  | Draw p t1 t2 => Draw p (then_ t1 k) (then_ t2 k)
  end.

(** sorted *)
Fixpoint insert (x : nat) (l : list nat) : list nat :=
  match l with [] => [x] | y :: l' => if x <=? y then x :: l else y :: insert x l' end.
Definition sorted (l : list nat) : list nat := fold_right insert [] l.

(** int(x) == x for x = log2(n); n is positive. *)
Definition power_of_two (n : nat) : bool := 2 ^ Nat.log2 n =? n.

(** int(''.join(map(str, l)), 2) (279) *)
Definition of_bits (l : list nat) : nat := fold_left (fun n b => 2 * n + b) l 0.
(** list(map(int, bin(n)[2:].zfill(k))) for n < 2 ** k (287) *)
Fixpoint to_bits (k n : nat) : list nat :=
  match k with 0 => [] | S k' => (n / 2 ^ k') mod 2 :: to_bits k' n end.

Section Sampling.
Variable K : Type.
Variable F : nums K.
Variable abs2 : K -> R.                  (* abs(x) ** 2 *)
Variable ix : nat -> mark -> nat.
Variable qubit_of : nat -> nat.          (* the first component of an index *)
Let A := n_alg F.

(** 37-66; abs(x) == 1 is compared as x * conj(x) == 1. *)
Definition is_classical (m : nda K) : bool :=
  match shape m with
  | [n; k] =>
      if negb (n =? k) && negb (power_of_two n) then false else                    (* 50 *)
      let pos := filter (fun p => negb (is_zero F (entry A m [fst p; snd p]))) (list_prod (seq 0 n) (seq 0 k)) in   (* 55 *)
      list_eqb (sorted (map fst pos)) (seq 0 n) && list_eqb (sorted (map snd pos)) (seq 0 n) &&   (* 58 *)
      forallb (fun p => let x := entry A m [fst p; snd p] in n_eqb F (mul A x (n_conj F x)) (one A)) pos   (* 62 *)
  | _ => false
  end.

(** The elements of SamplingIntermediateState: a classical operation, where the entry
    of the matrix [i; j] is whether m[i, j] != 0; or a network, its path, its
    arrays, and its open qubits. *)
Inductive operation :=
| Classical (m : nda bool) (qs : list nat)
| Quantum (ts : list (list nat)) (p : path) (arrays : list (nda K)) (output_qubits qs : list nat).

Section Prepare.
Variable G : Type.
Variables (g : prng G) (lg : N -> Z) (arr : list nat -> list nat) (r : nat -> nat -> G).
Variables (simplify um dec : bool) (fuse_width : option Z).
Variable opt : nat -> list (list nat) -> path.

(** 186-232 for gate number [i] of [circuit]. *)
Definition prepare_gate (circuit : list (gate K)) (i : nat) (h : gate K) : res operation :=
  let (m, qs) := h in
  if is_classical m then Ok (Classical (mkA (shape m) (map (fun x => negb (is_zero F x)) (data m))) qs) else
  let! (net, os) := load F ix g lg arr (r i) (firstn (S i) circuit) (SStr T0) SNone simplify um dec fuse_width in
  let (arrays, ts) := net in
  let ts' := ts ++ map (fun x => [x]) os in                                        (* 204 *)
  Ok (Quantum ts' (opt i ts') arrays (map qubit_of os) qs).

Fixpoint prepare_all (circuit : list (gate K)) (i : nat) (l : list (gate K)) : res (list operation) :=
  match l with
  | [] => Ok []
  | h :: l' => let! o := prepare_gate circuit i h in let! os := prepare_all circuit (S i) l' in Ok (o :: os)
  end.

(** 168-232 *)
Definition prepare (circuit : list (gate K)) (qubit_order : option (list nat)) : res (list operation * list nat) :=
  if negb (forallb (fun h => (length (snd h) =? 1) || is_classical (fst h)) circuit) then Err Throw else   (* 171 *)
  let qubits := qubits_of circuit in                                              (* 178 *)
  let bad o := negb (forallb (fun q => memb q qubits) o && forallb (fun q => memb q o) qubits) in
  if match qubit_order with Some o => bad o | None => false end then Err Throw else   (* 181 *)
  let! ops := prepare_all circuit 0 circuit in
  Ok (ops, qubits).

(** 272-293: one classical operation. *)
Definition classical_step (qubits : list nat) (m : nda bool) (qs : list nat) (bitstring : list nat) : res (list nat) :=
  let! loc := mapM (fun q => index Nat.eqb q qubits) qs in                         (* 273 *)
  let! cur := mapM (get bitstring) loc in
  let j := of_bits cur in                                                         (* 279 *)
  match shape m with
  | [n; k] =>
      (* 284: the product with a vector that is 1 at position j and 0 elsewhere *)
      match filter (fun i => nth (i * k + j) (data m) false) (seq 0 n) with
      | [i] => Ok (fold_left (fun b e => upd b (fst e) (snd e)) (combine loc (to_bits (length qs) i)) bitstring)   (* 287-290 *)
      | _ => Err Throw
      end
  | _ => Err Throw
  end.

(** contract with output_inds=() and one tensor left; its only entry. *)
Definition amplitude_of (ts : list (list nat)) (p : path) (arrays : list (nda K)) : res K :=
  let! (_, ar) := contract A arr p ts (Some []) (Some arrays) None in
  match ar with
  | Some [a] => match shape a with [] => Ok (entry A a []) | _ => Err Throw end
  | _ => Err Throw
  end.

(** asarray([0, 1] if b else [1, 0]) *)
Definition basis (b : nat) : nda K := mkA [2] (if b =? 0 then [one A; zero A] else [zero A; one A]).

(** 307-339: one qubit operation that is not classical. *)
Definition quantum_step (qubits : list nat) (ts : list (list nat)) (p : path) (arrays : list (nda K)) (output_qubits qs : list nat) (bitstring : list nat) : draws (list nat) :=
  match (let! locs := mapM (fun q => index Nat.eqb q qubits) qs in
         match locs, qs with
         | [loc], q :: _ =>                                                       (* 307 *)
             let! outs := mapM (fun q => index Nat.eqb q qubits) output_qubits in
             let! sub := mapM (get bitstring) outs in
             let! b := get bitstring loc in
             let! x0 := amplitude_of ts p (arrays ++ map basis sub) in             (* 315 *)
             let! k := index Nat.eqb q output_qubits in                            (* 324 *)
             let! x1 := amplitude_of ts p (arrays ++ upd (map basis sub) k (basis (1 - b))) in   (* 329 *)
             Ok (abs2 x0, abs2 x1, upd bitstring loc (1 - b))
         | _, _ => Err Throw
         end)
  with
  | Err e => Return (Err e)
  | Ok (p0, p1, flipped) =>
      (* 338; a division by 0, which numpy answers with nan, is an error here. *)
      if Req_EM_T (p0 + p1) 0 then Return (Err Throw) else Draw (p1 / (p0 + p1)) (Return (Ok flipped)) (Return (Ok bitstring))
  end.

Definition step_op (qubits : list nat) (o : operation) (bitstring : list nat) : draws (list nat) :=
  match o with
  | Classical m qs => Return (classical_step qubits m qs bitstring)
  | Quantum ts p arrays out qs => quantum_step qubits ts p arrays out qs bitstring
  end.

(** 268-346: all operations. *)
Fixpoint sample_ops (qubits : list nat) (ops : list operation) (bitstring : list nat) : draws (list nat) :=
  match ops with
  | [] => Return (Ok bitstring)
  | o :: ops' => then_ (step_op qubits o bitstring) (sample_ops qubits ops')
  end.

(** 259-349: [n] bitstrings. *)
Fixpoint sample_many (qubits : list nat) (ops : list operation) (n : nat) : draws (list (list nat)) :=
  match n with
  | 0 => Return (Ok [])
  | S n' => then_ (sample_ops qubits ops (repeat 0 (length qubits)))
                  (fun b => then_ (sample_many qubits ops n') (fun bs => Return (Ok (b :: bs))))
  end.

(** 160-349: the bitstrings that are counted, and the order of the qubits; [arr] is
    the order of the qubits in a frozenset. *)
Definition sample (circuit : list (gate K)) (qubit_order : option (list nat)) (n : nat) : draws (list (list nat) * list nat) :=
  match prepare circuit qubit_order with
  | Err e => Return (Err e)
  | Ok (ops, all) =>
      let qubits := match qubit_order with Some o => o | None => arr all end in    (* 243-249 *)
      then_ (sample_many qubits ops n) (fun bs => Return (Ok (bs, qubits)))
  end.
End Prepare.
End Sampling.

(** 349: sampled_bitstrings[b] += 1, for all [b]; a dict keeps the order of insertion. *)
Fixpoint hit (d : list (list nat * nat)) (b : list nat) : list (list nat * nat) :=
  match d with
  | [] => [(b, 1)]
  | (k, c) :: d' => if list_eqb k b then (k, S c) :: d' else (k, c) :: hit d' b
  end.
(** 368: the items by number of hits, the largest first; equal ones keep their order. *)
Fixpoint insert_desc (e : list nat * nat) (l : list (list nat * nat)) : list (list nat * nat) :=
  match l with [] => [e] | x :: l' => if snd x <=? snd e then e :: l else x :: insert_desc e l' end.
Definition counts (bs : list (list nat)) : list (list nat * nat) := fold_right insert_desc [] (fold_left hit bs []).
(** 361-364: the fractions. *)
Definition fractions (n : nat) (d : list (list nat * nat)) : list (list nat * R) :=
  map (fun e => (fst e, (INR (snd e) / INR n)%R)) d.
