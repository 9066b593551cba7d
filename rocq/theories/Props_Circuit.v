(** C33: the simplification of circuits keeps their operator up to a phase. *)
From Coq Require Import List Arith Lia Bool QArith Qcanon.
Import ListNotations.
From Verif Require Import M_Base M_Tensor S_Tensor M_Circuit S_Circuit.
From Verif Require Import P_Gates P_Same P_Simplify P_Gauss.
Local Open Scope nat_scope.

Theorem C33_simplification_keeps_operator : forall (K : Type) (F : nums K) (ix : nat -> mark -> nat) (um : bool) (circuit : list (nda K * list nat)),
  numbers F -> distinct ix -> (forall g, In g circuit -> is_gate g /\ unitary F g) ->
  exists gs passes c, final_gates F ix true um circuit = Ok (gs, passes) /\ phase F c /\
    (forall q, touches gs q <-> touches circuit q) /\
    (forall g, In g gs -> is_gate g /\ unitary F g) /\
    (forall Q psi v, (forall q, touches circuit q -> In q Q) -> state_of Q psi -> bits v ->
       run F circuit psi v = mul (n_alg F) c (run F gs psi v)).
Proof. exact simplification_keeps_operator. Qed.
Print Assumptions C33_simplification_keeps_operator.

(** Every gate that is left is one of the circuit or an identity added for a qubit
    that has no other gate, and no two gates of the circuit that cancel are left. *)
Theorem C33_nothing_left_to_cancel : forall (K : Type) (F : nums K) (ix : nat -> mark -> nat) (um : bool) (circuit : list (nda K * list nat)),
  numbers F -> distinct ix -> (forall g, In g circuit -> is_gate g /\ unitary F g) ->
  exists gs ids passes, final_gates F ix true um circuit = Ok (gs ++ ids, passes) /\ incl gs circuit /\
    (forall g, In g ids -> exists q, snd g = [q] /\ ~ touches gs q /\ forall v w, bits v -> bits w -> element F g v w = if v q =? w q then one (n_alg F) else zero (n_alg F)) /\
    (forall before h between g after, gs = before ++ h :: between ++ g :: after ->
       (forall x, In x between -> if um then commuting F x g else forall q, In q (snd x) -> ~ In q (snd g)) -> ~ inverses F h g).
Proof. exact nothing_left. Qed.
Print Assumptions C33_nothing_left_to_cancel.

(** commute answers whether the operators commute; without use_matrix only whether the
    gates have no qubit in common. *)
Theorem C33_commute_exact : forall (K : Type) (F : nums K) (ix : nat -> mark -> nat) (um : bool) (g h : nda K * list nat),
  numbers F -> distinct ix -> is_gate g -> is_gate h ->
  exists b, commute F ix um g h = Ok b /\
    (b = true <-> if um then commuting F g h else forall q, In q (snd g) -> ~ In q (snd h)).
Proof. exact commute_decides. Qed.
Print Assumptions C33_commute_exact.

(** same answers whether the gates are equal up to a factor. *)
Theorem C33_same_exact : forall (K : Type) (F : nums K) (g h : nda K * list nat),
  numbers F -> is_gate g -> is_gate h -> nonzero F g ->
  exists b, same F g h = Ok b /\ (b = true <-> proportional F g h).
Proof. intros K F g h NF Hg Hh NZ. exact (same_exact NF Hg Hh NZ). Qed.
Print Assumptions C33_same_exact.

Theorem C33_invalid_gates_raise : forall (K : Type) (F : nums K) (ix : nat -> mark -> nat) (um : bool) (g h : nda K * list nat),
  (snd g = [] \/ ~ NoDup (snd g) \/ shape (fst g) <> [2 ^ length (snd g); 2 ^ length (snd g)] \/
   snd h = [] \/ ~ NoDup (snd h) \/ shape (fst h) <> [2 ^ length (snd h); 2 ^ length (snd h)]) ->
  same F g h = Err Throw /\ commute F ix um g h = Err Throw.
Proof. exact invalid_gates. Qed.
Print Assumptions C33_invalid_gates_raise.

(** S commutes with the control of CX, and S followed by its inverse is cancelled. *)
Definition circuit_1 : list (nda (Qc * Qc) * list nat) := [(gate_s, [0]); (gate_cx, [0; 1]); (gate_x, [2]); (gate_sdg, [0]); (gate_x, [2])].
Example C33_applies : numbers gauss /\ distinct code /\ (forall g, In g circuit_1 -> is_gate g /\ unitary gauss g) /\
  final_gates gauss code true true circuit_1 = Ok ([(gate_cx, [0; 1]); (eye gauss, [2])], 1) /\
  final_gates gauss code true false circuit_1 = Ok ([(gate_s, [0]); (gate_cx, [0; 1]); (gate_sdg, [0]); (eye gauss, [2])], 1).
Proof.
  split; [exact gauss_numbers|]. split; [exact code_distinct|]. split.
  - intros g Hg. cut (gateb g = true /\ unitaryb g = true). { intros [H1 H2]. split; [apply gateb_ok; auto|apply unitaryb_ok; auto]. }
    repeat (destruct Hg as [<-|Hg]; [split; vm_compute; reflexivity|]). destruct Hg.
  - split; vm_compute; reflexivity.
Qed.
Example C33_same_applies : is_gate (gate_s, [0]) /\ is_gate (gate_sdg, [0]) /\ nonzero gauss (gate_s, [0]) /\
  same gauss (gate_s, [0]) (gate_sdg, [0]) = Ok false /\ commute gauss code true (gate_x, [0]) (gate_cx, [0; 1]) = Ok false /\ commute gauss code true (gate_x, [1]) (gate_cx, [0; 1]) = Ok true.
Proof.
  split; [apply gateb_ok; vm_compute; reflexivity|]. split; [apply gateb_ok; vm_compute; reflexivity|]. split.
  - exists (fun _ => 0), (fun _ => 0). split; [intros q; lia|]. split; [intros q; lia|]. intros E. inversion E.
  - vm_compute. auto.
Qed.

(** For gates that are not unitary the claim is false: two equal real diagonal gates
    are taken for inverse ones. *)
Theorem C33_nonunitary_refuted : exists circuit gs passes, (forall g, In g circuit -> is_gate g) /\
  final_gates gauss code true true circuit = Ok (gs, passes) /\
  forall c, exists v, bits v /\ run gauss circuit (fun _ => one gauss_alg) v <> mul gauss_alg c (run gauss gs (fun _ => one gauss_alg) v).
Proof. exact nonunitary_cancelled. Qed.
Print Assumptions C33_nonunitary_refuted.
