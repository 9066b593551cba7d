(** C69: loading and sampling circuits of Cirq and Qiskit. *)
From Coq Require Import List Arith ZArith NArith Lia Bool QArith Qcanon Qreals Reals Lra Permutation String.
Import ListNotations.
From Verif Require Import M_Base M_Path M_Random M_Tensor M_Contract M_Circuit M_Sampling S_Path S_Random S_Network S_Tensor S_Contract S_Circuit S_Amplitude S_Sampling M_Convert S_Convert.
From Verif Require Import P_Load P_Sampling P_SampleMain P_Convert P_Gauss Props_Random Props_Amplitude Props_Sampling.
Local Open Scope nat_scope.

(** Loading a circuit of Cirq gives a network for the amplitudes of its gates, up to a
    phase (none without simplify), whatever the order of the operations in each moment
    is taken to be. Measurements are left out. *)
Theorem C69_cirq_load : forall (K : Type) (F : nums K) (ix : nat -> mark -> nat) (R : Type) (g : prng R) (lg : N -> Z) (arr : list nat -> list nat) (r : nat -> R)
    (circuit circuit' : cirq_circuit K) (Q : list nat) (initial final : state_arg K) (simplify um dec : bool) (fuse_width : option Z),
  numbers F -> distinct ix -> prng_ok g -> (forall l, Permutation (arr l) l) ->
  cirq_ok F circuit -> Forall2 (@Permutation _) circuit circuit' -> NoDup Q -> (forall q, In q Q <-> touches (cirq_gates (concat circuit)) q) ->
  names_normalized F -> valid_state F Q initial -> valid_state F Q final -> proper_state initial -> proper_state final ->
  exists arrays ts os c, load_cirq F ix g lg arr r circuit initial final simplify um dec fuse_width = Ok (arrays, ts, os) /\
    phase F c /\ (simplify = false -> c = one (n_alg F)) /\ NoDup os /\
    (forall x, In x os <-> open_end ix Q (closing F initial) (closing F final) x) /\
    forall ks V, NoDup ks -> (forall x, In x ks <-> In x (concat ts) /\ ~ In x os) -> bits V ->
      amplitude F (cirq_gates (concat circuit')) Q (closing F initial) (closing F final) (fun q => V (ix q Ini)) (fun q => V (ix q Fin)) =
      mul (n_alg F) c (sum_over (n_alg F) (fun _ => 2) ks (network (n_alg F) arrays ts) V).
Proof.
  intros K F ix R g lg arr r circuit circuit' Q initial final simplify um dec fuse_width NF IX Hg Ha OK P NQ HQ NN Vi Vf Pi Pf. destruct (cirq_fine OK) as [G U].
  destruct (@C34_network_is_amplitude K F ix R g lg arr r (cirq_gates (concat circuit)) Q initial final simplify um dec fuse_width) as (arrays & ts & os & c & E & Pc & Cs & _ & _ & _ & No & Io & _ & _ & _ & V); auto; try (intros; apply G; assumption).
  exists arrays, ts, os, c. unfold load_cirq. rewrite (cirq_arrays U). repeat (split; [assumption|]). intros ks W Hk Ik Bw. rewrite <- (V ks W Hk Ik Bw). symmetry. apply (amplitude_moments NF IX); assumption.
Qed.
Print Assumptions C69_cirq_load.

(** An operation that is neither a measurement nor has a unitary, such as a channel, is
    refused by load and sample. *)
Theorem C69_cirq_refuses : forall (K : Type) (F : nums K) (ix : nat -> mark -> nat) (circuit : cirq_circuit K) o,
  In o (concat circuit) -> co_measures o = false -> co_unitary o = None ->
  (forall (R : Type) (g : prng R) lg arr r initial final simplify um dec fuse_width, load_cirq F ix g lg arr r circuit initial final simplify um dec fuse_width = Err Throw) /\
  (forall abs2 qubit_of (G : Type) (g : prng G) lg arr r simplify um dec fuse_width opt order n, sample_cirq F ix abs2 qubit_of g lg arr r simplify um dec fuse_width opt circuit order n = Return (Err Throw)).
Proof. intros K F ix circuit o H M U. split; intros; unfold load_cirq, sample_cirq; rewrite (cirq_refuses H M U); reflexivity. Qed.
Print Assumptions C69_cirq_refuses.

(** Sampling a circuit of Cirq gives its bitstrings with the probabilities that the
    circuit with its measurements has, if no gate acts on a qubit after it was measured. *)
Theorem C69_cirq_sample_partial : forall (K : Type) (F : nums K) (abs2 : K -> R) (ix : nat -> mark -> nat) (qubit_of : nat -> nat) (G : Type) (g : prng G) (lg : N -> Z)
    (arr : list nat -> list nat) (r : nat -> nat -> G) (simplify um dec : bool) (fuse_width : option Z) (opt : nat -> list (list nat) -> path)
    (circuit : cirq_circuit K) (qubit_order : option (list nat)),
  numbers F -> modulus F abs2 -> distinct ix -> (forall q m, qubit_of (ix q m) = q) -> prng_ok g -> (forall l, Permutation (arr l) l) -> names_normalized F ->
  (forall i ts, ts <> [] -> (forall xs, In xs ts -> NoDup xs) -> exists cs c, performs (length ts) (opt i ts) cs [c]) ->
  cirq_ok F circuit -> (forall h, In h (cirq_gates (concat circuit)) -> length (snd h) = 1 \/ permutation_gate F h) -> settled (flat_map events (concat circuit)) ->
  (forall o, qubit_order = Some o -> NoDup o /\ forall q, In q o <-> touches (cirq_gates (concat circuit)) q) ->
  exists qubits, NoDup qubits /\ (forall q, In q qubits <-> touches (cirq_gates (concat circuit)) q) /\ (forall o, qubit_order = Some o -> qubits = o) /\
    forall same n bss, length bss = n -> Forall (bitstring (length qubits)) bss ->
      chance (gives same (bss, qubits)) (sample_cirq F ix abs2 qubit_of g lg arr r simplify um dec fuse_width opt circuit qubit_order n) =
      fold_right Rmult 1%R (map (fun b => outcome F abs2 (flat_map events (concat circuit)) (zero_state F qubits) (reading qubits b)) bss).
Proof.
  intros K F abs2 ix qubit_of G g lg arr r simplify um dec fuse_width opt circuit qo NF MOD IX QO Hg Ha NN HP OK H1 S HO. destruct (cirq_fine OK) as [GG U].
  destruct (@C35_born_distribution K F abs2 ix qubit_of G g lg arr r simplify um dec fuse_width opt (cirq_gates (concat circuit)) qo) as (Q & NQ & IQ & EQ & C); auto; try (intros; apply GG; assumption).
  exists Q. repeat (split; [assumption|]). intros same n bss L B. unfold sample_cirq. rewrite (cirq_arrays U). rewrite (C same n bss L B). f_equal. apply map_ext_in. intros b Hb. unfold born.
  rewrite (outcome_settled NF MOD); auto. apply reading_bits. rewrite Forall_forall in B. apply (B b Hb).
Qed.
Print Assumptions C69_cirq_sample_partial.

(** A rotation, a measurement of the qubit, and the rotation again: the qubit is 0 at the
    end with probability 337/625, but sample gives it with probability 49/625. *)
Definition circuit_rmr : cirq_circuit (Qc * Qc) := [[mkCop false (Some gate_r) [0]]; [mkCop true None [0]]; [mkCop false (Some gate_r) [0]]].
Theorem C69_cirq_sample_refuted : cirq_ok gauss circuit_rmr /\ (forall h, In h (cirq_gates (concat circuit_rmr)) -> length (snd h) = 1) /\
  outcome gauss gauss_abs2 (flat_map events (concat circuit_rmr)) (zero_state gauss [0]) (reading [0] [0]) = (337 / 625)%R /\
  forall same arr r simplify um dec fuse_width, (forall l, Permutation (arr l) l) ->
    chance (gives same ([[0]], [0])) (sample_cirq gauss code gauss_abs2 decode ex_g (fun k => Z.of_N (N.log2 k)) arr r simplify um dec fuse_width any_path circuit_rmr (Some [0]) 1) = (49 / 625)%R.
Proof.
  assert (OK : cirq_ok gauss circuit_rmr).
  { assert (GR : is_gate (gate_r, [0]) /\ unitary gauss (gate_r, [0])) by (split; [apply gateb_ok|apply unitaryb_ok]; vm_compute; reflexivity).
    intros m Hm. assert (X : m = [mkCop false (Some gate_r) [0]] \/ m = [mkCop true None [0]]) by (simpl in Hm; intuition auto). split; [destruct X as [-> | ->]; repeat constructor; simpl; tauto|].
    intros o Ho M. destruct X as [-> | ->]; destruct Ho as [<-|[]]; [|discriminate]. exists gate_r. split; [reflexivity|exact GR]. }
  assert (L1 : forall h, In h (cirq_gates (concat circuit_rmr)) -> length (snd h) = 1) by (intros h [<-|[<-|[]]]; reflexivity).
  assert (V : forall x y, gauss_abs2 (Q2Qc x, Q2Qc y) = (Q2R x * Q2R x + Q2R y * Q2R y)%R).
  { intros x y. unfold gauss_abs2. cbn [fst snd]. rewrite <- !Q2R_mult, <- Q2R_plus. apply Qeq_eqR. unfold Qcplus, Qcmult. cbn [this Q2Qc]. rewrite !Qred_correct. reflexivity. }
  split; [exact OK|]. split; [exact L1|]. split.
  - cbn [circuit_rmr concat app flat_map events co_measures co_unitary co_qubits map outcome].
    match goal with |- (gauss_abs2 ?a + gauss_abs2 ?b)%R = _ => assert (E1 : a = (Q2Qc (9 # 25), Q2Qc 0)) by (apply rational_same; vm_compute; reflexivity); assert (E2 : b = (Q2Qc (-16 # 25), Q2Qc 0)) by (apply rational_same; vm_compute; reflexivity) end.
    rewrite E1, E2, !V. unfold Q2R. cbn. lra.
  - intros same arr r simplify um dec fuse_width Ha. destruct (cirq_fine OK) as [GG U].
    destruct (@C35_born_distribution _ gauss gauss_abs2 code decode _ ex_g (fun k => Z.of_N (N.log2 k)) arr r simplify um dec fuse_width any_path (cirq_gates (concat circuit_rmr)) (Some [0])) as (Q & NQ & IQ & EQ & C); auto; try (intros; apply GG; assumption).
    + exact gauss_numbers. + exact gauss_modulus. + exact code_distinct. + intros q m. unfold decode, code. rewrite Cantor.cancel_of_to. reflexivity. + exact ex_g_ok. + repeat split. + exact any_path_complete.
    + intros o E. injection E as <-. split; [repeat constructor; simpl; tauto|]. intros q. split; [intros [<-|[]]; exists (gate_r, [0]); simpl; auto|]. intros (h & Hh & Hq). destruct Hh as [<-|[<-|[]]]; exact Hq.
    + specialize (EQ [0] eq_refl). subst Q. unfold sample_cirq. rewrite (cirq_arrays U). rewrite (C same 1 [[0]]) by (reflexivity || (repeat constructor; simpl; lia)). cbn [map fold_right]. unfold born.
      match goal with |- (gauss_abs2 ?a * 1)%R = _ => assert (E1 : a = (Q2Qc (-7 # 25), Q2Qc 0)) by (apply rational_same; vm_compute; reflexivity) end.
      rewrite E1, V. unfold Q2R. cbn. lra.
Qed.
Print Assumptions C69_cirq_sample_refuted.

(** Loading a circuit of Qiskit gives a network for its amplitudes, up to a phase, if
    every gate does the same to its qubits in reversed order, as gates on one qubit do.
    Without simplify the phase is the global phase of the circuit, which is left out. *)
Theorem C69_qiskit_load_partial : forall (K : Type) (F : nums K) (ix : nat -> mark -> nat) (R : Type) (g : prng R) (lg : N -> Z) (arr : list nat -> list nat) (r : nat -> R)
    (circuit : qiskit_circuit K) (Q : list nat) (initial final : state_arg K) (simplify um dec : bool) (fuse_width : option Z),
  numbers F -> distinct ix -> prng_ok g -> (forall l, Permutation (arr l) l) ->
  qiskit_ok F circuit -> (forall h, In h (qiskit_gates circuit) -> length (snd h) = 1 \/ reversible_qubits F h) ->
  NoDup Q -> (forall q, In q Q <-> touches (qiskit_gates circuit) q) ->
  names_normalized F -> valid_state F Q initial -> valid_state F Q final -> proper_state initial -> proper_state final ->
  exists arrays ts os c, load_qiskit F ix g lg arr r circuit initial final simplify um dec fuse_width = Ok (arrays, ts, os) /\
    phase F c /\ (simplify = false -> c = qk_phase circuit) /\ NoDup os /\
    (forall x, In x os <-> open_end ix Q (closing F initial) (closing F final) x) /\
    forall ks V, NoDup ks -> (forall x, In x ks <-> In x (concat ts) /\ ~ In x os) -> bits V ->
      qiskit_amplitude F circuit Q (closing F initial) (closing F final) (fun q => V (ix q Ini)) (fun q => V (ix q Fin)) =
      mul (n_alg F) c (sum_over (n_alg F) (fun _ => 2) ks (network (n_alg F) arrays ts) V).
Proof. intros K F ix R g lg arr r circuit Q initial final simplify um dec fuse_width NF IX. exact (@qiskit_load K F NF ix IX R g lg arr r circuit Q initial final simplify um dec fuse_width). Qed.
Print Assumptions C69_qiskit_load_partial.

(** X on qubit 0, then CX with control 0 and target 1, as Qiskit writes their matrices,
    on the state '0': both qubits are 1. With any options, load gives a network in which
    this amplitude is 0. *)
Definition gate_cx_qiskit : nda (Qc * Qc) := let o := (Q2Qc 1, Q2Qc 0) in let z := (Q2Qc 0, Q2Qc 0) in
  mkA [4; 4] [o; z; z; z; z; z; z; o; z; z; o; z; z; o; z; z].
Definition circuit_xcx : qiskit_circuit (Qc * Qc) := mkQk [mkQop (Some gate_x) [0]; mkQop (Some gate_cx_qiskit) [0; 1]] (Q2Qc 1, Q2Qc 0).
Theorem C69_qiskit_load_refuted : qiskit_ok gauss circuit_xcx /\
  qiskit_amplitude gauss circuit_xcx [0; 1] (closing gauss (SStr T0)) (closing gauss SNone) (fun _ => 1) (fun _ => 1) = one gauss_alg /\
  forall (R : Type) (g : prng R) lg arr r simplify um dec fuse_width, prng_ok g -> (forall l, Permutation (arr l) l) ->
  exists arrays ts os, load_qiskit gauss code g lg arr r circuit_xcx (SStr T0) SNone simplify um dec fuse_width = Ok (arrays, ts, os) /\
    (forall x, In x os <-> x = code 0 Fin \/ x = code 1 Fin) /\
    forall ks, NoDup ks -> (forall x, In x ks <-> In x (concat ts) /\ ~ In x os) -> sum_over gauss_alg (fun _ => 2) ks (network gauss_alg arrays ts) (fun _ => 1) = zero gauss_alg.
Proof.
  assert (OK : qiskit_ok gauss circuit_xcx).
  { split; [apply rational_same; vm_compute; reflexivity|]. intros o Ho. destruct Ho as [<-|[<-|[]]]; eexists; (split; [reflexivity|]); (split; [apply gateb_ok|apply unitaryb_ok]; vm_compute; reflexivity). }
  split; [exact OK|]. split; [apply rational_same; vm_compute; reflexivity|].
  intros R g lg arr r simplify um dec fuse_width Hg Ha. destruct (qiskit_fine OK) as [G E].
  destruct (@C34_network_is_amplitude _ gauss code R g lg arr r (qiskit_gates circuit_xcx) [0; 1] (SStr T0) SNone simplify um dec fuse_width) as (arrays & ts & os & c & EL & Pc & Cs & _ & _ & _ & No & Io & _ & _ & _ & V); auto; try (intros; apply G; assumption).
  - exact gauss_numbers. - exact code_distinct. - repeat constructor; simpl; intuition lia.
  - intros q. split; [intros [<-|[<-|[]]]; exists (gate_cx_qiskit, [0; 1]); simpl; auto|]. intros (h & Hh & Hq). repeat (destruct Hh as [<-|Hh]; [simpl in *; tauto|]). destruct Hh.
  - repeat split. - simpl. discriminate. - exact I. - exact I. - exact I.
  - exists arrays, ts, os. unfold load_qiskit. rewrite E. split; [exact EL|]. split.
    + intros x. rewrite Io. split.
      * intros (q & Hq & [[_ H]|[-> _]]); [discriminate|]. destruct Hq as [<-|[<-|[]]]; auto.
      * intros [-> | ->]; [exists 0|exists 1]; simpl; auto.
    + intros ks Nk Ik. assert (H : bits (fun _ : nat => 1)) by (intros x; lia). specialize (V ks (fun _ => 1) Nk Ik H).
      assert (Z : amplitude gauss (qiskit_gates circuit_xcx) [0; 1] (closing gauss (SStr T0)) (closing gauss SNone) (fun _ => 1) (fun _ => 1) = zero gauss_alg) by (apply rational_same; vm_compute; reflexivity).
      cbv beta in V. rewrite Z in V. symmetry in V. apply (phase_kills gauss_numbers Pc V).
Qed.
Print Assumptions C69_qiskit_load_refuted.

(** The global phase is lost: X on one qubit with global phase -1, without simplify. *)
Definition circuit_minus : qiskit_circuit (Qc * Qc) := mkQk [mkQop (Some gate_x) [0]] (Q2Qc (-1), Q2Qc 0).
Theorem C69_qiskit_phase_refuted : qiskit_ok gauss circuit_minus /\
  qiskit_amplitude gauss circuit_minus [0] (closing gauss (SStr T0)) (closing gauss (SStr T1)) (fun _ => 0) (fun _ => 0) = (Q2Qc (-1), Q2Qc 0) /\
  load_qiskit gauss code ex_g (fun k => Z.of_N (N.log2 k)) (@rev nat) (fun n => n) circuit_minus (SStr T0) (SStr T1) false true false None =
    load_qiskit gauss code ex_g (fun k => Z.of_N (N.log2 k)) (@rev nat) (fun n => n) (mkQk (qk_ops circuit_minus) (Q2Qc 1, Q2Qc 0)) (SStr T0) (SStr T1) false true false None.
Proof.
  split. { split; [apply rational_same; vm_compute; reflexivity|]. intros o [<-|[]]. eexists. split; [reflexivity|]. split; [apply gateb_ok|apply unitaryb_ok]; vm_compute; reflexivity. }
  split; [apply rational_same; vm_compute; reflexivity|reflexivity].
Qed.
Print Assumptions C69_qiskit_phase_refuted.

(** A circuit of Qiskit with an instruction that has no matrix, as a measurement or a
    barrier, cannot be loaded, whatever else it has. *)
Theorem C69_qiskit_instructions_refuted : forall (K : Type) (F : nums K) (ix : nat -> mark -> nat) (R : Type) (g : prng R) lg arr r (circuit : qiskit_circuit K) o initial final simplify um dec fuse_width,
  In o (qk_ops circuit) -> qo_matrix o = None -> qo_qubits o <> [] ->
  forall net, load_qiskit F ix g lg arr r circuit initial final simplify um dec fuse_width <> Ok net.
Proof.
  intros K F ix R g lg arr r circuit o initial final simplify um dec fuse_width H M Q net. unfold load_qiskit.
  apply (@load_bad K F ix (mkA [] [zero (n_alg F)], qo_qubits o)); try reflexivity; [exact Q|]. unfold qiskit_to_arrays. apply in_map_iff. exists o. rewrite M. auto.
Qed.
Print Assumptions C69_qiskit_instructions_refuted.

(** Sampling a circuit of Qiskit raises whenever an optimizer is given, by position or by
    name; sample needs one, and a Sampler always gives one. *)
Theorem C69_qiskit_sample_refuted : (forall (X : Type) args keywords (loaded : res X), 0 < args \/ In "optimizer"%string keywords -> sample_qiskit args keywords loaded = Err Throw) /\
  In "optimizer"%string sampler_keywords.
Proof.
  split; [|left; reflexivity]. intros X args kws loaded [H|H]; unfold sample_qiskit; destruct (Nat.eqb_spec args 0) as [E|E]; cbn [negb]; auto; [lia|].
  destruct (forallb _ kws) eqn:B; cbn [negb]; auto. rewrite forallb_forall in B. specialize (B _ H). vm_compute in B. discriminate.
Qed.
Print Assumptions C69_qiskit_sample_refuted.

(** Two moments with a measurement at the end; and a circuit of Qiskit with a CZ gate. *)
Definition circuit_rcx : cirq_circuit (Qc * Qc) := [[mkCop false (Some gate_x) [2]; mkCop false (Some gate_r) [0]]; [mkCop false (Some gate_cx) [0; 1]; mkCop true None [2]]; [mkCop true None [1; 0]]].
Definition gate_cz : nda (Qc * Qc) := let o := (Q2Qc 1, Q2Qc 0) in let z := (Q2Qc 0, Q2Qc 0) in mkA [4; 4] [o; z; z; z; z; o; z; z; z; z; o; z; z; z; z; (Q2Qc (-1), Q2Qc 0)].
Definition circuit_rcz : qiskit_circuit (Qc * Qc) := mkQk [mkQop (Some gate_r) [0]; mkQop (Some gate_cz) [0; 1]] (Q2Qc (-1), Q2Qc 0).
Example C69_applies : cirq_ok gauss circuit_rcx /\ settled (flat_map events (concat circuit_rcx)) /\ (forall q, In q [0; 1; 2] <-> touches (cirq_gates (concat circuit_rcx)) q) /\
  (forall h, In h (cirq_gates (concat circuit_rcx)) -> length (snd h) = 1 \/ permutation_gate gauss h) /\
  qiskit_ok gauss circuit_rcz /\ reversible_qubits gauss (gate_cz, [0; 1]) /\ ~ reversible_qubits gauss (gate_cx_qiskit, [0; 1]).
Proof.
  assert (GG : forall m qs, gateb (m, qs) = true -> unitaryb (m, qs) = true -> is_gate (m, qs) /\ unitary gauss (m, qs)) by (intros; split; [apply gateb_ok|apply unitaryb_ok]; assumption).
  split. { intros m Hm. split; [destruct Hm as [<-|[<-|[<-|[]]]]; repeat constructor; simpl; intuition lia|]. intros o Ho M.
    destruct Hm as [<-|[<-|[<-|[]]]]; simpl in Ho; intuition (subst o; first [discriminate | eexists; split; [reflexivity|apply GG; vm_compute; reflexivity]]). }
  split. { cbn. repeat split; intros g Hg; repeat (destruct Hg as [Hg|Hg]; try discriminate; try (injection Hg as <-; simpl; lia)); try destruct Hg. }
  split. { intros q. split; [intros [<-|[<-|[<-|[]]]]; [exists (gate_r, [0])|exists (gate_cx, [0; 1])|exists (gate_x, [2])]; simpl; auto|]. intros (h & Hh & Hq). repeat (destruct Hh as [<-|Hh]; [simpl in *; tauto|]). destruct Hh. }
  split. { intros h Hh. destruct Hh as [<-|[<-|[<-|[]]]]; [left; reflexivity|left; reflexivity|]. right. apply (P_Classical.classical_ok gauss_numbers); [apply gateb_ok; vm_compute; reflexivity|vm_compute; reflexivity]. }
  split. { split; [apply rational_same; vm_compute; reflexivity|]. intros o [<-|[<-|[]]]; eexists; (split; [reflexivity|apply GG; vm_compute; reflexivity]). }
  split.
  - intros v w Bv Bw. unfold element, big_endian. cbn [fst snd rev app map]. pose proof (Bv 0). pose proof (Bv 1). pose proof (Bw 0). pose proof (Bw 1).
    assert (B2 : forall x, x < 2 -> x = 0 \/ x = 1) by (intros; lia).
    destruct (B2 (v 0)) as [E1|E1], (B2 (v 1)) as [E2|E2], (B2 (w 0)) as [E3|E3], (B2 (w 1)) as [E4|E4]; auto; rewrite ?E1, ?E2, ?E3, ?E4; reflexivity.
  - intros H. specialize (H (fun q => if q =? 0 then 1 else 0) (fun _ => 1)). assert (B1 : bits (fun q => if q =? 0 then 1 else 0)) by (intros q; destruct (q =? 0); lia). assert (B2 : bits (fun _ => 1)) by (intros q; lia).
    specialize (H B1 B2). vm_compute in H. discriminate.
Qed.
