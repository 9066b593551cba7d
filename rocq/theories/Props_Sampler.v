(** C68: the seed of a Sampler determines its samples. *)
From Coq Require Import List Arith ZArith NArith Lia Bool QArith Qcanon Qreals Reals Lra Permutation Sorted.
Import ListNotations.
From Verif Require Import M_Base M_Path M_Random M_Tensor M_Circuit M_Sampling S_Path S_Random S_Tensor S_Circuit S_Amplitude S_Sampling M_Sampler S_Sampler.
From Verif Require Import P_SamplerMain P_Gauss Props_Random Props_Amplitude Props_Sampling.
Local Open Scope nat_scope.

(** Two Samplers made with the same seed, given the same calls one after the other,
    return the same, call by call: the same bitstrings with the same counts, and the same
    exceptions. The calls may differ in the options that only concern the networks
    (simplify, use_matrix_commutation, decompose_hyper_inds, fuse), and everything that
    the seed does not fix may differ: the generators in load, the paths that are found.
    The order in which sets are iterated may differ too if every call gives an order of
    the qubits; otherwise it must be the same in both ([C68_seed_refuted]). *)
Theorem C68_seed_determines_samples_partial : forall (K : Type) (F : nums K) (abs2 : K -> R) (ix : nat -> mark -> nat) (qubit_of : nat -> nat) (G : Type) (g : prng G) (lg : N -> Z)
    (P : Type) (py_seed : nat -> P) (randrange : P -> nat * P) (random : nat -> nat -> R) (arr arr' : list nat -> list nat) seed w w' s s' (l l' : list (request K * chances G)),
  numbers F -> modulus F abs2 -> distinct ix -> (forall q m, qubit_of (ix q m) = q) -> prng_ok g -> names_normalized F ->
  (forall l, Permutation (arr l) l) -> (forall l, Permutation (arr' l) l) ->
  new_sampler py_seed randrange seed w = Ok s -> new_sampler py_seed randrange seed w' = Ok s' ->
  Forall2 (fun a b => alike (fst a) (fst b) /\ allowed F (fst a) /\ solves (snd a) /\ solves (snd b)) l l' ->
  arr = arr' \/ Forall (fun a => ordered (fst a)) l ->
  sampler_session F abs2 ix qubit_of g lg randrange random arr s [] l = sampler_session F abs2 ix qubit_of g lg randrange random arr' s' [] l'.
Proof.
  intros K F abs2 ix qubit_of G g lg P py_seed randrange random arr arr' seed w w' s s' l l' NF MOD IX QO Hg NN Ha Ha' E E' HL HO.
  assert (ES : sp_rng s = sp_rng s').
  { unfold new_sampler in E, E'. destruct (randrange (py_seed seed)) as [x r]. destruct (finite_width w); [discriminate|]. destruct (finite_width w'); [discriminate|]. injection E as <-. injection E' as <-. reflexivity. }
  apply (@session_twins K F NF abs2 MOD ix IX qubit_of QO G g lg Hg NN P randrange random arr arr' Ha Ha'); [|exact ES|constructor].
  clear E E' ES. revert HO. induction HL as [|a b l l' (H1 & H2 & H3 & H4) _ IH]; intros HO; constructor.
  - repeat split; auto. destruct HO as [HO|HO]; [left; exact HO|right; exact (Forall_inv HO)].
  - apply IH. destruct HO as [HO|HO]; [left; exact HO|right; exact (Forall_inv_tail HO)].
Qed.
Print Assumptions C68_seed_determines_samples_partial.

(** A call with a circuit gives what sampling that circuit alone gives, with a seed that
    depends only on the Sampler's seed and on how many calls came before: not on what
    they were, nor on whether they raised. So C35 speaks about each call. *)
Theorem C68_calls_do_not_interfere : forall (K : Type) (F : nums K) (abs2 : K -> R) (ix : nat -> mark -> nat) (qubit_of : nat -> nat) (G : Type) (g : prng G) (lg : N -> Z)
    (P : Type) (py_seed : nat -> P) (randrange : P -> nat * P) (random : nat -> nat -> R) (arr : list nat -> list nat) seed w s (l : list (request K * chances G)) k circuit o c c0,
  numbers F -> modulus F abs2 -> distinct ix -> (forall q m, qubit_of (ix q m) = q) -> prng_ok g -> names_normalized F -> (forall l, Permutation (arr l) l) ->
  new_sampler py_seed randrange seed w = Ok s -> nth_error l k = Some (Circuit circuit o, c) -> proper F circuit -> NoDup (order_of o) -> solves c -> solves c0 ->
  nth_error (sampler_session F abs2 ix qubit_of g lg randrange random arr s [] l) k =
    Some (alone_with F abs2 ix qubit_of g lg random arr circuit o c0 (seed_at randrange (py_seed seed) (S k))).
Proof. intros K F abs2 ix qubit_of G g lg P py_seed randrange random arr seed w s l k circuit o c c0 NF MOD IX QO Hg NN Ha E. rewrite (seed_after _ E). exact (@call_circuit K F NF abs2 MOD ix IX qubit_of QO G g lg Hg NN P randrange random arr Ha l k s circuit o c c0). Qed.
Print Assumptions C68_calls_do_not_interfere.

(** Sampling from an intermediate state that an earlier call returned gives what a call
    with the circuit would have given at that point; the state can be used again and again. *)
Theorem C68_intermediate_state : forall (K : Type) (F : nums K) (abs2 : K -> R) (ix : nat -> mark -> nat) (qubit_of : nat -> nat) (G : Type) (g : prng G) (lg : N -> Z)
    (P : Type) (py_seed : nat -> P) (randrange : P -> nat * P) (random : nat -> nat -> R) (arr : list nat -> list nat) seed w s (l : list (request K * chances G)) k j circuit o o' c c' c0,
  numbers F -> modulus F abs2 -> distinct ix -> (forall q m, qubit_of (ix q m) = q) -> prng_ok g -> names_normalized F -> (forall l, Permutation (arr l) l) ->
  new_sampler py_seed randrange seed w = Ok s -> j < k -> nth_error l j = Some (Only circuit o', c') -> nth_error l k = Some (Resume _ j o, c) ->
  proper F circuit -> NoDup (order_of o) -> solves c' -> solves c0 ->
  nth_error (sampler_session F abs2 ix qubit_of g lg randrange random arr s [] l) j = Some (Ok State) ->
  nth_error (sampler_session F abs2 ix qubit_of g lg randrange random arr s [] l) k =
    Some (alone_with F abs2 ix qubit_of g lg random arr circuit o c0 (seed_at randrange (py_seed seed) (S k))).
Proof. intros K F abs2 ix qubit_of G g lg P py_seed randrange random arr seed w s l k j circuit o o' c c' c0 NF MOD IX QO Hg NN Ha E. rewrite (seed_after _ E). exact (@call_resume K F NF abs2 MOD ix IX qubit_of QO G g lg Hg NN P randrange random arr Ha l k j s circuit o o' c c' c0). Qed.
Print Assumptions C68_intermediate_state.

(** With the same numbers drawn, two orders of the qubits give the same readings: in
    sample number i, each qubit has the same bit. *)
Theorem C68_order_only_reorders : forall (K : Type) (F : nums K) (abs2 : K -> R) (ix : nat -> mark -> nat) (qubit_of : nat -> nat) (G : Type) (g : prng G) (lg : N -> Z)
    (arr : list nat -> list nat) (circuit : list (gate K)) o o' (c c' : chances G) n u bs Q,
  numbers F -> modulus F abs2 -> distinct ix -> (forall q m, qubit_of (ix q m) = q) -> prng_ok g -> names_normalized F -> (forall l, Permutation (arr l) l) ->
  proper F circuit -> solves c -> solves c' -> NoDup (order_of o) -> NoDup (order_of o') ->
  play u (sample F abs2 ix qubit_of g lg arr (ch_r c) (op_simplify o) (op_commute o) (op_decompose o) (op_fuse o) (ch_opt c) circuit (op_order o) n) = Ok (bs, Q) ->
  (forall q, op_order o' = Some q -> forall x, In x q <-> touches circuit x) ->
  exists bs' Q', play u (sample F abs2 ix qubit_of g lg arr (ch_r c') (op_simplify o') (op_commute o') (op_decompose o') (op_fuse o') (ch_opt c') circuit (op_order o') n) = Ok (bs', Q') /\
    Permutation Q Q' /\ Forall2 (fun b b' => Permutation (combine Q b) (combine Q' b')) bs bs'.
Proof. intros K F abs2 ix qubit_of G g lg arr circuit o o' c c' n u bs Q NF MOD IX QO Hg NN Ha. exact (@orders_same K F NF abs2 MOD ix IX qubit_of QO G g lg Hg NN (fun _ _ => 0%R) arr Ha circuit o o' c c' n u bs Q). Qed.
Print Assumptions C68_order_only_reorders.

(** What is returned for the drawn bitstrings: each of them once, with the number of times
    it was drawn or, with normalize, that number divided by the number of samples; the
    most frequent first. *)
Theorem C68_report : forall o bs, length bs = op_samples o -> 0 < op_samples o ->
  NoDup (map fst (report o bs)) /\
  (forall b x, In (b, x) (report o bs) <-> In b bs /\ x = (INR (count_occ (list_eq_dec Nat.eq_dec) bs b) / INR (if op_normalize o then length bs else 1))%R) /\
  StronglySorted (fun x y => (snd y <= snd x)%R) (report o bs).
Proof. exact report_ok. Qed.
Print Assumptions C68_report.

(** A Sampler cannot be made with a finite max_width; NaN is taken for no limit. *)
Theorem C68_finite_width_refused : forall (P : Type) (py_seed : nat -> P) (randrange : P -> nat * P) seed w,
  new_sampler py_seed randrange seed w = Err Throw <-> w = WMinusInf \/ exists z, w = WNumber z.
Proof.
  intros P py_seed randrange seed w. unfold new_sampler. destruct (randrange (py_seed seed)) as [x r]. destruct w as [| | | |z]; cbn [finite_width]; split; intros H; try discriminate; eauto.
  all: destruct H as [H|(y & H)]; discriminate.
Qed.
Print Assumptions C68_finite_width_refused.

(** Without an order of the qubits the seed is not enough: where sets are iterated in
    another order, as in another process, the same calls give other bitstrings. *)
Definition plain (order : option (list nat)) : options := mkOptions true true true None order 1 false.
Definition circuit_x : list (gate (Qc * Qc)) := [(gate_x, [0]); (gate_x, [1]); (gate_x, [1])].
Definition ex_chances : chances nat := mkChances (fun _ n => n) any_path.
Theorem C68_seed_refuted : exists (arr arr' : list nat -> list nat) (s : sampler nat) (l : list (request (Qc * Qc) * chances nat)),
  (forall l, Permutation (arr l) l) /\ (forall l, Permutation (arr' l) l) /\ new_sampler (fun x => x) (fun p => (p, S p)) 5 WNone = Ok s /\
  Forall (fun a => allowed gauss (fst a) /\ solves (snd a)) l /\
  forall random, sampler_session gauss gauss_abs2 code decode ex_g (fun k => Z.of_N (N.log2 k)) (fun p => (p, S p)) random arr s [] l = [Ok (Samples [([1; 0], 1%R)] [0; 1])] /\
    sampler_session gauss gauss_abs2 code decode ex_g (fun k => Z.of_N (N.log2 k)) (fun p => (p, S p)) random arr' s [] l = [Ok (Samples [([0; 1], 1%R)] [1; 0])].
Proof.
  exists (fun l => l), (@rev nat), (mkSampler 6 5), [(Circuit circuit_x (plain None), ex_chances)]. split; [intros; apply Permutation_refl|]. split; [intros; apply Permutation_sym, Permutation_rev|]. split; [reflexivity|].
  split. { constructor; [|constructor]. split; [|exact any_path_complete]. split; [|constructor]. intros g Hg. cut (gateb g = true /\ unitaryb g = true). { intros [H1 H2]. split; [apply gateb_ok; auto|apply unitaryb_ok; auto]. }
    repeat (destruct Hg as [<-|Hg]; [split; vm_compute; reflexivity|]). destruct Hg. }
  intros random. cbn [sampler_session call_sampler sp_rng fst snd].
  assert (E : forall a, prepared gauss code decode ex_g (fun k => Z.of_N (N.log2 k)) a circuit_x (plain None) ex_chances = Ok ([Classical _ (mkA [2; 2] [false; true; true; false]) [0]; Classical _ (mkA [2; 2] [false; true; true; false]) [1]; Classical _ (mkA [2; 2] [false; true; true; false]) [1]], [0; 1])) by (intros a; vm_compute; reflexivity).
  rewrite !E. split; reflexivity.
Qed.
Print Assumptions C68_seed_refuted.

(** Two sessions of a circuit that does draw, with an intermediate state in between. *)
Example C68_applies : let l := [(Circuit circuit_3 (plain (Some [1; 0])), ex_chances); (Only circuit_3 (plain None), ex_chances); (Resume _ 1 (plain (Some [0; 1])), ex_chances)] in
  Forall2 (fun a b => alike (fst a) (fst b) /\ allowed gauss (fst a) /\ solves (snd a) /\ solves (snd b)) l l /\ Forall (fun a => ordered (fst a)) l /\
  (exists m, forall random, nth_error (sampler_session gauss gauss_abs2 code decode ex_g (fun k => Z.of_N (N.log2 k)) (fun p => (p, S p)) random (@rev nat) (mkSampler 6 5) [] l) 1 = Some (Ok m)) /\
  seed_at (fun p => (p, S p)) 6 2 = 8.
Proof.
  assert (GG : proper gauss circuit_3).
  { intros g Hg. cut (gateb g = true /\ unitaryb g = true). { intros [H1 H2]. split; [apply gateb_ok; auto|apply unitaryb_ok; auto]. }
    repeat (destruct Hg as [<-|Hg]; [split; vm_compute; reflexivity|]). destruct Hg. }
  assert (N1 : NoDup [1; 0]) by (repeat constructor; simpl; intuition lia). assert (N2 : NoDup [0; 1]) by (repeat constructor; simpl; intuition lia).
  cbv zeta. split. { repeat (apply Forall2_cons || apply Forall2_nil); (split; [repeat split|]; split; [cbn [fst allowed]; first [assumption | split; assumption]|]; split; exact any_path_complete). }
  split. { repeat constructor; discriminate. }
  split; [|reflexivity]. exists State. intros random. cbn [sampler_session call_sampler sp_rng nth_error].
  destruct (prepared gauss code decode ex_g (fun k => Z.of_N (N.log2 k)) (@rev nat) circuit_3 (plain None) ex_chances) as [m|e] eqn:E; [reflexivity|].
  exfalso. revert E. vm_compute. discriminate.
Qed.
