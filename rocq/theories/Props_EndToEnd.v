(** C44: from a circuit to its amplitudes with load, optimize and contract. *)
From Coq Require Import List Arith NArith ZArith Lia Permutation Bool QArith Qcanon Reals.
Import ListNotations.
From Verif Require Import M_Base M_Bitset M_Tree M_CTree M_Cost M_Opt M_InfMem M_FinWidth M_Path M_PyTree M_PyNodes M_Random M_Tensor M_Contract M_Circuit M_App M_Sampling.
From Verif Require Import S_Tree S_Opt S_FinWidth S_Path S_PyTree S_Random S_Network S_Tensor S_Contract S_Slice S_Circuit S_Amplitude S_Sampling S_App.
From Verif Require Import P_Gauss P_EndToEnd Props_InfMem Props_FinWidth Props_Random Props_Circuit Props_Amplitude Props_Sampling.
From Verif Require Import M_Path M_PyTree.
Local Open Scope nat_scope.

(** For every circuit, all options of load, and every run of the optimizer (any
    generator, schedule, acceptance rule, and whenever it is stopped): the network
    that load returns is contracted along the path that optimize returns to a
    single tensor; its indices are the open ends of the qubits, and its entries are
    the amplitudes of the circuit, up to a phase common to all of them (which is 1
    without simplification). *)
Theorem C44_amplitudes_infinite_memory : forall (K : Type) (F : nums K) (ix : nat -> mark -> nat) (R : Type) (g : prng R) (lg : N -> Z) (arr : list nat -> list nat) (r : nat -> R)
    (circuit : list (nda K * list nat)) (Q : list nat) (initial final : state_arg K) (simplify um dec : bool) (fuse_width : option Z)
    (P R' B : Type) (g' : prng P) pick (rule : B -> rand R') betas n_steps r' r0 stop,
  numbers F -> distinct ix -> prng_ok g -> (forall l, Permutation (arr l) l) ->
  (forall h, In h circuit -> is_gate h) -> (simplify || dec = true -> forall h, In h circuit -> unitary F h) ->
  NoDup Q -> (forall q, In q Q <-> touches circuit q) ->
  names_normalized F -> valid_state F Q initial -> valid_state F Q final -> proper_state initial -> proper_state final -> circuit <> [] ->
  prng_ok g' -> pick_ok pick ->
  exists arrays ts os c res zs os' az, load F ix g lg arr r circuit initial final simplify um dec fuse_width = Ok (arrays, ts, os) /\
    im_core ts (PyInt 2) os [] None g' pick rule betas n_steps r' r0 stop = Ok res /\
    contract (n_alg F) arr (ir_path res) ts (Some os) (Some arrays) None = Ok ([zs], os', Some [az]) /\
    phase F c /\ (simplify = false -> c = one (n_alg F)) /\
    NoDup zs /\ (forall x, In x zs <-> open_end ix Q (closing F initial) (closing F final) x) /\ well_shaped az /\ shape az = map (fun _ => 2) zs /\
    forall V, bits V ->
      amplitude F circuit Q (closing F initial) (closing F final) (fun q => V (ix q Ini)) (fun q => V (ix q Fin)) = mul (n_alg F) c (entry_at (n_alg F) az zs V).
Proof.
  intros K F ix R g lg arr r circuit Q initial final simplify um dec fuse_width P R' B g' pick rule betas n_steps r' r0 stop NF IX Hg Harr HG HU NQ HQ NN Vi Vf Pi Pf NE.
  exact (@amplitude_im K F NF ix IX R g lg arr r circuit Q initial final simplify um dec fuse_width Hg Harr HG HU NQ HQ NN Vi Vf Pi Pf NE P R' B g' pick rule betas n_steps r' r0 stop).
Qed.
Print Assumptions C44_amplitudes_infinite_memory.

(** The same with the slices of the optimizer with a limited width: for all values [w]
    of the sliced indices, the sliced network is contracted along the path to a
    single tensor; its indices are the open ends that are not sliced; and
    the amplitudes are the sums of its entries over the values of the sliced
    indices that are not open ends, up to a common phase. *)
Theorem C44_amplitudes_finite_width : forall (K : Type) (F : nums K) (ix : nat -> mark -> nat) (R : Type) (g : prng R) (lg : N -> Z) (arr : list nat -> list nat) (r : nat -> R)
    (circuit : list (nda K * list nat)) (Q : list nat) (initial final : state_arg K) (simplify um dec : bool) (fuse_width : option Z)
    (P R' B : Type) (g' : prng P) pick lg' mx (fr0 : frand R') (rule : B -> frand R') betas n_steps u r' r0 stop,
  numbers F -> distinct ix -> prng_ok g -> (forall l, Permutation (arr l) l) ->
  (forall h, In h circuit -> is_gate h) -> (simplify || dec = true -> forall h, In h circuit -> unitary F h) ->
  NoDup Q -> (forall q, In q Q <-> touches circuit q) ->
  names_normalized F -> valid_state F Q initial -> valid_state F Q final -> proper_state initial -> proper_state final -> circuit <> [] ->
  prng_ok g' -> pick_ok pick -> log_like lg' -> shuffles fr0 -> (forall b, shuffles (rule b)) -> (0 <= mx)%Z -> 0 < u ->
  exists arrays ts os c res zs os' (az : (nat -> nat) -> list (nda K) -> nda K), load F ix g lg arr r circuit initial final simplify um dec fuse_width = Ok (arrays, ts, os) /\
    fw_core ts (PyInt 2) os [] None g' pick lg' mx fr0 rule betas n_steps u r' r0 stop = Ok res /\
    (forall w, exists bs, slices_of (n_alg F) (fun _ => 2) (fr_slices res) w ts arrays bs) /\
    (forall w bs, slices_of (n_alg F) (fun _ => 2) (fr_slices res) w ts arrays bs ->
       contract (n_alg F) arr (fr_path res) (map (unsliced (fr_slices res)) ts) (Some (unsliced (fr_slices res) os)) (Some bs) None = Ok ([zs], os', Some [az w bs])) /\
    phase F c /\ (simplify = false -> c = one (n_alg F)) /\
    NoDup zs /\ (forall x, In x zs <-> open_end ix Q (closing F initial) (closing F final) x /\ ~ In x (fr_slices res)) /\
    forall (bs : (nat -> nat) -> list (nda K)) ks V, (forall w, slices_of (n_alg F) (fun _ => 2) (fr_slices res) w ts arrays (bs w)) ->
      NoDup ks -> (forall x, In x ks <-> In x (fr_slices res) /\ ~ open_end ix Q (closing F initial) (closing F final) x) -> bits V ->
      amplitude F circuit Q (closing F initial) (closing F final) (fun q => V (ix q Ini)) (fun q => V (ix q Fin)) =
      mul (n_alg F) c (sum_over (n_alg F) (fun _ => 2) ks (fun w => entry_at (n_alg F) (az w (bs w)) zs w) V).
Proof.
  intros K F ix R g lg arr r circuit Q initial final simplify um dec fuse_width P R' B g' pick lg' mx fr0 rule betas n_steps u r' r0 stop NF IX Hg Harr HG HU NQ HQ NN Vi Vf Pi Pf NE.
  exact (@amplitude_fw K F NF ix IX R g lg arr r circuit Q initial final simplify um dec fuse_width Hg Harr HG HU NQ HQ NN Vi Vf Pi Pf NE P R' B g' pick lg' mx fr0 rule betas n_steps u r' r0 stop).
Qed.
Print Assumptions C44_amplitudes_finite_width.

(** Sampling, with the paths of the optimizer: the bitstrings have the Born
    distribution and are independent. In [opt], the path for the network of each
    gate is that of some run of the optimizer. *)
Theorem C44_sampling_infinite_memory : forall (K : Type) (F : nums K) (abs2 : K -> R) (ix : nat -> mark -> nat) (qubit_of : nat -> nat) (G : Type) (g : prng G) (lg : N -> Z)
    (arr : list nat -> list nat) (r : nat -> nat -> G) (simplify um dec : bool) (fuse_width : option Z) (opt : nat -> list (list nat) -> path)
    (circuit : list (nda K * list nat)) (qubit_order : option (list nat))
    (P R' B : Type) (g' : prng P) pick (rule : B -> rand R') betas n_steps,
  prng_ok g' -> pick_ok pick ->
  (forall i ts, exists r' r0 stop, forall res, im_core ts (PyInt 2) [] [] None g' pick rule betas n_steps r' r0 stop = Ok res -> opt i ts = ir_path res) ->
  numbers F -> modulus F abs2 -> distinct ix -> (forall q m, qubit_of (ix q m) = q) -> prng_ok g -> (forall l, Permutation (arr l) l) -> names_normalized F ->
  (forall h, In h circuit -> is_gate h) -> (forall h, In h circuit -> unitary F h) ->
  (forall h, In h circuit -> length (snd h) = 1 \/ permutation_gate F h) ->
  (forall o, qubit_order = Some o -> NoDup o /\ forall q, In q o <-> touches circuit q) ->
  exists qubits, NoDup qubits /\ (forall q, In q qubits <-> touches circuit q) /\ (forall o, qubit_order = Some o -> qubits = o) /\
    forall same n bss, length bss = n -> Forall (bitstring (length qubits)) bss ->
      chance (gives same (bss, qubits)) (sample F abs2 ix qubit_of g lg arr r simplify um dec fuse_width opt circuit qubit_order n) =
      fold_right Rmult 1%R (map (born F abs2 circuit qubits) bss).
Proof.
  intros K F abs2 ix qubit_of G g lg arr r simplify um dec fuse_width opt circuit qo P R' B g' pick rule betas n_steps Hg' Hp HO NF MOD IX QO Hg Harr NN HG HU H1 HQ.
  apply C35_born_distribution; auto. exact (optimized_im Hg' Hp HO).
Qed.
Print Assumptions C44_sampling_infinite_memory.
Theorem C44_sampling_finite_width : forall (K : Type) (F : nums K) (abs2 : K -> R) (ix : nat -> mark -> nat) (qubit_of : nat -> nat) (G : Type) (g : prng G) (lg : N -> Z)
    (arr : list nat -> list nat) (r : nat -> nat -> G) (simplify um dec : bool) (fuse_width : option Z) (opt : nat -> list (list nat) -> path)
    (circuit : list (nda K * list nat)) (qubit_order : option (list nat))
    (P R' B : Type) (g' : prng P) pick lg' mx (fr0 : frand R') (rule : B -> frand R') betas n_steps u,
  prng_ok g' -> pick_ok pick -> log_like lg' -> shuffles fr0 -> (forall b, shuffles (rule b)) -> (0 <= mx)%Z -> 0 < u ->
  (forall i ts, exists r' r0 stop, forall res, fw_core ts (PyInt 2) [] [] None g' pick lg' mx fr0 rule betas n_steps u r' r0 stop = Ok res -> opt i ts = fr_path res) ->
  numbers F -> modulus F abs2 -> distinct ix -> (forall q m, qubit_of (ix q m) = q) -> prng_ok g -> (forall l, Permutation (arr l) l) -> names_normalized F ->
  (forall h, In h circuit -> is_gate h) -> (forall h, In h circuit -> unitary F h) ->
  (forall h, In h circuit -> length (snd h) = 1 \/ permutation_gate F h) ->
  (forall o, qubit_order = Some o -> NoDup o /\ forall q, In q o <-> touches circuit q) ->
  exists qubits, NoDup qubits /\ (forall q, In q qubits <-> touches circuit q) /\ (forall o, qubit_order = Some o -> qubits = o) /\
    forall same n bss, length bss = n -> Forall (bitstring (length qubits)) bss ->
      chance (gives same (bss, qubits)) (sample F abs2 ix qubit_of g lg arr r simplify um dec fuse_width opt circuit qubit_order n) =
      fold_right Rmult 1%R (map (born F abs2 circuit qubits) bss).
Proof.
  intros K F abs2 ix qubit_of G g lg arr r simplify um dec fuse_width opt circuit qo P R' B g' pick lg' mx fr0 rule betas n_steps u Hg' Hp Hl Hf0 Hfr Hmx Hu HO NF MOD IX QO Hg Harr NN HG HU H1 HQ.
  apply C35_born_distribution; auto. exact (optimized_fw Hg' Hp Hl Hf0 Hfr Hmx Hu HO).
Qed.
Print Assumptions C44_sampling_finite_width.

Definition rule1 (_ : unit) : rand nat := ex_rd.
Definition frule1 (_ : unit) : frand nat := fx_fr.
(** The circuit of C34, one qubit open at the start, one at the end; max_width 2. *)
Definition net_2 := load gauss code ex_g (fun k => Z.of_N (N.log2 k)) (@rev nat) (fun n => n) circuit_2 start_2 end_2 true true false None.
Definition value_im : res (list (list nat) * list nat * option (list (nda (Qc * Qc)))) :=
  let! (r, os) := net_2 in
  let (arrays, ts) := r in
  let! x := im_core ts (PyInt 2) os [] None ex_g ex_pick rule1 [tt; tt] None 0 0 (fun _ => 2) in
  contract gauss_alg (@rev nat) (ir_path x) ts (Some os) (Some arrays) None.
Definition sliced_fw : res (list nat) :=
  let! (r, os) := net_2 in
  let (arrays, ts) := r in
  let! x := fw_core ts (PyInt 2) os [] None ex_g ex_pick lg2 2%Z fx_fr frule1 [tt; tt] None 1 0 0 (fun _ => 2) in
  Ok (fr_slices x).
Definition opt_im (i : nat) (ts : list (list nat)) : path :=
  match im_core ts (PyInt 2) [] [] None ex_g ex_pick rule1 [tt; tt] None 0 0 (fun _ => 2) with Ok x => ir_path x | Err _ => [] end.
Example C44_applies : numbers gauss /\ distinct code /\ prng_ok ex_g /\ pick_ok ex_pick /\ log_like lg2 /\ shuffles fx_fr /\
  (forall h, In h circuit_2 -> is_gate h /\ unitary gauss h) /\ (forall q, In q [0; 1] <-> touches circuit_2 q) /\
  names_normalized gauss /\ valid_state gauss [0; 1] start_2 /\ valid_state gauss [0; 1] end_2 /\ proper_state start_2 /\ proper_state end_2 /\
  (exists a, value_im = Ok ([[code 0 Fin; code 1 Ini]], [code 0 Fin; code 1 Ini], Some [a]) /\ shape a = [2; 2] /\ fst (entry gauss_alg a [1; 0]) = Q2Qc (-16 # 25)) /\
  (exists k, sliced_fw = Ok [k; code 1 Ini] /\ k <> code 0 Fin) /\
  (forall i ts, exists r' r0 stop, forall res, im_core ts (PyInt 2) [] [] None ex_g ex_pick rule1 [tt; tt] None r' r0 stop = Ok res -> opt_im i ts = ir_path res).
Proof.
  destruct C34_applies as (H1 & H2 & H3 & H4 & H5 & H6 & H7 & H8 & H9 & H10 & _). repeat (split; [assumption|]). split; [exact ex_pick_ok|]. split; [exact lg2_log|]. split; [exact fx_shuffles|]. repeat (split; [assumption|]).
  split. { assert (X : exists a, value_im = Ok ([[code 0 Fin; code 1 Ini]], [code 0 Fin; code 1 Ini], Some [a])) by (vm_compute; eexists; reflexivity).
    destruct X as (a & E). exists a. split; [exact E|]. vm_compute in E. inversion E; subst a. clear E. split; [reflexivity|]. apply Qc_is_canon. reflexivity. }
  split. { exists 19. split; vm_compute; [reflexivity|discriminate]. }
  intros i ts. exists 0, 0, (fun _ => 2). intros res E. unfold opt_im. rewrite E. reflexivity.
Qed.
