(** C35: sampling a circuit gives bitstrings with the exact probabilities. *)
From Coq Require Import List Arith ZArith NArith Lia Bool QArith Qcanon Qreals Reals Lra Permutation Sorted.
Import ListNotations.
From Verif Require Import M_Base M_Path M_Random M_Tensor M_Circuit M_Sampling S_Path S_Random S_Tensor S_Circuit S_Amplitude S_Sampling.
From Verif Require Import P_SampleMain P_Gauss Props_Random Props_Amplitude.
Local Open Scope nat_scope.

(** For every circuit of unitary gates of which those on two or more qubits permute
    the basis up to phases, and independent uniform draws from [0, 1): the
    probability that sample returns the bitstrings [bss] is the product of their
    Born probabilities, so each bitstring has the Born distribution and they are
    independent. The qubits are in the order that was asked for. For any numbers
    with conjugation and absolute value, any options of load, any generator there,
    any iteration order of sets, and any complete contraction paths. *)
Theorem C35_born_distribution : forall (K : Type) (F : nums K) (abs2 : K -> R) (ix : nat -> mark -> nat) (qubit_of : nat -> nat) (G : Type) (g : prng G) (lg : N -> Z)
    (arr : list nat -> list nat) (r : nat -> nat -> G) (simplify um dec : bool) (fuse_width : option Z) (opt : nat -> list (list nat) -> path)
    (circuit : list (nda K * list nat)) (qubit_order : option (list nat)),
  numbers F -> modulus F abs2 -> distinct ix -> (forall q m, qubit_of (ix q m) = q) -> prng_ok g -> (forall l, Permutation (arr l) l) -> names_normalized F ->
  (forall i ts, ts <> [] -> (forall xs, In xs ts -> NoDup xs) -> exists cs c, performs (length ts) (opt i ts) cs [c]) ->
  (forall h, In h circuit -> is_gate h) -> (forall h, In h circuit -> unitary F h) ->
  (forall h, In h circuit -> length (snd h) = 1 \/ permutation_gate F h) ->
  (forall o, qubit_order = Some o -> NoDup o /\ forall q, In q o <-> touches circuit q) ->
  exists qubits, NoDup qubits /\ (forall q, In q qubits <-> touches circuit q) /\ (forall o, qubit_order = Some o -> qubits = o) /\
    forall same n bss, length bss = n -> Forall (bitstring (length qubits)) bss ->
      chance (gives same (bss, qubits)) (sample F abs2 ix qubit_of g lg arr r simplify um dec fuse_width opt circuit qubit_order n) =
      fold_right Rmult 1%R (map (born F abs2 circuit qubits) bss).
Proof.
  intros K F abs2 ix qubit_of G g lg arr r simplify um dec fuse_width opt circuit qo NF MOD IX QO Hg Harr NN HP HG HU H1 HO.
  assert (OF : order_fits circuit qo) by (destruct qo as [o|]; [apply HO; reflexivity|exact I]). destruct (order_ok Harr OF) as [NQ IQ].
  exists (order arr circuit qo). split; [exact NQ|]. split; [exact IQ|]. split; [intros o ->; reflexivity|]. intros same n bss L B. apply (@sample_chance K F NF abs2 MOD ix IX qubit_of QO); assumption.
Qed.
Print Assumptions C35_born_distribution.

(** Whatever numbers in [0, 1) are drawn, sample returns as many bitstrings as asked
    for, and all of them have a positive Born probability. *)
Theorem C35_every_run_succeeds : forall (K : Type) (F : nums K) (abs2 : K -> R) (ix : nat -> mark -> nat) (qubit_of : nat -> nat) (G : Type) (g : prng G) (lg : N -> Z)
    (arr : list nat -> list nat) (r : nat -> nat -> G) (simplify um dec : bool) (fuse_width : option Z) (opt : nat -> list (list nat) -> path)
    (circuit : list (nda K * list nat)) (qubit_order : option (list nat)),
  numbers F -> modulus F abs2 -> distinct ix -> (forall q m, qubit_of (ix q m) = q) -> prng_ok g -> (forall l, Permutation (arr l) l) -> names_normalized F ->
  (forall i ts, ts <> [] -> (forall xs, In xs ts -> NoDup xs) -> exists cs c, performs (length ts) (opt i ts) cs [c]) ->
  (forall h, In h circuit -> is_gate h) -> (forall h, In h circuit -> unitary F h) ->
  (forall h, In h circuit -> length (snd h) = 1 \/ permutation_gate F h) ->
  (forall o, qubit_order = Some o -> NoDup o /\ forall q, In q o <-> touches circuit q) ->
  exists qubits, NoDup qubits /\ (forall q, In q qubits <-> touches circuit q) /\ (forall o, qubit_order = Some o -> qubits = o) /\
    forall n u, (forall i, 0 <= u i < 1)%R ->
      exists bss, play u (sample F abs2 ix qubit_of g lg arr r simplify um dec fuse_width opt circuit qubit_order n) = Ok (bss, qubits) /\
        length bss = n /\ Forall (fun bs => bitstring (length qubits) bs /\ (0 < born F abs2 circuit qubits bs)%R) bss.
Proof.
  intros K F abs2 ix qubit_of G g lg arr r simplify um dec fuse_width opt circuit qo NF MOD IX QO Hg Harr NN HP HG HU H1 HO.
  assert (OF : order_fits circuit qo) by (destruct qo as [o|]; [apply HO; reflexivity|exact I]). destruct (order_ok Harr OF) as [NQ IQ].
  exists (order arr circuit qo). split; [exact NQ|]. split; [exact IQ|]. split; [intros o ->; reflexivity|]. intros n u Hu. apply (@sample_possible K F NF abs2 MOD ix IX qubit_of QO); assumption.
Qed.
Print Assumptions C35_every_run_succeeds.

(** A gate on several qubits that does not permute the basis, or an order of other
    qubits than those of the circuit, is refused before anything is drawn. *)
Theorem C35_refuses : forall (K : Type) (F : nums K) (abs2 : K -> R) (ix : nat -> mark -> nat) (qubit_of : nat -> nat) (G : Type) (g : prng G) (lg : N -> Z)
    (arr : list nat -> list nat) (r : nat -> nat -> G) (simplify um dec : bool) (fuse_width : option Z) (opt : nat -> list (list nat) -> path)
    (circuit : list (nda K * list nat)) (qubit_order : option (list nat)) (n : nat),
  numbers F -> (forall h, In h circuit -> is_gate h) ->
  (exists h, In h circuit /\ length (snd h) <> 1 /\ ~ permutation_gate F h) \/ (exists o, qubit_order = Some o /\ ~ forall q, In q o <-> touches circuit q) ->
  sample F abs2 ix qubit_of g lg arr r simplify um dec fuse_width opt circuit qubit_order n = Return (Err Throw).
Proof. intros K F abs2 ix qubit_of G g lg arr r simplify um dec fuse_width opt circuit qo n NF. exact (@sample_refuses K F NF abs2 ix qubit_of G g lg arr r simplify um dec fuse_width opt circuit qo n). Qed.
Print Assumptions C35_refuses.

(** The dict that is returned has every bitstring once, with the number of times it
    was drawn, the most frequent first. *)
Theorem C35_counts : forall bss,
  NoDup (map fst (counts bss)) /\ (forall b c, In (b, c) (counts bss) <-> In b bss /\ c = count_occ (list_eq_dec Nat.eq_dec) bss b) /\
  StronglySorted (fun x y => snd y <= snd x) (counts bss).
Proof. exact counts_ok. Qed.
Print Assumptions C35_counts.

(** With normalize, every bitstring comes with the fraction of the samples that gave
    it; the fractions add up to 1. *)
Theorem C35_fractions : forall bss, bss <> [] ->
  NoDup (map fst (fractions (length bss) (counts bss))) /\
  (forall b x, In (b, x) (fractions (length bss) (counts bss)) <-> In b bss /\ x = (INR (count_occ (list_eq_dec Nat.eq_dec) bss b) / INR (length bss))%R) /\
  fold_right Rplus 0%R (map snd (fractions (length bss) (counts bss))) = 1%R /\
  StronglySorted (fun x y => (snd y <= snd x)%R) (fractions (length bss) (counts bss)).
Proof. exact fractions_ok. Qed.
Print Assumptions C35_fractions.

(** A rotation, a CX gate, and a rotation of the second qubit. *)
Definition gauss_abs2 (x : Qc * Qc) : R := Q2R (fst x * fst x + snd x * snd x)%Qc.
Definition decode (x : nat) : nat := fst (Cantor.of_nat x).
Definition any_path (i : nat) (ts : list (list nat)) : path := repeat (0, 1) (length ts - 1).
Definition circuit_3 : list (nda (Qc * Qc) * list nat) := [(gate_r, [0]); (gate_cx, [0; 1]); (gate_r, [1])].
Lemma gauss_modulus : modulus gauss gauss_abs2.
Proof.
  assert (QR : forall x y : Qc, Q2R (x + y)%Qc = (Q2R x + Q2R y)%R).
  { intros x y. rewrite <- Q2R_plus. apply Qeq_eqR. unfold Qcplus. cbn [this]. apply Qred_correct. }
  exists (fun x : Qc * Qc => Q2R (fst x)). split; [intros x y; apply QR|]. split; [unfold Q2R; cbn; lra|]. split; [|split].
  - intros [a b]. unfold gauss_abs2. cbn [n_alg gauss gauss_alg mul n_conj fst snd]. f_equal. f_equal. ring.
  - intros [a b]. unfold gauss_abs2. cbn [fst snd]. replace 0%R with (Q2R 0) by (unfold Q2R; cbn; lra). apply Qle_Rle. change (0 <= a * a + b * b)%Qc.
    replace (0%Qc) with (0 + 0)%Qc by ring. apply Qcplus_le_compat; apply qc_sq.
  - intros [a b] H. unfold gauss_abs2 in H. cbn [fst snd] in H. assert (E : (a * a + b * b)%Qc = Q2Qc 0).
    { apply Qc_is_canon. change (this (Q2Qc 0)) with 0%Q. apply eqR_Qeq. rewrite H. unfold Q2R. cbn. lra. }
    apply qc_norm in E. destruct E as [-> ->]. reflexivity.
Qed.
Lemma any_path_complete : forall i ts, ts <> [] -> (forall xs, In xs ts -> NoDup xs) -> exists cs c, performs (length ts) (any_path i ts) cs [c].
Proof.
  intros i ts H _. unfold performs, any_path.
  assert (G : forall n l, length l = S n -> exists cs c, perform l (repeat (0, 1) n) = Some (cs, [c])).
  { induction n as [|n IH]; intros l L; [destruct l as [|c [|]]; try discriminate; exists [], c; reflexivity|]. destruct l as [|a [|b l]]; try discriminate. cbn [repeat perform nth_error Nat.eqb without without_from orb].
    assert (W : without_from 2 0 1 l = l). { assert (X : forall (l : list term) k, without_from (S (S k)) 0 1 l = l); [|apply (X l 0)]. clear. induction l as [|a l IH]; intros j; auto. cbn [without_from Nat.eqb orb]. rewrite IH. auto. }
    unfold without. cbn [without_from Nat.eqb orb]. rewrite W. destruct (IH (l ++ [join a b])) as (cs & c & E); [rewrite app_length; simpl in *; lia|]. rewrite E. eauto. }
  apply G. rewrite map_length, seq_length. destruct ts; [tauto|]. simpl. lia.
Qed.
Example C35_applies : numbers gauss /\ modulus gauss gauss_abs2 /\ distinct code /\ (forall q m, decode (code q m) = q) /\ prng_ok ex_g /\ names_normalized gauss /\
  (forall i ts, ts <> [] -> (forall xs, In xs ts -> NoDup xs) -> exists cs c, performs (length ts) (any_path i ts) cs [c]) /\
  (forall h, In h circuit_3 -> is_gate h /\ unitary gauss h /\ (length (snd h) = 1 \/ permutation_gate gauss h)) /\
  (forall q, In q [1; 0] <-> touches circuit_3 q) /\
  born gauss gauss_abs2 circuit_3 [1; 0] [1; 0] = (144 / 625)%R /\ born gauss gauss_abs2 circuit_3 [1; 0] [0; 1] = (256 / 625)%R /\
  ~ permutation_gate gauss (gate_r, [0]) /\
  sample gauss gauss_abs2 code decode ex_g (fun k => Z.of_N (N.log2 k)) (@rev nat) (fun _ n => n) true true true None any_path circuit_3 (Some [0; 1; 2]) 3 = Return (Err Throw) /\
  counts [[0; 1]; [1; 0]; [1; 0]] = [([1; 0], 2); ([0; 1], 1)].
Proof.
  split; [exact gauss_numbers|]. split; [exact gauss_modulus|]. split; [exact code_distinct|]. split; [intros q m; unfold decode, code; rewrite Cantor.cancel_of_to; reflexivity|]. split; [exact ex_g_ok|].
  split; [repeat split|]. split; [exact any_path_complete|].
  assert (GG : forall h, In h circuit_3 -> is_gate h /\ unitary gauss h).
  { intros g Hg. cut (gateb g = true /\ unitaryb g = true). { intros [H1 H2]. split; [apply gateb_ok; auto|apply unitaryb_ok; auto]. }
    repeat (destruct Hg as [<-|Hg]; [split; vm_compute; reflexivity|]). destruct Hg. }
  split. { intros h Hh. split; [apply GG; auto|]. split; [apply GG; auto|]. destruct Hh as [<-|[<-|[<-|[]]]]; [left; reflexivity| |left; reflexivity].
    right. apply (P_Classical.classical_ok gauss_numbers); [apply GG; right; left; reflexivity|]. vm_compute. reflexivity. }
  split. { intros q. split; [intros [<-|[<-|[]]]; exists (gate_cx, [0; 1]); simpl; auto|]. intros (h & Hh & Hq). repeat (destruct Hh as [<-|Hh]; [simpl in *; tauto|]). destruct Hh. }
  assert (V : forall b x, run gauss circuit_3 (zero_state gauss [1; 0]) (reading [1; 0] b) = (Q2Qc x, Q2Qc 0) -> born gauss gauss_abs2 circuit_3 [1; 0] b = (Q2R x * Q2R x)%R).
  { intros b x E. unfold born, gauss_abs2. rewrite E. cbn [fst snd]. rewrite <- Q2R_mult. apply Qeq_eqR. unfold Qcplus, Qcmult. cbn [this Q2Qc]. rewrite !Qred_correct. ring. }
  split. { rewrite (V _ (-12 # 25)%Q); [unfold Q2R; cbn; lra|]. vm_compute. repeat f_equal; apply Qc_is_canon; reflexivity. }
  split. { rewrite (V _ (-16 # 25)%Q); [unfold Q2R; cbn; lra|]. vm_compute. repeat f_equal; apply Qc_is_canon; reflexivity. }
  split. { intros H. apply (P_Classical.classical_ok gauss_numbers) in H; [vm_compute in H; discriminate|]. apply GG. left. reflexivity. }
  split; [|reflexivity]. unfold sample. replace (prepare _ _ _ _ _ _ _ _ _ _ _ _ _ _) with (@Err (list (operation (Qc * Qc)) * list nat) Throw) by (vm_compute; reflexivity). reflexivity.
Qed.
