(** sample draws bitstrings with the Born probabilities. *)
From Coq Require Import List Arith NArith ZArith Reals Lia Lra Permutation Bool Ring.
Import ListNotations.
From Verif Require Import P_Base P_Opt P_PyMain.
From Verif Require Import M_Base M_Path M_PyTree M_OSet M_Random M_Fuse M_Tensor M_Contract M_Decompose M_Circuit M_Sampling S_Path S_Random S_Tensor S_Circuit S_Amplitude S_Sampling.
From Verif Require Import P_Path P_Split P_PathMain P_PyBuild P_OSet P_Fuse P_Sum P_Array P_ContractMain P_Circuit P_Gates P_Same P_Amplitude P_Load P_SampleNet P_Classical P_Draws P_Born.
From Verif Require Import M_Path M_PyTree.
Set Implicit Arguments.
Unset Strict Implicit.
Local Open Scope nat_scope.
Local Notation two := (fun _ : nat => 2).

(** ** Sums *)
Lemma put_ext (P : nat -> Prop) qs : forall bs v w, (forall x, P x -> v x = w x) -> forall x, P x -> put v qs bs x = put w qs bs x.
Proof.
  unfold put. induction qs as [|q qs IH]; intros [|b bs] v w H x Hx; cbn [combine fold_left]; auto. apply IH; auto. intros y Hy. unfold assign. cbn [fst snd]. destruct (y =? q); auto.
Qed.
Lemma put_off qs bs v w x : NoDup qs -> length bs = length qs -> (forall y, ~ In y qs -> v y = w y) -> put v qs bs x = put w qs bs x.
Proof.
  intros N L H. destruct (in_dec Nat.eq_dec x qs) as [Hx|Hx]; [|rewrite !put_out; auto]. pose proof (put_in v N L) as E1. rewrite <- (put_in w N L) in E1 at 2. apply (ext_in_map E1). auto.
Qed.
Lemma after_ext (s : nat -> nat) qs Q v w : incl qs Q -> (forall x, In x Q -> v x = w x) -> forall x, In x Q -> after s qs v x = after s qs w x.
Proof.
  intros I H x Hx. unfold after. replace (map w qs) with (map v qs) by (apply map_ext_in; auto). apply (@put_ext (fun x => In x Q)); auto.
Qed.
Lemma sum_after (s : nat -> nat) qs Q (Phi : (nat -> nat) -> R) z : NoDup Q -> NoDup qs -> incl qs Q -> depends_on Q Phi ->
  (forall j, j < 2 ^ length qs -> s j < 2 ^ length qs) -> (forall i j, i < 2 ^ length qs -> j < 2 ^ length qs -> s i = s j -> i = j) -> bits z ->
  soR Q (fun v => Phi (after s qs v)) z = soR Q Phi z.
Proof.
  intros N Nq I D B J Bz.
  rewrite (@so_perm R AR SRR two Q (rest Q qs ++ qs) (fun v => Phi (after s qs v)) Q); [|intros v w H; apply D, after_ext; auto|apply rest_perm; auto].
  rewrite (@so_perm R AR SRR two Q (rest Q qs ++ qs) Phi Q); [|auto|apply rest_perm; auto]. rewrite !so_app. apply so_ext. intros v Hv Rv.
  assert (Bv : bits v). { intros x. destruct (in_dec Nat.eq_dec x (rest Q qs)) as [Hx|Hx]; [apply Rv; auto|rewrite Hv; auto]. }
  set (phi := fun i => Phi (put v qs (to_bits (length qs) i))).
  transitivity (soR qs (fun w => phi (s (number (map w qs)))) v).
  - apply so_ext. intros w Hw _. unfold phi, after. apply D. intros x _. apply put_off; auto using to_bits_len.
  - transitivity (soR qs (fun w => phi (number (map w qs))) v).
    + rewrite (@sum_number R FR NR qs (fun i => phi (s i)) v Nq), (@sum_number R FR NR qs phi v Nq). apply sum_perm, inj_perm; auto.
    + apply so_ext. intros w Hw Rw. unfold phi. apply D. intros x _. apply put_number; auto. intros y. destruct (in_dec Nat.eq_dec y qs) as [Hy|Hy]; [apply Rw; auto|rewrite Hw; auto].
Qed.

Section Sampling.
Variable K : Type.
Variable F : nums K.
Local Notation A := (n_alg F).
Hypothesis NF : numbers F.
Let SR : semiring A := num_ring _ NF.
Let SR1 : semi_ring_theory (zero A) (one A) (add A) (mul A) eq := num_ring _ NF.
Add Ring KR : SR1.
Notation gate := (nda K * list nat)%type.
Variable abs2 : K -> R.
Hypothesis MOD : modulus F abs2.
Variable arr : list nat -> list nat.
Hypothesis Harr : forall l, Permutation (arr l) l.
Variable Q : list nat.
Hypothesis NQ : NoDup Q.

Definition prob (gs : list gate) (v : nat -> nat) : R := abs2 (run F gs (zero_state F Q) v).
Lemma prob_ext gs v w : (forall g, In g gs -> incl (snd g) Q) -> (forall x, In x Q -> v x = w x) -> prob gs v = prob gs w.
Proof. intros H E. unfold prob. f_equal. apply (@run_state K F Q); auto. apply zero_state_state. Qed.
Lemma run_snoc gs (g : gate) psi : run F (gs ++ [g]) psi = act F g (run F gs psi).
Proof. unfold run. rewrite fold_left_app. auto. Qed.

(** What an operation does, after the gates [gs1], for gate [h]. *)
Inductive op_ok (gs1 : list gate) (h : gate) (o : operation K) : Prop :=
| OC s : permutes F h s -> (forall v, bits v -> step_op F abs2 arr Q o (map v Q) = Return (Ok (map (after s (snd h) v) Q))) -> op_ok gs1 h o
| OQ q : snd h = [q] -> unitary F h ->
    (forall v, bits v -> step_op F abs2 arr Q o (map v Q) =
      let b w := abs2 (run F (gs1 ++ [h]) (zero_state F (qubits_of (gs1 ++ [h]))) w) in
      if Req_EM_T (b v + b (flip v q)) 0 then Return (Err Throw)
      else Draw (b (flip v q) / (b v + b (flip v q))) (Return (Ok (map (flip v q) Q))) (Return (Ok (map v Q)))) -> op_ok gs1 h o.

Lemma qubits_of_in (gs : list gate) q : In q (qubits_of gs) <-> touches gs q.
Proof.
  unfold qubits_of. rewrite unique_in, in_concat. unfold touches. split.
  - intros (l & Hl & Hq). apply in_map_iff in Hl. destruct Hl as (g & <- & Hg). eauto.
  - intros (g & Hg & Hq). exists (snd g). split; auto. apply in_map. auto.
Qed.
Lemma qubits_incl (gs : list gate) : (forall g, In g gs -> incl (snd g) Q) -> incl (qubits_of gs) Q.
Proof. intros H q Hq. apply qubits_of_in in Hq. destruct Hq as (g & Hg & X). apply (H g Hg). auto. Qed.
Lemma qubits_all (gs : list gate) g : In g gs -> incl (snd g) (qubits_of gs).
Proof. intros H q Hq. apply qubits_of_in. exists g. auto. Qed.

Section Step.
Variables (gs1 : list gate) (h : gate) (o : operation K).
Hypothesis Hgs : forall g, In g (gs1 ++ [h]) -> is_gate g /\ incl (snd g) Q.
Hypothesis Ho : op_ok gs1 h o.
Let I1 : forall g, In g gs1 -> incl (snd g) Q. Proof. intros g Hg. apply Hgs, in_app_iff. auto. Qed.
Let I2 : forall g, In g (gs1 ++ [h]) -> incl (snd g) Q. Proof. intros g Hg. apply Hgs. auto. Qed.
Let Hh : is_gate h. Proof. apply Hgs, in_app_iff. right. left. auto. Qed.
Let Ih : incl (snd h) Q. Proof. apply Hgs, in_app_iff. right. left. auto. Qed.
Let Qp := qubits_of (gs1 ++ [h]).
Let Ip : incl Qp Q. Proof. apply qubits_incl. auto. Qed.
Let b w := abs2 (run F (gs1 ++ [h]) (zero_state F Qp) w).
Let p w := abs2 (run F gs1 (zero_state F Qp) w).

Lemma prob_after s v : permutes F h s -> bits v -> prob (gs1 ++ [h]) (after s (snd h) v) = prob gs1 v.
Proof.
  intros P Bv. unfold prob. rewrite run_snoc. destruct (@act_permutes K F NF h s Q (run F gs1 (zero_state F Q)) v) as (e & Pe & E); auto.
  - apply run_state; auto. apply zero_state_state.
  - rewrite E. apply (abs2_phase NF MOD). auto.
Qed.
Lemma prob_b v : prob (gs1 ++ [h]) v = (b v * untouched Q Qp v)%R.
Proof. apply (born_split NF MOD); auto. intros g Hg. apply qubits_all. auto. Qed.
Lemma prob_p v : prob gs1 v = (p v * untouched Q Qp v)%R.
Proof. apply (born_split NF MOD); auto. intros g Hg. apply qubits_all, in_app_iff. auto. Qed.
Lemma b_ext v w : (forall x, In x Q -> v x = w x) -> b v = b w.
Proof. intros H. unfold b. f_equal. apply (@run_state K F Qp); auto; [intros g Hg; apply qubits_all; auto|apply zero_state_state]. Qed.
Lemma p_ext v w : (forall x, In x Q -> v x = w x) -> p v = p w.
Proof. intros H. unfold p. f_equal. apply (@run_state K F Qp); auto; [intros g Hg; apply qubits_all, in_app_iff; auto|apply zero_state_state]. Qed.
Lemma pb_flip q v : snd h = [q] -> unitary F h -> bits v -> (b v + b (flip v q) = p v + p (flip v q))%R.
Proof.
  intros Hq U Bv. unfold b, p. rewrite run_snoc. apply (@unitary_flip K F NF abs2 MOD h q Qp); auto.
  - apply qubits_of_in. exists h. rewrite in_app_iff, Hq. split; [right; left; auto|left; auto].
  - apply run_state; [intros g Hg; apply qubits_all, in_app_iff; auto|apply zero_state_state].
Qed.
Lemma untouched_flip q v i : snd h = [q] -> untouched Q Qp (assign v q i) = untouched Q Qp v.
Proof.
  intros Hq. apply untouched_ext. intros x _ Hx. apply assign_other. intros ->. apply Hx. apply qubits_of_in. exists h. rewrite in_app_iff, Hq. split; [right; left; auto|left; auto].
Qed.

Lemma step_sum (k : res (list nat) -> R) z : bits z ->
  soR Q (fun v => prob gs1 v * E k (step_op F abs2 arr Q o (map v Q)))%R z = soR Q (fun v => prob (gs1 ++ [h]) v * k (Ok (map v Q)))%R z.
Proof.
  intros Bz. assert (BB : forall w, same_off Q w z -> in_range two Q w -> bits w). { intros w Hw Rw x. destruct (in_dec Nat.eq_dec x Q) as [Hx|Hx]; [apply Rw; auto|rewrite Hw; auto]. }
  assert (D2 : depends_on Q (fun v => prob (gs1 ++ [h]) v * k (Ok (map v Q)))%R).
  { intros v w H. f_equal; [apply prob_ext; auto|]. do 2 f_equal. apply map_ext_in. auto. }
  destruct Ho as [s P HO|q Hq U HO].
  - rewrite <- (@sum_after s (snd h) Q _ z NQ (proj1 (proj2 Hh)) Ih D2 (proj1 P) (proj1 (proj2 P)) Bz). apply so_ext. intros v Hv Rv. pose proof (BB v Hv Rv) as Bv. rewrite HO by auto. cbn [E]. rewrite prob_after; auto.
  - assert (Iq : In q Q) by (apply Ih; rewrite Hq; left; auto).
    assert (PM : Permutation Q (rest Q [q] ++ [q])). { apply rest_perm; auto; [repeat constructor; auto|]. intros x [<-|[]]; auto. }
    assert (D1 : depends_on Q (fun v => prob gs1 v * E k (step_op F abs2 arr Q o (map v Q)))%R).
    { intros v w H. f_equal; [apply prob_ext; auto|]. do 2 f_equal. apply map_ext_in. auto. }
    rewrite (@so_perm R AR SRR two Q (rest Q [q] ++ [q]) _ Q D1 PM z).
    rewrite (@so_perm R AR SRR two Q (rest Q [q] ++ [q]) _ Q D2 PM z). rewrite !so_app. apply so_ext. intros v Hv Rv.
    assert (Bv : bits v). { intros x. destruct (in_dec Nat.eq_dec x (rest Q [q])) as [Hx|Hx]; [apply Rv; auto|rewrite Hv; auto]. }
    cbn [sum_over]. rewrite !sum_two. set (v0 := assign v q 0%nat). set (v1 := assign v q 1%nat).
    assert (B0 : bits v0) by (intros x; unfold v0, assign; destruct (x =? q); auto; lia). assert (B1 : bits v1) by (intros x; unfold v1, assign; destruct (x =? q); auto; lia).
    assert (F0 : forall x, flip v0 q x = v1 x) by (intros x; unfold flip, v0, v1, assign; rewrite Nat.eqb_refl; destruct (x =? q); auto).
    assert (F1 : forall x, flip v1 q x = v0 x) by (intros x; unfold flip, v0, v1, assign; rewrite Nat.eqb_refl; destruct (x =? q); auto).
    assert (HO' : forall v, bits v -> step_op F abs2 arr Q o (map v Q) = if Req_EM_T (b v + b (flip v q)) 0 then Return (Err Throw)
      else Draw (b (flip v q) / (b v + b (flip v q))) (Return (Ok (map (flip v q) Q))) (Return (Ok (map v Q)))) by exact HO.
    rewrite (HO' v0 B0), (HO' v1 B1).
    rewrite (b_ext (v := flip v0 q) (w := v1)), (b_ext (v := flip v1 q) (w := v0)) by auto. rewrite (map_ext _ _ F0), (map_ext _ _ F1).
    rewrite !prob_b, !prob_p. assert (U0 : untouched Q Qp v0 = untouched Q Qp v) by (apply untouched_flip; auto). assert (U1 : untouched Q Qp v1 = untouched Q Qp v) by (apply untouched_flip; auto). rewrite U0, U1.
    pose proof (@pb_flip q v0 Hq U B0) as S. rewrite (b_ext (v := flip v0 q) (w := v1)), (p_ext (v := flip v0 q) (w := v1)) in S by auto.
    rewrite <- (@two_way (p v0) (p v1) (b v0) (b v1) (untouched Q Qp v) (k (Ok (map v0 Q))) (k (Ok (map v1 Q))) (k (Err Throw))); auto; try (apply (abs2_pos MOD)).
    destruct (Req_EM_T (b v0 + b v1) 0), (Req_EM_T (b v1 + b v0) 0); cbn [E]; auto.
Qed.

(** Draws in [0, 1) lead from a possible bitstring to a possible bitstring. *)
Lemma step_possible u v : bits v -> (0 < prob gs1 v)%R -> (forall i, 0 <= u i < 1)%R ->
  exists w, bits w /\ play u (step_op F abs2 arr Q o (map v Q)) = Ok (map w Q) /\ (0 < prob (gs1 ++ [h]) w)%R.
Proof.
  intros Bv Pv Hu. destruct Ho as [s P HO|q Hq U HO].
  - exists (after s (snd h) v). split; [apply after_bits; auto|]. rewrite HO by auto. cbn [play]. split; auto. rewrite prob_after; auto.
  - assert (HO' : forall v, bits v -> step_op F abs2 arr Q o (map v Q) = if Req_EM_T (b v + b (flip v q)) 0 then Return (Err Throw)
      else Draw (b (flip v q) / (b v + b (flip v q))) (Return (Ok (map (flip v q) Q))) (Return (Ok (map v Q)))) by exact HO.
    rewrite HO' by auto. rewrite prob_p in Pv.
    assert (Uv : untouched Q Qp v = 1%R). { unfold untouched in *. destruct (forallb _ _); auto. rewrite Rmult_0_r in Pv. lra. }
    rewrite Uv, Rmult_1_r in Pv. pose proof (@pb_flip q v Hq U Bv) as S. pose proof (abs2_pos MOD (run F gs1 (zero_state F Qp) (flip v q))) as P1. fold (p (flip v q)) in P1.
    set (s := (b v + b (flip v q))%R) in *. assert (Hs : (0 < s)%R) by lra. destruct (Req_EM_T s 0) as [Z|Z]; [lra|]. cbn [play]. specialize (Hu 0%nat). destruct (Rlt_dec (u 0%nat) (b (flip v q) / s)) as [L|L].
    + exists (flip v q). split; [apply flip_bits; auto|]. split; auto. rewrite prob_b. unfold flip at 2. rewrite untouched_flip, Uv, Rmult_1_r by auto.
      assert (X : (0 < b (flip v q) / s)%R) by lra. apply (Rmult_lt_compat_r s) in X; auto. replace (b (flip v q) / s * s)%R with (b (flip v q)) in X by (field; auto). lra.
    + exists v. split; auto. split; auto. rewrite prob_b, Uv, Rmult_1_r. apply Rnot_lt_le in L. assert (X : (b (flip v q) / s < 1)%R) by lra. apply (Rmult_lt_compat_r s) in X; auto.
      replace (b (flip v q) / s * s)%R with (b (flip v q)) in X by (field; auto). unfold s in X. lra.
Qed.
End Step.

(** ** All operations *)
Inductive ops_ok : list gate -> list gate -> list (operation K) -> Prop :=
| ops_nil gs : ops_ok gs [] []
| ops_cons gs h l o os : op_ok gs h o -> ops_ok (gs ++ [h]) l os -> ops_ok gs (h :: l) (o :: os).

Lemma all_sum l ops gs1 : ops_ok gs1 l ops -> (forall g, In g (gs1 ++ l) -> is_gate g /\ incl (snd g) Q) -> forall (k : res (list nat) -> R) z, bits z ->
  soR Q (fun v => prob gs1 v * E k (sample_ops F abs2 arr Q ops (map v Q)))%R z = soR Q (fun v => prob (gs1 ++ l) v * k (Ok (map v Q)))%R z.
Proof.
  induction 1 as [gs|gs h l o os Ho Hos IH]; intros Hg k z Bz.
  - rewrite app_nil_r. auto.
  - replace (gs ++ h :: l) with ((gs ++ [h]) ++ l) in * by (rewrite <- app_assoc; auto). rewrite <- IH; auto.
    rewrite <- (@step_sum gs h o) with (k := fun r => match r with Ok x => E k (sample_ops F abs2 arr Q os x) | Err e => k (Err e) end); auto; [|intros g Hgg; apply Hg, in_app_iff; auto].
    apply so_ext. intros v _ _. cbn [sample_ops]. rewrite E_then. auto.
Qed.
Lemma all_possible l ops gs1 : ops_ok gs1 l ops -> (forall g, In g (gs1 ++ l) -> is_gate g /\ incl (snd g) Q) -> forall u v, bits v -> (0 < prob gs1 v)%R -> (forall i, 0 <= u i < 1)%R ->
  exists w, bits w /\ play u (sample_ops F abs2 arr Q ops (map v Q)) = Ok (map w Q) /\ (0 < prob (gs1 ++ l) w)%R.
Proof.
  induction 1 as [gs|gs h l o os Ho Hos IH]; intros Hg u v Bv Pv Hu.
  - exists v. rewrite app_nil_r. auto.
  - replace (gs ++ h :: l) with ((gs ++ [h]) ++ l) in * by (rewrite <- app_assoc; auto).
    destruct (@step_possible gs h o) with (u := u) (v := v) as (w & Bw & Ew & Pw); auto; [intros g Hgg; apply Hg, in_app_iff; auto|].
    cbn [sample_ops]. destruct (@play_then (list nat) (list nat) (step_op F abs2 arr Q o (map v Q)) u) as (m & Hm). rewrite Hm, Ew. apply IH; auto.
Qed.

(** ** Bitstrings *)
Lemma prob_nil v : prob [] v = if forallb (fun q => v q =? 0) Q then 1%R else 0%R.
Proof. unfold prob, zero_state. cbn [run fold_left]. destruct (forallb _ _); [apply (abs2_one NF MOD)|apply (abs2_zero NF MOD)]. Qed.
Lemma reading_map bs : length bs = length Q -> map (reading Q bs) Q = bs.
Proof.
  revert bs. induction NQ as [|q Q' Hq N' IH]; intros [|x bs] L; try discriminate; auto. cbn [map]. f_equal.
  - unfold reading. cbn [combine find fst]. rewrite Nat.eqb_refl. auto.
  - rewrite <- (IH N' bs) at 2 by (simpl in L; lia). apply map_ext_in. intros y Hy. unfold reading. cbn [combine find fst]. destruct (Nat.eqb_spec q y) as [Eq|]; auto. subst y. tauto.
Qed.
Lemma reading_bits Q0 bs : Forall (fun x => x < 2) bs -> bits (reading Q0 bs).
Proof.
  intros H q. unfold reading. destruct (find _ _) as [[y x]|] eqn:Ef; [|lia]. apply find_some in Ef. destruct Ef as [Ef _]. apply in_combine_r in Ef. rewrite Forall_forall in H. auto.
Qed.
Lemma map_zero : map (fun _ : nat => 0) Q = repeat 0 (length Q).
Proof. clear. induction Q; simpl; congruence. Qed.

Variable circuit : list gate.
Variable ops : list (operation K).
Hypothesis HC : forall g, In g circuit -> is_gate g /\ incl (snd g) Q.
Hypothesis HO : ops_ok [] circuit ops.
Let z := fun _ : nat => 0.
Let Bz : bits z. Proof. intros x. unfold z. lia. Qed.

Lemma one_expect (k : res (list nat) -> R) : E k (sample_ops F abs2 arr Q ops (repeat 0 (length Q))) = soR Q (fun v => prob circuit v * k (Ok (map v Q)))%R z.
Proof.
  rewrite <- (@all_sum circuit ops [] HO) by auto. symmetry.
  transitivity (soR Q (fun v => mul AR (E k (sample_ops F abs2 arr Q ops (map v Q))) (if forallb (fun x => v x =? z x) Q then one AR else zero AR)) z).
  - apply so_ext. intros v _ _. rewrite prob_nil. apply Rmult_comm.
  - rewrite (@so_delta R FR SRR Q z _ Q); auto; [|intros v w H; f_equal; f_equal; apply map_ext_in; auto]. rewrite <- map_zero. do 2 f_equal. apply map_ext. intros x. unfold update, z. destruct (memb x Q); auto.
Qed.
Lemma one_chance dec bs : bitstring (length Q) bs -> chance (gives dec bs) (sample_ops F abs2 arr Q ops (repeat 0 (length Q))) = born F abs2 circuit Q bs.
Proof.
  intros [L B]. rewrite chance_E, one_expect. set (u := reading Q bs).
  transitivity (soR Q (fun v => mul AR (prob circuit v) (if forallb (fun x => v x =? u x) Q then one AR else zero AR)) z).
  - apply so_ext. intros v _ _. cbn [mul n_alg FR]. f_equal. cbn [gives]. destruct (dec bs (map v Q)) as [Eb|Eb], (forallb (fun x => v x =? u x) Q) eqn:Ef; auto; exfalso.
    + assert (X : forallb (fun x => v x =? u x) Q = true); [|congruence]. apply forallb_forall. intros x Hx. apply Nat.eqb_eq. rewrite <- (reading_map L) in Eb. symmetry. apply (ext_in_map Eb). auto.
    + apply Eb. rewrite <- (reading_map L). apply map_ext_in. intros x Hx. rewrite forallb_forall in Ef. symmetry. apply Nat.eqb_eq, Ef. auto.
  - rewrite (@so_delta R FR SRR Q u _ Q); auto.
    + unfold born. apply prob_ext; [intros g Hg; apply HC; auto|]. intros x Hx. unfold update. rewrite (proj2 (memb_In _ _) Hx). auto.
    + intros v w H. apply prob_ext; auto. intros g Hg. apply HC. auto.
    + intros x _. apply reading_bits. auto.
Qed.
Lemma many_chance dec n : forall bss, length bss = n -> Forall (bitstring (length Q)) bss ->
  chance (gives dec bss) (sample_many F abs2 arr Q ops n) = fold_right Rmult 1%R (map (born F abs2 circuit Q) bss).
Proof.
  induction n as [|n IH]; intros [|bs bss] L B; try discriminate.
  - cbn [sample_many chance gives map fold_right]. destruct (dec [] []); auto. congruence.
  - inversion B; subst. cbn [sample_many map fold_right]. rewrite (@chance_pair _ (list_eq_dec Nat.eq_dec)), IH, one_chance; auto.
Qed.
Lemma many_possible n : forall u, (forall i, 0 <= u i < 1)%R ->
  exists bss, play u (sample_many F abs2 arr Q ops n) = Ok bss /\ length bss = n /\ Forall (fun bs => bitstring (length Q) bs /\ (0 < born F abs2 circuit Q bs)%R) bss.
Proof.
  induction n as [|n IH]; intros u Hu.
  - exists []. auto.
  - cbn [sample_many]. destruct (@play_then (list nat) (list (list nat)) (sample_ops F abs2 arr Q ops (repeat 0 (length Q))) u) as (m & Hm). rewrite Hm.
    destruct (@all_possible circuit ops [] HO) with (u := u) (v := z) as (w & Bw & Ew & Pw); auto.
    { rewrite prob_nil. assert (X : forallb (fun q => z q =? 0) Q = true) by (apply forallb_forall; auto). rewrite X. lra. }
    rewrite <- map_zero. fold z in Ew. unfold z in Ew at 1. rewrite Ew.
    destruct (@play_then (list (list nat)) (list (list nat)) (sample_many F abs2 arr Q ops n) (fun i => u (m + i))) as (m' & Hm'). rewrite Hm'. destruct (IH (fun i => u (m + i))) as (bss & Eb & L & Fb); [auto|]. rewrite Eb. cbn [play].
    exists (map w Q :: bss). split; auto. split; [simpl; lia|]. constructor; auto. split.
    + split; [apply map_length|]. apply Forall_forall. intros x Hx. apply in_map_iff in Hx. destruct Hx as (y & <- & _). apply Bw.
    + unfold born. change (0 < prob circuit (reading Q (map w Q)))%R. rewrite (@prob_ext circuit _ w); auto; [intros g Hg; apply HC; auto|]. assert (X := @reading_map (map w Q) (map_length _ _)). intros x Hx. apply (ext_in_map X). auto.
Qed.
Lemma born_total : soR Q (prob circuit) z = 1%R.
Proof.
  rewrite <- (E_const 1%R (sample_ops F abs2 arr Q ops (repeat 0 (length Q)))) at 1. rewrite one_expect. apply so_ext. intros v _ _. ring.
Qed.
End Sampling.
