(** Probabilities of measurements. *)
From Coq Require Import List Arith NArith ZArith Reals Lia Lra Permutation Bool Ring.
Import ListNotations.
From Verif Require Import P_Base P_Opt P_PyMain.
From Verif Require Import M_Base M_Path M_PyTree M_OSet M_Random M_Fuse M_Tensor M_Contract M_Decompose M_Circuit M_Sampling S_Tensor S_Circuit S_Amplitude S_Sampling.
From Verif Require Import P_Path P_Split P_PathMain P_PyBuild P_OSet P_Fuse P_Sum P_Array P_ContractMain P_Circuit P_Gates P_Same P_Amplitude P_Load P_SampleNet P_Classical P_Draws.
From Verif Require Import M_Path M_PyTree.
Set Implicit Arguments.
Unset Strict Implicit.
Local Open Scope nat_scope.

(** ** Real numbers as numbers *)
Definition FR : nums R := mkNums (mkAlg 0 1 Rplus Rmult)%R (fun x y => if Req_EM_T x y then true else false) Rdiv (fun x => x) 0%R 0%R (fun _ => true).
Lemma NR : numbers FR.
Proof.
  constructor; cbn [n_alg n_eqb n_div n_conj FR zero one add mul]; auto.
  - constructor; cbn [zero one add mul]; intros; ring.
  - intros x y. destruct (Req_EM_T x y); split; auto; discriminate.
  - intros x y H. field. auto.
Qed.
Notation AR := (n_alg FR).
Lemma SRR : semiring AR. Proof. exact (num_ring _ NR). Qed.
Local Notation two := (fun _ : nat => 2).
Notation soR := (sum_over AR two).

Lemma sum_two (f : nat -> R) : sum_upto AR 2 f = (f 0%nat + f 1%nat)%R.
Proof. unfold sum_upto. simpl. ring. Qed.
Lemma sum_perm (f : nat -> R) (s : nat -> nat) n : Permutation (map s (seq 0 n)) (seq 0 n) -> sum_upto AR n (fun i => f (s i)) = sum_upto AR n f.
Proof.
  unfold sum_upto. intros P. rewrite <- (map_map s f). assert (G : forall l l', Permutation l l' -> fold_right Rplus 0%R (map f l) = fold_right Rplus 0%R (map f l')); [|apply (G _ _ P)].
  clear. intros l l' P. induction P; simpl; try congruence. ring.
Qed.

Lemma two_way (P0 P1 B0 B1 I h0 h1 he : R) : (0 <= P0 -> 0 <= P1 -> 0 <= B0 -> 0 <= B1 -> P0 + P1 = B0 + B1 ->
  P0 * I * (if Req_EM_T (B0 + B1) 0 then he else B1 / (B0 + B1) * h1 + (1 - B1 / (B0 + B1)) * h0) +
  P1 * I * (if Req_EM_T (B1 + B0) 0 then he else B0 / (B1 + B0) * h0 + (1 - B0 / (B1 + B0)) * h1) = B0 * I * h0 + B1 * I * h1)%R.
Proof.
  intros. rewrite (Rplus_comm B1 B0). destruct (Req_EM_T (B0 + B1) 0) as [Z|Z].
  - replace P0 with 0%R by lra. replace P1 with 0%R by lra. replace B0 with 0%R by lra. replace B1 with 0%R by lra. ring.
  - replace P0 with (B0 + B1 - P1)%R by lra. field. auto.
Qed.

Section Born.
Variable K : Type.
Variable F : nums K.
Local Notation A := (n_alg F).
Hypothesis NF : numbers F.
Let SR : semiring A := num_ring _ NF.
Let SR1 : semi_ring_theory (zero A) (one A) (add A) (mul A) eq := num_ring _ NF.
Add Ring KR : SR1.
Notation so := (sum_over A two).
Notation gate := (nda K * list nat)%type.
Variable abs2 : K -> R.
Hypothesis MOD : modulus F abs2.

Lemma abs2_zero : abs2 (zero A) = 0%R.
Proof.
  destruct MOD as (re & Ra & _ & Rm & _). rewrite Rm. replace (mul A (zero A) (n_conj F (zero A))) with (zero A) by ring.
  assert (E : re (zero A) = (re (zero A) + re (zero A))%R) by (rewrite <- Ra; f_equal; ring). lra.
Qed.
Lemma abs2_one : abs2 (one A) = 1%R.
Proof. destruct MOD as (re & _ & R1 & Rm & _). rewrite Rm, (conj_one NF). rewrite <- R1. f_equal. ring. Qed.
Lemma abs2_phase c x : phase F c -> abs2 (mul A c x) = abs2 x.
Proof.
  intros P. destruct MOD as (re & _ & _ & Rm & _). rewrite !Rm, (conj_mul _ NF). f_equal. transitivity (mul A (mul A c (n_conj F c)) (mul A x (n_conj F x))); [ring|]. unfold phase in P. rewrite P. ring.
Qed.
Lemma abs2_pos x : (0 <= abs2 x)%R.
Proof. destruct MOD as (re & _ & _ & _ & H & _). auto. Qed.

(** ** Qubits that are not touched *)
Lemma run_factor gs c xs : depends_on xs c -> (forall g, In g gs -> forall x, In x xs -> ~ In x (snd g)) -> forall psi v, run F gs (fun u => mul A (psi u) (c u)) v = mul A (run F gs psi v) (c v).
Proof.
  intros D. induction gs as [|g gs IH]; intros H psi v; [auto|]. cbn [run fold_left]. fold (run F gs). 
  change (fold_left (fun phi g => act F g phi) gs) with (run F gs). rewrite <- IH by (intros; apply H; auto; right; auto). apply P_Load.run_ext. intros u. unfold act.
  transitivity (so (snd g) (fun w => mul A (c w) (mul A (element F g u w) (psi w))) u).
  - apply so_ext. intros w _ _. ring.
  - rewrite (@so_mul_l K A SR two (snd g) _ c xs); auto; [ring|]. intros x Hx. apply H; [left; auto|auto].
Qed.
Definition rest (Q Qp : list nat) : list nat := filter (fun q => negb (memb q Qp)) Q.
Lemma rest_in Q Qp q : In q (rest Q Qp) <-> In q Q /\ ~ In q Qp.
Proof. unfold rest. rewrite filter_In, negb_true_iff, memb_nIn. tauto. Qed.
Lemma rest_perm Q Qp : NoDup Q -> NoDup Qp -> incl Qp Q -> Permutation Q (rest Q Qp ++ Qp).
Proof.
  intros N Np I. apply NoDup_Permutation; auto.
  - apply NoDup_app. split; [apply NoDup_filter; auto|]. split; auto. intros x Hx. apply rest_in in Hx. tauto.
  - intros x. rewrite in_app_iff, rest_in. split; [|intros [H|H]; [tauto|auto]]. intros H. destruct (in_dec Nat.eq_dec x Qp); auto.
Qed.
Lemma zero_state_split Q Qp v : incl Qp Q -> zero_state F Q v = mul A (zero_state F Qp v) (zero_state F (rest Q Qp) v).
Proof.
  intros I. unfold zero_state. assert (E : forallb (fun q => v q =? 0) Q = forallb (fun q => v q =? 0) Qp && forallb (fun q => v q =? 0) (rest Q Qp)).
  { apply eq_true_iff_eq. rewrite andb_true_iff, !forallb_forall. split; [intros H; split; intros x Hx; apply H; auto; apply rest_in in Hx; tauto|].
    intros [H1 H2] x Hx. destruct (in_dec Nat.eq_dec x Qp); auto. apply H2, rest_in. auto. }
  rewrite E. destruct (forallb _ Qp), (forallb _ (rest Q Qp)); cbn [andb]; ring.
Qed.
Definition untouched (Q Qp : list nat) (v : nat -> nat) : R := if forallb (fun q => v q =? 0) (rest Q Qp) then 1%R else 0%R.
Lemma untouched_ext Q Qp v w : (forall x, In x Q -> ~ In x Qp -> v x = w x) -> untouched Q Qp v = untouched Q Qp w.
Proof.
  intros H. unfold untouched. assert (E : forallb (fun q => v q =? 0) (rest Q Qp) = forallb (fun q => w q =? 0) (rest Q Qp)); [|rewrite E; auto].
  assert (H' : forall x, In x (rest Q Qp) -> v x = w x) by (intros x Hx; apply rest_in in Hx; apply H; tauto). clear H. induction (rest Q Qp) as [|x l IH]; simpl; auto. rewrite (H' x) by (left; auto). f_equal. apply IH. intros; apply H'; right; auto.
Qed.
Lemma born_split gs Q Qp v : incl Qp Q -> (forall g, In g gs -> incl (snd g) Qp) ->
  abs2 (run F gs (zero_state F Q) v) = (abs2 (run F gs (zero_state F Qp) v) * untouched Q Qp v)%R.
Proof.
  intros I H. rewrite (@P_Load.run_ext K F gs _ (fun u => mul A (zero_state F Qp u) (zero_state F (rest Q Qp) u)) v) by (intros u; apply zero_state_split; auto).
  rewrite (@run_factor gs _ (rest Q Qp)).
  - unfold zero_state at 2, untouched. destruct (forallb _ _).
    + rewrite Rmult_1_r. f_equal. ring.
    + rewrite Rmult_0_r, <- abs2_zero. f_equal. ring.
  - apply zero_state_state.
  - intros g Hg x Hx X. apply rest_in in Hx. apply Hx, (H g Hg). auto.
Qed.

(** ** Unitary gates on one qubit *)
Definition flip (v : nat -> nat) (q : nat) : nat -> nat := assign v q (1 - v q).
Lemma flip_bits v q : bits v -> bits (flip v q).
Proof. intros B x. unfold flip, assign. destruct (x =? q); auto. lia. Qed.
Lemma act_one (h : gate) q Q psi v i : snd h = [q] -> state_of Q psi ->
  act F h psi (assign v q i) = add A (mul A (entry A (fst h) [i; 0]) (psi (assign v q 0%nat))) (mul A (entry A (fst h) [i; 1]) (psi (assign v q 1%nat))).
Proof.
  intros Hq HS. unfold act, element. rewrite Hq. cbn [sum_over]. unfold sum_upto. cbn [seq map fold_right]. rewrite !assign_same. change (number [i]) with i. change (number [0]) with 0. change (number [1]) with 1.
  assert (X : forall j, psi (assign (assign v q i) q j) = psi (assign v q j)). { intros j. apply HS. intros x _. unfold assign. destruct (x =? q); auto. }
  rewrite !X. ring.
Qed.
Lemma unitary_two (h : gate) q Q psi v : snd h = [q] -> unitary F h -> state_of Q psi ->
  (abs2 (act F h psi (assign v q 0%nat)) + abs2 (act F h psi (assign v q 1%nat)) = abs2 (psi (assign v q 0%nat)) + abs2 (psi (assign v q 1%nat)))%R.
Proof.
  intros Hq U HS. rewrite !(act_one _ _ Hq HS). set (x := psi (assign v q 0%nat)). set (y := psi (assign v q 1%nat)). unfold unitary in U. rewrite Hq in U. cbn [length Nat.pow Nat.mul Nat.add] in U.
  assert (U00 := proj1 (U 0 0 ltac:(lia) ltac:(lia))). assert (U01 := proj1 (U 0 1 ltac:(lia) ltac:(lia))). assert (U10 := proj1 (U 1 0 ltac:(lia) ltac:(lia))). assert (U11 := proj1 (U 1 1 ltac:(lia) ltac:(lia))).
  unfold sum_upto in U00, U01, U10, U11. cbn [seq map fold_right Nat.eqb] in U00, U01, U10, U11.
  set (a := entry A (fst h) [0; 0]) in *. set (b := entry A (fst h) [0; 1]) in *. set (c := entry A (fst h) [1; 0]) in *. set (d := entry A (fst h) [1; 1]) in *.
  destruct MOD as (re & Ra & _ & Rm & _). rewrite !Rm, <- !Ra. f_equal. rewrite !(conj_add _ NF), !(conj_mul _ NF).
  set (a' := n_conj F a) in *. set (b' := n_conj F b) in *. set (c' := n_conj F c) in *. set (d' := n_conj F d) in *. set (x' := n_conj F x). set (y' := n_conj F y).
  transitivity (add A (add A (mul A (mul A x x') (add A (mul A a' a) (add A (mul A c' c) (zero A)))) (mul A (mul A y x') (add A (mul A a' b) (add A (mul A c' d) (zero A)))))
                      (add A (mul A (mul A x y') (add A (mul A b' a) (add A (mul A d' c) (zero A)))) (mul A (mul A y y') (add A (mul A b' b) (add A (mul A d' d) (zero A)))))); [ring|].
  rewrite U00, U01, U10, U11. ring.
Qed.
Lemma flip_pair Q (f : (nat -> nat) -> R) v q : depends_on Q f -> bits v -> (f v + f (flip v q) = f (assign v q 0%nat) + f (assign v q 1%nat))%R.
Proof.
  intros D B. pose proof (B q) as Bq. assert (V : f v = f (assign v q (v q))). { apply D. intros x _. unfold assign. destruct (Nat.eqb_spec x q) as [Ex|]; [rewrite Ex|]; auto. }
  unfold flip. destruct (v q) as [|[|]] eqn:Eq; [| |lia]; rewrite V; cbn [Nat.sub]; lra.
Qed.
Lemma unitary_flip (h : gate) q Q psi v : snd h = [q] -> unitary F h -> In q Q -> state_of Q psi -> bits v ->
  (abs2 (act F h psi v) + abs2 (act F h psi (flip v q)) = abs2 (psi v) + abs2 (psi (flip v q)))%R.
Proof.
  intros Hq U I HS B. rewrite (@flip_pair Q (fun w => abs2 (act F h psi w)) v q); auto.
  - rewrite (@flip_pair Q (fun w => abs2 (psi w)) v q); auto; [|intros w w' H; f_equal; apply HS; auto]. apply (@unitary_two h q Q); auto.
  - intros w w' H. f_equal. apply (@act_state K F Q); auto. rewrite Hq. intros x [<-|[]]. auto.
Qed.
End Born.
