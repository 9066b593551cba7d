(** Complex numbers with rational parts: an instance for the examples. *)
From Coq Require Import List Arith Bool QArith Qcanon Cantor.
Import ListNotations.
From Verif Require Import M_Base M_Tensor S_Tensor M_Circuit S_Circuit.
From Verif Require Import P_Gates P_Simplify.
Local Open Scope nat_scope.

Definition gauss_alg : alg (Qc * Qc) :=
  mkAlg (Q2Qc 0, Q2Qc 0) (1, Q2Qc 0)%Qc (fun x y => (fst x + fst y, snd x + snd y)%Qc)
        (fun x y => (fst x * fst y - snd x * snd y, fst x * snd y + snd x * fst y)%Qc).
Definition gauss_div (x y : Qc * Qc) : Qc * Qc :=
  let d := (fst y * fst y + snd y * snd y)%Qc in
  ((fst x * fst y + snd x * snd y) / d, (snd x * fst y - fst x * snd y) / d)%Qc.
Definition qc_eqb (x y : Qc) : bool := Qeq_bool x y.
Definition gauss : nums (Qc * Qc) :=
  mkNums gauss_alg (fun x y => qc_eqb (fst x) (fst y) && qc_eqb (snd x) (snd y)) gauss_div
         (fun x => (fst x, - snd x)%Qc) (Q2Qc (7071 # 10000), Q2Qc 0) (- Q2Qc (7071 # 10000), Q2Qc 0)%Qc (fun _ => true).

Lemma qc_eqb_ok x y : qc_eqb x y = true <-> x = y.
Proof. unfold qc_eqb. rewrite Qeq_bool_iff. split; [apply Qc_is_canon|intros ->; reflexivity]. Qed.
Lemma pair_eq (a b c d : Qc) : a = c -> b = d -> (a, b) = (c, d).
Proof. intros -> ->. auto. Qed.
Lemma qc_sq (x : Qc) : (0 <= x * x)%Qc.
Proof.
  destruct (Qclt_le_dec x 0) as [H|H].
  - replace (x * x)%Qc with ((- x) * (- x))%Qc by ring. assert (H' : (0 <= - x)%Qc).
    { apply Qclt_le_weak in H. apply Qcopp_le_compat in H. replace (-0)%Qc with (0%Qc) in H by reflexivity. exact H. }
    replace (0%Qc) with (0 * - x)%Qc by ring. apply Qcmult_le_compat_r; auto.
  - replace (0%Qc) with (0 * x)%Qc by ring. apply Qcmult_le_compat_r; auto.
Qed.
Lemma qc_norm (x y : Qc) : (x * x + y * y)%Qc = Q2Qc 0 -> x = Q2Qc 0 /\ y = Q2Qc 0.
Proof.
  intros H. assert (X : forall a b : Qc, (a * a + b * b)%Qc = Q2Qc 0 -> a = Q2Qc 0).
  { intros a b E. assert (Ha : (a * a)%Qc = Q2Qc 0).
    { apply Qcle_antisym; [|apply qc_sq]. rewrite <- E at 1. replace (a * a)%Qc with (a * a + 0)%Qc at 1 by ring. apply Qcplus_le_compat; [apply Qcle_refl|apply qc_sq]. }
    destruct (Qcmult_integral _ _ Ha); auto. }
  split; [apply (X x y H)|apply (X y x)]. rewrite <- H. ring.
Qed.
Lemma gauss_numbers : numbers gauss.
Proof.
  constructor; cbn.
  - split; cbn; intros; repeat match goal with x : (Qc * Qc)%type |- _ => destruct x end; cbn; apply pair_eq; ring.
  - intros E. inversion E.
  - intros [a b] [c d]. cbn. rewrite andb_true_iff, !qc_eqb_ok. split; [intros [-> ->]; auto|]. intros E. inversion E. auto.
  - intros [a b] [c d] N. cbn in *. assert (D : (c * c + d * d)%Qc <> Q2Qc 0). { intros Z. apply qc_norm in Z. destruct Z as [-> ->]. apply N. auto. }
    apply pair_eq; field; exact D.
  - intros [a b] [c d]. cbn. apply pair_eq; ring.
  - intros [a b] [c d]. cbn. apply pair_eq; ring.
  - intros [a b]. cbn. apply pair_eq; ring.
Qed.

(** An injective numbering of the indices. *)
Definition mark_code (m : mark) : nat := match m with Ini => 0 | Fin => 1 | Shared => 2 | At t => 3 + t end.
Definition code (q : nat) (m : mark) : nat := Cantor.to_nat (q, mark_code m).
Lemma code_distinct : distinct code.
Proof.
  unfold code. intros q m q' m' E. apply Cantor.to_nat_inj in E. inversion E as [[E1 E2]]. split; auto.
  destruct m, m'; simpl in E2; try discriminate; auto. inversion E2. auto.
Qed.

(** Gates for the examples. *)
Definition c (re im : Z) : Qc * Qc := (Q2Qc (re # 1), Q2Qc (im # 1)).
Definition gate_x : nda (Qc * Qc) := mkA [2; 2] [c 0 0; c 1 0; c 1 0; c 0 0].
Definition gate_s : nda (Qc * Qc) := mkA [2; 2] [c 1 0; c 0 0; c 0 0; c 0 1].
Definition gate_sdg : nda (Qc * Qc) := mkA [2; 2] [c 1 0; c 0 0; c 0 0; c 0 (-1)].
Definition gate_cx : nda (Qc * Qc) := mkA [4; 4] [c 1 0; c 0 0; c 0 0; c 0 0;  c 0 0; c 1 0; c 0 0; c 0 0;  c 0 0; c 0 0; c 0 0; c 1 0;  c 0 0; c 0 0; c 1 0; c 0 0].
Definition gate_d : nda (Qc * Qc) := mkA [2; 2] [c 1 0; c 0 0; c 0 0; c 2 0].
(** A test for unitarity. *)
Definition unitaryb (g : nda (Qc * Qc) * list nat) : bool :=
  let n := 2 ^ length (snd g) in
  forallb (fun i => forallb (fun j =>
    n_eqb gauss (sum_upto gauss_alg n (fun k => mul gauss_alg (n_conj gauss (entry gauss_alg (fst g) [k; i])) (entry gauss_alg (fst g) [k; j]))) (if i =? j then one gauss_alg else zero gauss_alg) &&
    n_eqb gauss (sum_upto gauss_alg n (fun k => mul gauss_alg (entry gauss_alg (fst g) [i; k]) (n_conj gauss (entry gauss_alg (fst g) [j; k])))) (if i =? j then one gauss_alg else zero gauss_alg)) (seq 0 n)) (seq 0 n).
Lemma unitaryb_ok g : unitaryb g = true -> unitary gauss g.
Proof.
  intros H i j Hi Hj. unfold unitaryb in H. rewrite forallb_forall in H. specialize (H i). rewrite in_seq, forallb_forall in H. specialize (H (conj (Nat.le_0_l _) Hi) j). rewrite in_seq, andb_true_iff in H.
  specialize (H (conj (Nat.le_0_l _) Hj)). destruct H as [H1 H2]. apply (num_eqb _ gauss_numbers) in H1, H2. split; auto.
Qed.
Definition gateb (g : nda (Qc * Qc) * list nat) : bool := valid_gate g && (length (data (fst g)) =? prod (shape (fst g))).
Lemma gateb_ok g : gateb g = true -> is_gate g.
Proof.
  unfold gateb. rewrite andb_true_iff, Nat.eqb_eq, valid_gate_ok. intros ((H1 & H2 & H3) & H4). split; auto.
Qed.
Lemma nonunitary_cancelled : exists circuit gs passes, (forall g, In g circuit -> is_gate g) /\
  final_gates gauss code true true circuit = Ok (gs, passes) /\
  forall c, exists v, bits v /\ run gauss circuit (fun _ => one gauss_alg) v <> mul gauss_alg c (run gauss gs (fun _ => one gauss_alg) v).
Proof.
  exists [(gate_d, [0]); (gate_d, [0])], [(eye gauss, [0])], 1. split; [intros g [<-|[<-|[]]]; apply gateb_ok; vm_compute; reflexivity|]. split; [vm_compute; reflexivity|].
  intros z. assert (E : forall v, bits v -> run gauss [(eye gauss, [0])] (fun _ => one gauss_alg) v = one gauss_alg).
  { intros v B. cbn [run fold_left]. apply (@eye_acts _ gauss gauss_numbers 0 [0] (fun _ => one gauss_alg) v); auto; [left; auto|intros ? ? _; auto]. }
  assert (M : mul gauss_alg z (one gauss_alg) = z) by (destruct z as [a b]; cbn; apply pair_eq; ring).
  destruct (n_eqb gauss z (P_Gauss.c 1 0)) eqn:Z.
  - apply (num_eqb _ gauss_numbers) in Z. subst z. exists (fun _ => 1). split; [intros q; auto|]. rewrite E, M by (intros q; auto). intros X. apply (num_eqb _ gauss_numbers) in X. vm_compute in X. discriminate.
  - exists (fun _ => 0). split; [intros q; auto|]. rewrite E, M by (intros q; auto). intros X. assert (X' : z = P_Gauss.c 1 0). { rewrite <- X. apply (num_eqb _ gauss_numbers). vm_compute. reflexivity. }
    apply (num_eqb _ gauss_numbers) in X'. congruence.
Qed.
