(** Proofs about the numbers of fixed precision, as stated in Props_Fixed. *)
From Coq Require Import QArith Qabs ZArith Bool List Lia Lqa.
From Verif Require Import M_Base M_Fixed S_Fixed P_Base P_Fixed P_FixedMain P_FixedConv.
Import ListNotations.
Set Implicit Arguments. Unset Strict Implicit.
Local Open Scope Z_scope.

Lemma unique_monotone p x x' y y' : 1 <= p -> nearest (fixed p) x y -> nearest (fixed p) x' y' ->
    ((x == x')%Q -> (y == y')%Q) /\ ((x <= x')%Q -> (y <= y')%Q).
Proof. intros Hp A B. split; intros H; [eapply (@nearest_unique (fixed p)) | eapply (@nearest_mono (fixed p))]; eauto. Qed.

Lemma exceptional_ok p o x y : 2 <= p ->
    (binary p o x y = NaN <-> undefined o x y) /\
    (~ undefined o x y ->
       (is_inf (binary p o x y) = true <-> infinite o x y) /\
       (infinite o x y -> binary p o x y = Inf (infinite_sign o x y))).
Proof.
  intros Hp. split; [apply undefined_ok; auto|]. intros U. destruct (@infinite_ok p o x y Hp U) as [A B]. split; [tauto|auto].
Qed.

Lemma neg_abs_ok p x : 2 <= p -> number p x ->
    number p (neg p x) /\ number p (abs p x) /\
    (x = NaN -> neg p x = NaN /\ abs p x = NaN) /\
    (x <> NaN -> negative (neg p x) = negb (negative x) /\ negative (abs p x) = false /\
       is_inf (neg p x) = is_inf x /\ is_inf (abs p x) = is_inf x /\
       (finite x = true -> finite (neg p x) = true /\ finite (abs p x) = true /\
          (val (neg p x) == - val x)%Q /\ (val (abs p x) == Qabs (val x))%Q)).
Proof.
  intros Hp N.
  assert (C : forall s m e, number p (Num s m e) -> convert (fixed p) (Num s m e) = Num s m e) by (intros; apply convert_number; auto).
  destruct x as [|s|s|s m e]; unfold neg, abs.
  - split; [exact I|]. split; [exact I|]. split; [auto|]. intros H; contradiction.
  - split; [exact I|]. split; [exact I|]. split; [discriminate|]. intros _. destruct s; repeat split; try discriminate.
  - split; [exact I|]. split; [exact I|]. split; [discriminate|]. intros _. destruct s; repeat split; simpl; auto.
  - rewrite !C by exact N. split; [exact N|]. split; [exact N|]. split; [discriminate|]. intros _. destruct s; simpl negative.
    + split; [reflexivity|]. split; [reflexivity|]. split; [reflexivity|]. split; [reflexivity|]. intros _. split; [reflexivity|]. split; [reflexivity|].
      assert (E : (val (Num false m e) == - val (Num true m e))%Q).
      { rewrite !signed_val. simpl signed. change (Z.neg m) with (- Z.pos m). rewrite inject_Z_opp. ring. }
      split; [exact E|]. rewrite E. symmetry. apply Qabs_neg.
      rewrite signed_val. simpl signed. change (Z.neg m) with (- Z.pos m). rewrite inject_Z_opp.
      assert (0 <= inject_Z (Z.pos m) * pow2 e)%Q by (apply Qmult_le_0_compat; [discriminate|apply Qlt_le_weak, pow2_pos]). lra.
    + split; [reflexivity|]. split; [reflexivity|]. split; [reflexivity|]. split; [reflexivity|]. intros _. split; [reflexivity|]. split; [reflexivity|].
      split.
      * rewrite !signed_val. simpl signed. change (Z.neg m) with (- Z.pos m). rewrite inject_Z_opp. ring.
      * symmetry. apply Qabs_pos. rewrite signed_val. simpl signed. apply Qmult_le_0_compat; [discriminate|apply Qlt_le_weak, pow2_pos].
Qed.

Lemma comparisons_ok x y : x <> NaN -> y <> NaN ->
    (related Rlt x y = true <-> less x y) /\ (related Rgt x y = true <-> less y x) /\
    (related Rle x y = true <-> less x y \/ same x y) /\ (related Rge x y = true <-> less y x \/ same x y) /\
    (related Req x y = true <-> same x y) /\ (related Rne x y = true <-> ~ same x y) /\
    (finite x = true -> finite y = true -> (same x y <-> (val x == val y)%Q)).
Proof.
  intros Nx Ny. destruct (related_ok Nx Ny) as (A & B & C & D & E & F).
  split; [exact A|]. split; [exact B|]. split; [exact C|]. split; [exact D|]. split; [exact E|]. split; [exact F|]. apply same_val.
Qed.

Lemma floats_ok p d : 53 <= p -> is_double d ->
    construct p (Some (OFloat d)) = Ok d /\
    (forall o x, py_binary p o x (OFloat d) = Ok (binary p o x d) /\ py_reflected p o (OFloat d) x = Ok (binary p o d x)) /\
    (forall r x, py_related p r x (OFloat d) = Ok (related r x d)).
Proof.
  intros Hp D. pose proof (convert_double Hp D) as E. unfold construct, py_binary, py_reflected, py_related, argument, as_double.
  rewrite E. repeat split.
Qed.

Lemma ints_ok p z : 53 <= p ->
    (Z.abs z <= 2 ^ 53 -> exists v, argument p (OInt z) = Ok v /\ finite v = true /\ (val v == inject_Z z)%Q) /\
    exists y, nearest double (inject_Z z) y /\
      ((Qabs y < pow2 1024)%Q -> exists v, argument p (OInt z) = Ok v /\ finite v = true /\ (val v == y)%Q) /\
      ((pow2 1024 <= Qabs y)%Q -> argument p (OInt z) = Err Throw).
Proof. intros Hp. split; [apply int_exact; auto|apply int_ok; auto]. Qed.

Lemma ints_false : ~ (forall z, Z.abs z < 2 ^ 1024 -> exists v, argument 1024 (OInt z) = Ok v /\ (val v == inject_Z z)%Q).
Proof.
  intros H. destruct (H (2 ^ 53 + 1) ltac:(reflexivity)) as (v & E & V).
  assert (E1 : argument 1024 (OInt (2 ^ 53 + 1)) = Ok (Num false 1 53)) by (vm_compute; reflexivity).
  rewrite E1 in E. injection E as <-. vm_compute in V. discriminate V.
Qed.

Lemma inplace_false :
  ~ (forall p o s x other s' n, py_inplace p o s x other = Ok s' -> n <> x -> bound s n -> lookup s' n = lookup s n).
Proof.
  intros H. specialize (H 1024 Oadd (mkS [Num false 1 0] (fun _ => O)) O (OFloat (Num false 1 1))
    (mkS [Num false 3 0; Num false 3 0] (fun n => if Nat.eqb n 0 then 1%nat else O)) 1%nat).
  specialize (H ltac:(vm_compute; reflexivity) ltac:(discriminate) ltac:(unfold bound; simpl; lia)). discriminate H.
Qed.

Lemma nan_false :
  ~ (forall y, related Req default y = false) /\ (forall y, related Req default y = true /\ related Rlt default y = false /\ related Rle default y = true).
Proof. split; [intros H; specialize (H NaN); discriminate H|]. intros y. repeat split. Qed.

Lemma equality_false :
  ~ (forall p x, py_related p Req x (OOther None) = Ok false) /\ (forall p r x, py_related p r x (OOther None) = Err Throw).
Proof. split; [intros H; specialize (H 1024 NaN); discriminate H|]. reflexivity. Qed.

Lemma predicates_false :
  (forall x, py_isnan x = true <-> x = NaN) /\
  ~ (forall x, py_isinf x = is_inf x) /\ ~ (forall x, x <> NaN -> py_signbit x = negative x).
Proof.
  split; [intros []; simpl; split; congruence|]. split; intros H.
  - specialize (H (Inf false)). discriminate H.
  - specialize (H (Num true 1 0) ltac:(discriminate)). discriminate H.
Qed.
