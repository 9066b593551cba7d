(** Sums over assignments of indices. *)
From Coq Require Import List Arith Lia Permutation Ring.
Import ListNotations.
From Verif Require Import M_Tensor S_Tensor.
Set Implicit Arguments.
Unset Strict Implicit.

Section Sum.
Variable K : Type.
Variable A : alg K.
Hypothesis SR : semiring A.
Let SR1 : semi_ring_theory (zero A) (one A) (add A) (mul A) eq := SR.
Add Ring KR : SR1.
Variable dim : nat -> nat.
Notation "0" := (zero A). Notation "x + y" := (add A x y). Notation "x * y" := (mul A x y).
Notation so := (sum_over A dim).

Lemma sum_upto_ext n f g : (forall i, i < n -> f i = g i) -> sum_upto A n f = sum_upto A n g.
Proof. intros H. unfold sum_upto. f_equal. apply map_ext_in. intros i Hi. apply in_seq in Hi. apply H. lia. Qed.
Lemma sum_upto_add n f g : sum_upto A n (fun i => f i + g i) = sum_upto A n f + sum_upto A n g.
Proof. unfold sum_upto. induction (seq 0%nat n) as [|i l IH]; simpl; [ring|]. rewrite IH. ring. Qed.
Lemma sum_upto_0 n : sum_upto A n (fun _ => 0) = 0.
Proof. unfold sum_upto. induction (seq 0%nat n) as [|i l IH]; simpl; [ring|]. rewrite IH. ring. Qed.
Lemma sum_upto_mul n c f : sum_upto A n (fun i => c * f i) = c * sum_upto A n f.
Proof. unfold sum_upto. induction (seq 0%nat n) as [|i l IH]; simpl; [ring|]. rewrite IH. ring. Qed.
Lemma sum_upto_swap n m f : sum_upto A n (fun i => sum_upto A m (fun j => f i j)) = sum_upto A m (fun j => sum_upto A n (fun i => f i j)).
Proof.
  unfold sum_upto at 1 4. induction (seq 0%nat n) as [|i l IH]; simpl; [symmetry; apply sum_upto_0|]. rewrite IH. symmetry. apply sum_upto_add.
Qed.

(** [f] does not depend on the values outside, resp. inside, a list *)
Definition same_off (ks : list nat) (v w : nat -> nat) : Prop := forall x, ~ In x ks -> v x = w x.
Definition depends_on (xs : list nat) (f : (nat -> nat) -> K) : Prop := forall v w, (forall x, In x xs -> v x = w x) -> f v = f w.

Lemma so_cons k ks f v : so (k :: ks) f v = sum_upto A (dim k) (fun i => so ks f (assign v k i)).
Proof. auto. Qed.
Lemma assign_same v x i : assign v x i x = i.
Proof. unfold assign. rewrite Nat.eqb_refl. auto. Qed.
Lemma assign_other v x i y : y <> x -> assign v x i y = v y.
Proof. intros H. unfold assign. destruct (Nat.eqb_spec y x); congruence. Qed.

Lemma so_ext ks : forall f g v, (forall w, same_off ks w v -> in_range dim ks w -> f w = g w) -> so ks f v = so ks g v.
Proof.
  induction ks as [|k ks IH]; intros f g v H; simpl; [apply H; [intros x _; auto|intros x []]|]. apply sum_upto_ext. intros i Hi. apply IH.
  intros w W1 W2. apply H.
  - intros x Hx. rewrite W1 by (intros K1; apply Hx; right; auto). apply assign_other. intros ->. apply Hx. left. auto.
  - intros x [<-|Hx]; [|auto]. destruct (in_dec Nat.eq_dec k ks) as [I|I]; [auto|]. rewrite W1, assign_same by auto. auto.
Qed.
Lemma so_app ks ls f v : so (ks ++ ls) f v = so ks (so ls f) v.
Proof. revert v. induction ks as [|k ks IH]; intros v; simpl; auto. apply sum_upto_ext. intros i _. apply IH. Qed.
Lemma so_depends ks : forall f xs v w, depends_on xs f -> (forall x, In x xs -> ~ In x ks -> v x = w x) -> so ks f v = so ks f w.
Proof.
  induction ks as [|k ks IH]; intros f xs v w Hf H; simpl; [apply Hf; intros x Hx; apply H; auto|]. apply sum_upto_ext. intros i _. apply (IH f xs); auto.
  intros x Hx Hk. unfold assign. destruct (Nat.eqb_spec x k); auto. apply H; auto. intros [E|E]; auto.
Qed.
Lemma so_depends_on ks f xs : depends_on xs f -> depends_on xs (so ks f).
Proof. intros H v w E. apply (@so_depends ks f xs); auto. Qed.
Lemma so_swap2 a b ks f xs v : depends_on xs f -> so (a :: b :: ks) f v = so (b :: a :: ks) f v.
Proof.
  intros Hf. destruct (Nat.eq_dec a b) as [->|N]; auto. simpl. rewrite sum_upto_swap. apply sum_upto_ext. intros i _. apply sum_upto_ext. intros j _.
  apply (@so_depends ks f xs); auto. intros x _ _. unfold assign. destruct (Nat.eqb_spec x a), (Nat.eqb_spec x b); congruence.
Qed.
Lemma so_perm ks ls f xs : depends_on xs f -> Permutation ks ls -> forall v, so ks f v = so ls f v.
Proof.
  intros Hf P. induction P as [|k l l' P IH|a b l|l l' l'' P1 IH1 P2 IH2]; intros v; auto.
  - simpl. apply sum_upto_ext. intros i _. apply IH.
  - apply (so_swap2 _ _ _ _ Hf).
  - rewrite IH1. auto.
Qed.
Lemma so_mul_l ks : forall f g xs v, depends_on xs g -> (forall x, In x xs -> ~ In x ks) -> so ks (fun w => g w * f w) v = g v * so ks f v.
Proof.
  induction ks as [|k ks IH]; intros f g xs v Hg H; simpl; auto. rewrite <- sum_upto_mul. apply sum_upto_ext. intros i _.
  rewrite (IH f g xs) by (auto; intros x Hx K1; apply (H x Hx); right; auto). f_equal. apply Hg. intros x Hx. apply assign_other. intros ->. apply (H k Hx). left. auto.
Qed.
Lemma so_mul ks ls f g xs ys v : depends_on xs f -> depends_on ys g -> (forall x, In x xs -> ~ In x ls) -> (forall y, In y ys -> ~ In y ks) ->
  so ks f v * so ls g v = so (ks ++ ls) (fun w => f w * g w) v.
Proof.
  intros Hf Hg H1 H2. rewrite so_app. transitivity (so ks (fun w => so ls g w * f w) v).
  - rewrite (@so_mul_l ks f (so ls g) ys); auto; [ring|apply so_depends_on; auto].
  - apply so_ext. intros w _ _. rewrite (@so_mul_l ls g f xs w) by auto. ring.
Qed.
End Sum.
