(** Lemmas about results, checked access and list update. *)
From Verif Require Import M_Base.
Set Implicit Arguments.
Unset Strict Implicit.

Lemma get_ok (A : Type) (l : list A) i a : get l i = Ok a <-> nth_error l i = Some a.
Proof. unfold get. destruct (nth_error l i); split; congruence. Qed.

Lemma get_some (A : Type) (l : list A) i a : nth_error l i = Some a -> get l i = Ok a.
Proof. apply get_ok. Qed.

Lemma get_lt (A : Type) (l : list A) i : i < length l -> exists a, get l i = Ok a /\ nth_error l i = Some a.
Proof.
  intros H. destruct (nth_error l i) as [a|] eqn:E.
  - exists a. split; [apply get_some|]; auto.
  - apply nth_error_None in E. lia.
Qed.

Lemma upd_length (A : Type) (l : list A) i x : length (upd l i x) = length l.
Proof. revert i; induction l as [|y l IH]; intros [|i]; simpl; auto. Qed.

Lemma upd_eq (A : Type) (l : list A) i x : i < length l -> nth_error (upd l i x) i = Some x.
Proof. revert i; induction l as [|y l IH]; intros [|i]; simpl; intros; try lia; auto. apply IH; lia. Qed.

Lemma upd_neq (A : Type) (l : list A) i j x : i <> j -> nth_error (upd l i x) j = nth_error l j.
Proof.
  revert i j; induction l as [|y l IH]; intros [|i] [|j]; simpl; intros; try lia; auto.
Qed.

Lemma upd_nth (A : Type) (l : list A) i j x :
  nth_error (upd l i x) j = if (i =? j) && (i <? length l) then Some x else nth_error l j.
Proof.
  destruct (Nat.eqb_spec i j) as [->|Hn]; simpl.
  - destruct (Nat.ltb_spec j (length l)).
    + apply upd_eq; auto.
    + replace (upd l j x) with l; auto.
      revert j H; induction l as [|y l IH]; intros [|j]; simpl; intros; auto; try lia.
      f_equal. apply IH. lia.
  - apply upd_neq; auto.
Qed.

Lemma set_ok (A : Type) (l : list A) i x : i < length l -> set l i x = Ok (upd l i x).
Proof. intros H. unfold set. apply Nat.ltb_lt in H. rewrite H. auto. Qed.

Lemma set_inv (A : Type) (l : list A) i x l' : set l i x = Ok l' -> i < length l /\ l' = upd l i x.
Proof. unfold set. destruct (Nat.ltb_spec i (length l)); intros E; inversion E; auto. Qed.

Lemma nth_error_lt (A : Type) (l : list A) i a : nth_error l i = Some a -> i < length l.
Proof. intros H. apply nth_error_Some. congruence. Qed.

Lemma nth_error_ext (A : Type) (l k : list A) :
  (forall i, nth_error l i = nth_error k i) -> l = k.
Proof.
  revert k; induction l as [|x l IH]; intros [|y k] H; auto.
  - specialize (H 0); discriminate.
  - specialize (H 0); discriminate.
  - pose proof (H 0) as H0. simpl in H0. inversion H0; subst. f_equal.
    apply IH. intros i. apply (H (S i)).
Qed.

Lemma bind_ok (A B : Type) (x : res A) (f : A -> res B) b :
  bind x f = Ok b <-> exists a, x = Ok a /\ f a = Ok b.
Proof.
  destruct x; simpl; split.
  - intros H; eauto.
  - intros [a' [H1 H2]]; congruence.
  - discriminate.
  - intros [a' [H1 H2]]; congruence.
Qed.

Lemma upd_upd (A : Type) (l : list A) i x y : upd (upd l i x) i y = upd l i y.
Proof. revert i; induction l as [|z l IH]; intros [|i]; simpl; auto. f_equal; auto. Qed.

Lemma upd_same (A : Type) (l : list A) i x : nth_error l i = Some x -> upd l i x = l.
Proof.
  revert i; induction l as [|z l IH]; intros [|i]; simpl; intros; try congruence.
  f_equal; auto.
Qed.

Lemma map2_length (A B C : Type) (f : A -> B -> C) l k : length (map2 f l k) = Nat.min (length l) (length k).
Proof. revert k; induction l as [|x l IH]; intros [|y k]; simpl; auto. Qed.

Lemma sumZ_app l k : sumZ (l ++ k) = (sumZ l + sumZ k)%Z.
Proof. induction l as [|x l IH]; simpl; auto. rewrite IH. lia. Qed.

Lemma sumZ_upd l i x y : nth_error l i = Some y -> sumZ (upd l i x) = (sumZ l - y + x)%Z.
Proof.
  revert i; induction l as [|z l IH]; intros [|i]; simpl; intros H; try discriminate.
  - inversion H; subst. lia.
  - rewrite (IH i H). lia.
Qed.
