(** Counting in a tree: leaves that have an index, contractions of it, and where it is
    dropped. *)
From Coq Require Import List Arith Bool Lia.
From Verif Require Import M_Tree S_Tree.
Import ListNotations.
Set Implicit Arguments. Unset Strict Implicit.

Section Count.
Variable h : nat -> bool.
Fixpoint having (T : bt) : nat := match T with Lf p => Nat.b2n (h p) | Nd _ l r => having l + having r end.
Fixpoint joins (T : bt) : nat := match T with Lf _ => 0 | Nd _ l r => joins l + joins r + Nat.b2n (h (top l) && h (top r)) end.
Fixpoint drops (T : bt) : nat := match T with Lf _ => 0 | Nd p l r => drops l + drops r + Nat.b2n (h (top l) && h (top r) && negb (h p)) end.
(** the checks of a contraction *)
Fixpoint local (T : bt) : Prop :=
  match T with
  | Lf _ => True
  | Nd p l r => local l /\ local r /\ (xorb (h (top l)) (h (top r)) = true -> h p = true) /\ (h p = true -> h (top l) || h (top r) = true)
  end.
Lemma local_sub S T : subtree S T -> local T -> local S.
Proof. induction 1; simpl; tauto. Qed.
Lemma balance T : local T -> having T = joins T + drops T + Nat.b2n (h (top T)).
Proof.
  induction T as [p|p l IHl r IHr]; simpl; [lia|]. intros (Ll & Lr & H1 & H2). rewrite IHl, IHr by auto.
  destruct (h (top l)), (h (top r)), (h p); simpl in *; try lia; try (specialize (H1 eq_refl); discriminate); try (specialize (H2 eq_refl); discriminate).
Qed.
Lemma drops_le T : drops T <= joins T.
Proof. induction T as [p|p l IHl r IHr]; simpl; auto. destruct (h (top l) && h (top r)), (h p); simpl; lia. Qed.
Lemma has_having T : local T -> h (top T) = true -> 1 <= having T.
Proof. intros L H. rewrite (balance L), H. simpl. lia. Qed.
Lemma joins_lt T : local T -> joins T = 0 \/ joins T < having T.
Proof.
  induction T as [p|p l IHl r IHr]; simpl; auto. intros (Ll & Lr & _). specialize (IHl Ll). specialize (IHr Lr).
  destruct (h (top l) && h (top r)) eqn:E; simpl; [|lia]. apply andb_true_iff in E. destruct E as [E1 E2].
  apply has_having in E1; auto. apply has_having in E2; auto. lia.
Qed.
Lemma kept_no_drop T : local T -> drops T = 0 -> h (top T) = true <-> 1 <= having T.
Proof.
  intros L D. pose proof (balance L). pose proof (joins_lt L). split; [apply has_having; auto|].
  intros K. destruct (h (top T)); auto. simpl in *. lia.
Qed.
Lemma drops_sub S T : subtree S T -> drops S <= drops T.
Proof. induction 1; simpl; lia. Qed.
Lemma having_sub S T : subtree S T -> having S <= having T.
Proof. induction 1; simpl; lia. Qed.
Lemma carried S T : subtree S T -> local T -> h (top S) = true -> having S = having T -> h (top T) = true.
Proof.
  intros HS. induction HS as [|p l r HS IH|p l r HS IH]; simpl; auto; intros (Ll & Lr & H1 & H2) HT E; pose proof (having_sub HS).
  - assert (Z : having r = 0) by lia. specialize (IH Ll HT ltac:(lia)). destruct (h (top r)) eqn:Er; [apply has_having in Er; auto; lia|]. apply H1. rewrite IH. auto.
  - assert (Z : having l = 0) by lia. specialize (IH Lr HT ltac:(lia)). destruct (h (top l)) eqn:Er; [apply has_having in Er; auto; lia|]. apply H1. rewrite IH. auto.
Qed.
Lemma carried_outside S T : subtree S T -> local T -> h (top S) = false -> drops T = drops S -> having S < having T -> h (top T) = true.
Proof.
  intros HS. induction HS as [|p l r HS IH|p l r HS IH]; simpl; intros L HT D K; [lia| |]; destruct L as (Ll & Lr & H1 & H2); pose proof (drops_sub HS).
  - assert (Dr : drops r = 0) by lia. assert (Dp : h (top l) && h (top r) && negb (h p) = false) by (destruct (h (top l) && h (top r) && negb (h p)); auto; simpl in D; lia).
    assert (G : h (top l) = true \/ h (top r) = true).
    { destruct (Nat.eq_dec (having r) 0); [left; apply IH; auto; simpl in D; lia|right; apply kept_no_drop; auto; lia]. }
    destruct (h (top l)), (h (top r)), (h p); auto; simpl in *; try discriminate; try (apply H1; auto); intuition discriminate.
  - assert (Dr : drops l = 0) by lia. assert (Dp : h (top l) && h (top r) && negb (h p) = false) by (destruct (h (top l) && h (top r) && negb (h p)); auto; simpl in D; lia).
    assert (G : h (top l) = true \/ h (top r) = true).
    { destruct (Nat.eq_dec (having l) 0); [right; apply IH; auto; simpl in D; lia|left; apply kept_no_drop; auto; lia]. }
    destruct (h (top l)), (h (top r)), (h p); auto; simpl in *; try discriminate; try (apply H1; auto); intuition discriminate.
Qed.

(** The counts are right exactly when every node has the index as it should. *)
Theorem counts_exact T (o : bool) : local T -> 1 <= having T -> h (top T) = o -> joins T + 1 = having T ->
  forall S, subtree S T -> h (top S) = true <-> 1 <= having S /\ (having S < having T \/ o = true).
Proof.
  intros L K Ho J S HS. pose proof (balance L) as B. pose proof (local_sub HS L) as LS. pose proof (having_sub HS) as HH. destruct o.
  - rewrite Ho in B. simpl in B. assert (D : drops S = 0) by (pose proof (drops_sub HS); lia). rewrite (kept_no_drop LS D). intuition.
  - rewrite Ho in B. simpl in B. split.
    + intros H. split; [apply has_having; auto|]. left. destruct (Nat.eq_dec (having S) (having T)) as [E|E]; [|lia].
      rewrite (carried HS L H E) in Ho. discriminate.
    + intros [K1 [K2|]]; [|discriminate]. destruct (h (top S)) eqn:E; auto. exfalso.
      destruct (Nat.eq_dec (drops S) 0) as [D|D]; [apply (kept_no_drop LS D) in K1; congruence|].
      assert (drops T = drops S) by (pose proof (drops_sub HS); lia). rewrite (carried_outside HS L E) in Ho; auto. discriminate.
Qed.
Lemma one_drop K T : local T -> 1 <= K -> having T <= K ->
  (forall p l r, subtree (Nd p l r) T -> h (top l) && h (top r) && negb (h p) = true -> having (Nd p l r) = K) ->
  drops T = 0 \/ drops T = 1 /\ having T = K.
Proof.
  intros L HK. induction T as [p|p l IHl r IHr]; simpl; auto. intros KT HD. destruct L as (Ll & Lr & H1 & H2).
  destruct IHl as [Dl|[Dl El]]; auto; try lia. { intros; eapply HD; eauto. apply sub_left. auto. }
  - destruct IHr as [Dr|[Dr Er]]; auto; try lia. { intros; eapply HD; eauto. apply sub_right. auto. }
    + destruct (h (top l) && h (top r) && negb (h p)) eqn:E; simpl; [|lia]. right. split; [lia|]. apply (HD p l r); auto. constructor.
    + destruct (h (top l) && h (top r) && negb (h p)) eqn:E; simpl; [|lia]. exfalso. rewrite !andb_true_iff in E. destruct E as [[E _] _].
      apply has_having in E; auto. lia.
  - destruct IHr as [Dr|[Dr Er]]; auto; try lia. { intros; eapply HD; eauto. apply sub_right. auto. }
    destruct (h (top l) && h (top r) && negb (h p)) eqn:E; simpl; [|lia]. exfalso. rewrite !andb_true_iff in E. destruct E as [[_ E] _].
    apply has_having in E; auto. lia.
Qed.
Theorem exact_counts T (o : bool) : local T -> 1 <= having T ->
  (forall S, subtree S T -> h (top S) = true <-> 1 <= having S /\ (having S < having T \/ o = true)) ->
  h (top T) = o /\ joins T + 1 = having T.
Proof.
  intros L K X. pose proof (balance L) as B. pose proof (X T (sub_here T)) as XT.
  assert (Ho : h (top T) = o). { destruct (h (top T)), o; auto; [destruct (proj1 XT eq_refl) as [_ [?|?]]; [lia|auto]|apply XT; auto]. }
  split; auto. rewrite Ho in B. destruct (@one_drop (having T) T) as [D|[D _]]; auto.
  - intros p l r HS E. rewrite !andb_true_iff, negb_true_iff in E. destruct E as [[E1 E2] E3].
    pose proof (local_sub HS L) as (Ll & Lr & _). apply has_having in E1; auto.
    pose proof (having_sub HS) as HH. destruct (Nat.eq_dec (having (Nd p l r)) (having T)); auto. exfalso.
    assert (G : h (top (Nd p l r)) = true) by (apply X; auto; simpl in *; lia). simpl in G. congruence.
  - assert (h (top T) = true) by (apply kept_no_drop; auto). destruct o; simpl in *; [lia|congruence].
  - destruct o; simpl in *; [exfalso|lia].
    assert (G : exists p l r, subtree (Nd p l r) T /\ h (top l) && h (top r) && negb (h p) = true).
    { assert (D' : 1 <= drops T) by lia. clear - D'. induction T as [p|p l IHl r IHr]; simpl in D'; [lia|].
      destruct (h (top l) && h (top r) && negb (h p)) eqn:E; [exists p, l, r; split; auto; constructor|]. simpl in D'.
      destruct (Nat.eq_dec (drops l) 0); [destruct IHr as (a & b & c & A & B); [lia|]; exists a, b, c; split; auto; apply sub_right; auto|].
      destruct IHl as (a & b & c & A & B); [lia|]; exists a, b, c; split; auto; apply sub_left; auto. }
    destruct G as (p & l & r & HS & E). rewrite !andb_true_iff, negb_true_iff in E. destruct E as [[E1 E2] E3].
    pose proof (local_sub HS L) as (Ll & Lr & _). apply has_having in E1; auto.
    assert (G : h (top (Nd p l r)) = true) by (apply X; auto; simpl in *; lia). simpl in G. congruence.
Qed.
End Count.
