(** Proofs about ordered sets. *)
From Coq Require Import List Arith Bool Lia.
Import ListNotations.
From Verif Require Import M_Base M_Path M_PyTree M_OSet S_OSet P_Base P_Split P_PathMain P_PyBuild P_PyTens.
Set Implicit Arguments.
Unset Strict Implicit.

Lemma first_in l x : In x l -> exists i, first_at l x i.
Proof.
  induction l as [|y l IH]; [intros []|]. intros H. destruct (Nat.eq_dec y x) as [->|N].
  - exists 0. split; auto. lia.
  - destruct H as [H|H]; [congruence|]. destruct (IH H) as (i & A & B). exists (S i). split; auto.
    intros [|j] L; simpl; [congruence|apply B; lia].
Qed.
Lemma first_fun l x i j : first_at l x i -> first_at l x j -> i = j.
Proof.
  intros [A B] [A' B']. destruct (Nat.lt_trichotomy i j) as [H|[H|H]]; auto; [apply B' in H|apply B in H]; congruence.
Qed.
Lemma first_cons y l x i : first_at (y :: l) x i -> (i = 0 /\ x = y) \/ (x <> y /\ exists j, i = S j /\ first_at l x j).
Proof.
  intros [A B]. destruct i as [|i]; simpl in A; [inversion A; auto|]. right. split.
  - intros ->. apply (B 0); [lia|auto].
  - exists i. split; auto. split; auto. intros j L. apply (B (S j)). lia.
Qed.

Lemma unique_aux_order l : forall seen i j x y a b, i < j -> nth_error (unique_aux seen l) i = Some x -> nth_error (unique_aux seen l) j = Some y ->
  first_at l x a -> first_at l y b -> a < b.
Proof.
  induction l as [|z l IH]; intros seen i j x y a b L Hi Hj Ha Hb; simpl in *; [destruct i; discriminate|].
  assert (Hny : forall w k s, nth_error (unique_aux s l) k = Some w -> ~ In w s).
  { intros w k s H. apply nth_error_In in H. apply unique_aux_in in H. tauto. }
  destruct (memb z seen) eqn:M.
  - apply memb_In in M. apply first_cons in Ha, Hb. destruct Ha as [[_ ->]|(_ & a' & -> & Ha)]; [exfalso; apply (Hny _ _ _ Hi M)|].
    destruct Hb as [[_ ->]|(_ & b' & -> & Hb)]; [exfalso; apply (Hny _ _ _ Hj M)|]. apply -> Nat.succ_lt_mono. eapply IH; eauto.
  - destruct j as [|j]; [lia|]. simpl in Hj. apply first_cons in Ha, Hb. destruct Hb as [[_ ->]|(Nb & b' & -> & Hb)].
    { exfalso. apply (Hny _ _ _ Hj). left. auto. }
    destruct i as [|i]; simpl in Hi.
    + inversion Hi; subst z. destruct Ha as [[-> _]|(K & _)]; [lia|congruence].
    + destruct Ha as [[-> ->]|(_ & a' & -> & Ha)]; [lia|]. apply -> Nat.succ_lt_mono. eapply (IH (z :: seen) i j); eauto. lia.
Qed.
Lemma unique_ordered l : ordered_by l (unique l).
Proof. split; [intros x; apply unique_in|]. intros i j x y a b. apply unique_aux_order. Qed.
Lemma unique_aux_id l : forall seen, NoDup l -> (forall x, In x l -> ~ In x seen) -> unique_aux seen l = l.
Proof.
  induction l as [|x l IH]; intros seen HN H; auto. inversion HN as [|? ? N1 N2]; subst. simpl.
  rewrite (proj2 (memb_nIn x seen)) by (apply H; left; auto). f_equal. apply IH; auto.
  intros y Hy [<-|K]; [auto|]. apply (H y); [right; auto|auto].
Qed.
Lemma unique_id l : NoDup l -> unique l = l.
Proof. intros H. apply unique_aux_id; auto. Qed.

(** the first position in [l] and in [unique l] are ordered the same way *)
Lemma ordered_trans l r : ordered_by (unique l) r -> ordered_by l r.
Proof.
  intros [H1 H2]. split; [intros x Hx; apply H1 in Hx; rewrite unique_in in Hx; auto|]. intros i j x y a b L Hi Hj Ha Hb.
  assert (Hx : In x (unique l)) by (apply H1; eapply nth_error_In; eauto). assert (Hy : In y (unique l)) by (apply H1; eapply nth_error_In; eauto).
  destruct (first_in Hx) as (a' & Ha'). destruct (first_in Hy) as (b' & Hb').
  pose proof (H2 i j x y a' b' L Hi Hj Ha' Hb') as L'. destruct (unique_ordered l) as [_ U]. apply (U a' b' x y a b); auto; [apply Ha'|apply Hb'].
Qed.
Lemma ordered_sub l r : NoDup l -> (forall x, In x r -> In x l) ->
  (forall i j, i < j -> forall x y, nth_error r i = Some x -> nth_error r j = Some y -> exists a b, a < b /\ nth_error l a = Some x /\ nth_error l b = Some y) -> ordered_by l r.
Proof.
  intros HN H1 H2. split; auto. intros i j x y a b L Hi Hj [Ha _] [Hb _]. destruct (H2 i j L x y Hi Hj) as (a' & b' & L' & Ha' & Hb').
  rewrite NoDup_nth_error in HN. assert (a = a') by (apply HN; [apply nth_error_Some; congruence|congruence]).
  assert (b = b') by (apply HN; [apply nth_error_Some; congruence|congruence]). lia.
Qed.
Lemma filter_nth f (l : list nat) : forall i j, i < j -> forall x y, nth_error (filter f l) i = Some x -> nth_error (filter f l) j = Some y ->
  exists a b, a < b /\ nth_error l a = Some x /\ nth_error l b = Some y.
Proof.
  assert (F1 : forall (l : list nat) i x, nth_error (filter f l) i = Some x -> exists a, nth_error l a = Some x).
  { intros k i x H. apply nth_error_In, filter_In in H. apply In_nth_error. tauto. }
  induction l as [|z l IH]; intros i j L x y Hi Hj; simpl in *; [destruct i; discriminate|]. destruct (f z).
  - destruct j as [|j]; [lia|]. simpl in Hj. destruct i as [|i]; simpl in Hi.
    + destruct (F1 _ _ _ Hj) as (b & Hb). exists 0, (S b). split; [lia|]. auto.
    + destruct (IH i j ltac:(lia) x y Hi Hj) as (a & b & A & B & D). exists (S a), (S b). split; [lia|auto].
  - destruct (IH i j L x y Hi Hj) as (a & b & A & B & D). exists (S a), (S b). split; [lia|auto].
Qed.
Lemma filter_ordered f l : NoDup l -> ordered_by l (filter f l).
Proof. intros HN. apply ordered_sub; auto; [intros x Hx; apply filter_In in Hx; tauto|apply filter_nth]. Qed.

(** a filter of a concatenation, deduplicated, is ordered by the concatenation *)
Lemma unique_aux_filter f l : forall seen, unique_aux seen (filter f l) = filter f (unique_aux seen l).
Proof.
  assert (G : forall k s1 s2, (forall x, f x = true -> In x s1 <-> In x s2) -> unique_aux s1 (filter f k) = filter f (unique_aux s2 k)).
  { induction k as [|x k IH]; intros s1 s2 H; auto. simpl. destruct (f x) eqn:E; simpl.
    - assert (Em : memb x s1 = memb x s2) by (apply eq_true_iff_eq; rewrite !memb_In; apply H; auto). rewrite Em. destruct (memb x s2); [apply IH; auto|].
      simpl. rewrite E. f_equal. apply IH. intros y Hy. simpl. rewrite (H y Hy). tauto.
    - destruct (memb x s2); [apply IH; auto|]. simpl. rewrite E. apply IH. intros y Hy. rewrite (H y Hy). simpl. split; [auto|intros [->|K]; [congruence|auto]]. }
  intros seen. apply G. tauto.
Qed.
Lemma unique_filter f l : unique (filter f l) = filter f (unique l).
Proof. apply unique_aux_filter. Qed.
Lemma filter_unique_ordered f l : ordered_by l (unique (filter f l)).
Proof. rewrite unique_filter. apply ordered_trans, filter_ordered, unique_nodup. Qed.

Lemma ordered_app_coerce l o r : operand_made o -> ordered_by (unique l ++ order (coerce o)) r -> ordered_by (l ++ elements o) r.
Proof.
  intros Ho H. apply ordered_trans. assert (E : unique (l ++ elements o) = unique (unique l ++ order (coerce o))).
  { assert (U : forall k seen, unique_aux seen (k) = unique_aux seen (unique_aux seen k)).
    { intros k seen. symmetry. apply unique_aux_id; [apply unique_aux_nodup|]. intros x Hx. apply unique_aux_in in Hx. tauto. }
    assert (A : forall k1 k2 seen, unique_aux seen (k1 ++ k2) = unique_aux seen k1 ++ unique_aux (seen ++ k1) k2).
    { assert (P : forall k s1 s2, (forall x, In x s1 <-> In x s2) -> unique_aux s1 k = unique_aux s2 k).
      { induction k as [|x k IH]; intros s1 s2 HH; auto. simpl. assert (Em : memb x s1 = memb x s2) by (apply eq_true_iff_eq; rewrite !memb_In; auto).
        rewrite Em. destruct (memb x s2); [auto|]. f_equal. apply IH. intros y. simpl. rewrite HH. tauto. }
      induction k1 as [|x k1 IH]; intros k2 seen; simpl; [rewrite app_nil_r; auto|]. destruct (memb x seen) eqn:M.
      - rewrite IH. f_equal. apply P. intros y. rewrite !in_app_iff. simpl. apply memb_In in M. split; [tauto|]. intros [K|[->|K]]; auto.
      - simpl. f_equal. rewrite IH. f_equal. apply P. intros y. simpl. rewrite !in_app_iff. simpl. tauto. }
    assert (B : forall k s1 s2, (forall x, In x s1 <-> In x s2) -> unique_aux s1 (unique k) = unique_aux s2 k).
    { assert (G : forall k s1 s2 s3, (forall x, In x s1 <-> In x s2) -> (forall x, In x s3 -> In x s1) -> unique_aux s1 (unique_aux s3 k) = unique_aux s2 k).
      { induction k as [|x k IH]; intros s1 s2 s3 HH H3; auto. simpl. assert (Em : memb x s1 = memb x s2) by (apply eq_true_iff_eq; rewrite !memb_In; auto).
        destruct (memb x s3) eqn:M3.
        - apply memb_In, H3, memb_In in M3. rewrite Em in M3. rewrite M3. apply IH; auto.
        - simpl. rewrite Em. destruct (memb x s2) eqn:M2.
          + apply IH; auto. intros y [<-|K]; auto. apply memb_In. congruence.
          + f_equal. apply IH; simpl; [intros y; rewrite HH; tauto|]. intros y [K|K]; auto. }
      intros k s1 s2 HH. apply G; auto. intros x []. }
    unfold unique at 1 2. rewrite !A. simpl. f_equal; [apply U|].
    assert (Ec : forall s1 s2, (forall x, In x s1 <-> In x s2) -> unique_aux s1 (order (coerce o)) = unique_aux s2 (elements o)).
    { intros s1 s2 HH. destruct o as [s|k|k]; simpl; try (apply B; auto). destruct Ho as (k & ->). simpl.
      assert (U2 : unique (unique k) = unique k) by (apply unique_id, unique_nodup). rewrite <- U2 at 1. apply B. auto. }
    symmetry. apply Ec. intros x. apply unique_in. }
  rewrite E. destruct H as [H1 H2]. split; [intros x Hx; apply unique_in; auto|]. intros i j x y a b L Hi Hj [Ha _] [Hb _].
  destruct (first_in (H1 x (nth_error_In _ _ Hi))) as (a' & Fa). destruct (first_in (H1 y (nth_error_In _ _ Hj))) as (b' & Fb).
  pose proof (H2 i j x y a' b' L Hi Hj Fa Fb) as L'. destruct (Nat.lt_trichotomy a b) as [K|[K|K]]; auto.
  - subst b. rewrite Ha in Hb. inversion Hb; subst y. pose proof (first_fun Fa Fb). lia.
  - destruct (unique_ordered (unique l ++ order (coerce o))) as [_ U]. pose proof (U b a y x b' a' K Hb Ha Fb Fa). lia.
Qed.

Lemma coerce_in o x : operand_made o -> In x (order (coerce o)) <-> In x (elements o).
Proof. destruct o as [s|l|l]; simpl; intros H; [tauto|apply unique_in|apply unique_in]. Qed.


Lemma oset_iter l : set_like l (iter (ofs l)) (fun x => In x l).
Proof. split; [apply unique_nodup|]. split; [apply unique_ordered|intros x; apply unique_in]. Qed.
Lemma oset_ops l o : operand_made o ->
  set_like (l ++ elements o) (iter (union (ofs l) o)) (fun x => In x l \/ In x (elements o)) /\
  set_like l (iter (intersection (ofs l) o)) (fun x => In x l /\ In x (elements o)) /\
  set_like l (iter (difference (ofs l) o)) (fun x => In x l /\ ~ In x (elements o)) /\
  set_like (l ++ elements o) (iter (symmetric_difference (ofs l) o)) (fun x => (In x l /\ ~ In x (elements o)) \/ (In x (elements o) /\ ~ In x l)).
Proof.
  intros Ho. split; [|split; [|split]]; (split; [apply unique_nodup|split]).
  - apply (ordered_app_coerce Ho). apply unique_ordered.
  - intros x. simpl. rewrite unique_in, in_app_iff, unique_in, coerce_in; tauto.
  - apply ordered_trans. apply filter_unique_ordered.
  - intros x. simpl. rewrite unique_in, filter_In, unique_in, memb_In, coerce_in; tauto.
  - apply ordered_trans. apply filter_unique_ordered.
  - intros x. simpl. rewrite unique_in, filter_In, unique_in, negb_true_iff, memb_nIn, coerce_in; tauto.
  - apply (ordered_app_coerce Ho). apply filter_unique_ordered.
  - intros x. simpl. rewrite unique_in, filter_In, in_app_iff, unique_in, coerce_in by auto.
    assert (E : xorb (memb x (unique l)) (memb x (order (coerce o))) = true <-> (In x l /\ ~ In x (elements o)) \/ (In x (elements o) /\ ~ In x l)).
    { assert (A : memb x (unique l) = true <-> In x l) by (rewrite memb_In; apply unique_in).
      assert (B : memb x (order (coerce o)) = true <-> In x (elements o)) by (rewrite memb_In; apply coerce_in; auto).
      destruct (memb x (unique l)), (memb x (order (coerce o))); simpl; rewrite <- ?A, <- ?B; intuition discriminate. }
    rewrite E. tauto.
Qed.
Lemma oset_operators l o :
  (op_or (ofs l) o = if is_set o then Ok (union (ofs l) o) else Err Throw) /\
  (op_and (ofs l) o = if is_set o then Ok (intersection (ofs l) o) else Err Throw) /\
  (op_sub (ofs l) o = if is_set o then Ok (difference (ofs l) o) else Err Throw) /\
  (op_xor (ofs l) o = if is_set o then Ok (symmetric_difference (ofs l) o) else Err Throw).
Proof. repeat split. Qed.

Lemma sub_list_ok l k : sub_list l k = true <-> incl l k.
Proof. unfold sub_list. rewrite forallb_forall. split; intros H x Hx; specialize (H x Hx); rewrite memb_In in *; auto. Qed.
Lemma incl_unique l k : incl (unique l) k <-> incl l k.
Proof. split; intros H x Hx; apply H, unique_in; auto. Qed.
Lemma unique_incl l k : incl k (unique l) <-> incl k l.
Proof. split; intros H x Hx; apply unique_in, H; auto. Qed.
Lemma oset_compare l o : is_set o = true -> exists le ge lt gt eq,
  op_le (ofs l) o = Ok le /\ op_ge (ofs l) o = Ok ge /\ op_lt (ofs l) o = Ok lt /\ op_gt (ofs l) o = Ok gt /\ op_eq (ofs l) o = Ok eq /\
  (le = true <-> incl l (elements o)) /\ (ge = true <-> incl (elements o) l) /\
  (lt = true <-> incl l (elements o) /\ ~ incl (elements o) l) /\ (gt = true <-> incl (elements o) l /\ ~ incl l (elements o)) /\
  (eq = true <-> forall x, In x l <-> In x (elements o)).
Proof.
  intros H. unfold op_le, op_ge, op_lt, op_gt, op_eq. rewrite H. do 5 eexists. do 5 (split; [reflexivity|]). simpl.
  assert (N : forall b P, (b = true <-> P) -> (negb b = true <-> ~ P)) by (intros [|] P K; simpl; intuition discriminate).
  assert (A : sub_list (unique l) (elements o) = true <-> incl l (elements o)) by (rewrite sub_list_ok; apply incl_unique).
  assert (B : sub_list (elements o) (unique l) = true <-> incl (elements o) l) by (rewrite sub_list_ok; apply unique_incl).
  split; auto. split; auto. rewrite !andb_true_iff, A, B, (N _ _ A), (N _ _ B). split; [tauto|]. split; [tauto|].
  unfold incl. split; [intros [K1 K2] x; split; auto|intros K; split; intros x; apply K].
Qed.
Lemma oset_tests l o : (isdisjoint (ofs l) o = true <-> forall x, ~ (In x l /\ In x (elements o))) /\
  (issubset (ofs l) o = true <-> incl l (elements o)) /\ (issuperset (ofs l) o = true <-> incl (elements o) l).
Proof.
  split; [|split].
  - unfold isdisjoint. rewrite negb_true_iff, <- not_true_iff_false, existsb_exists. simpl. split.
    + intros H x [A B]. apply H. exists x. rewrite unique_in, memb_In. auto.
    + intros H (x & A & B). rewrite unique_in in A. apply memb_In in B. apply (H x). auto.
  - unfold issubset. rewrite forallb_forall. simpl. split; intros H x Hx; [apply memb_In, H, unique_in; auto|apply memb_In, H, unique_in; auto].
  - unfold issuperset. rewrite forallb_forall. simpl. split; intros H x Hx; [apply H, memb_In in Hx; rewrite unique_in in Hx; auto|apply memb_In, unique_in; auto].
Qed.
Lemma oset_len l : len (ofs l) = length (nodup Nat.eq_dec l) /\ copy (ofs l) = ofs l.
Proof.
  split.
  - unfold len. simpl. apply Nat.le_antisymm; apply NoDup_incl_length; auto using unique_nodup, NoDup_nodup; intros x Hx.
    + apply nodup_In. rewrite unique_in in Hx. auto.
    + apply unique_in. apply nodup_In in Hx. auto.
  - unfold copy, ofs, iter. simpl. f_equal. apply unique_id, unique_nodup.
Qed.
Lemma oset_hash_same hash l k : (forall i, nth_error (iter (ofs l)) i = nth_error (iter (ofs k)) i) -> oset_hash hash (ofs l) = oset_hash hash (ofs k).
Proof.
  intros H. unfold oset_hash. f_equal. unfold iter in H. revert H. generalize (order (ofs k)). induction (order (ofs l)) as [|x r IH]; intros [|y r'] H; auto.
  - specialize (H 0). discriminate.
  - specialize (H 0). discriminate.
  - pose proof (H 0) as H0. inversion H0. f_equal. apply IH. intros i. apply (H (S i)).
Qed.
Lemma oset_hash_bad hash : hash [0; 1] <> hash [1; 0] ->
  exists l k, op_eq (ofs l) (OSet (ofs k)) = Ok true /\ oset_hash hash (ofs l) <> oset_hash hash (ofs k).
Proof. intros H. exists [0; 1], [1; 0]. split; [reflexivity|]. exact H. Qed.
