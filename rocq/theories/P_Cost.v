(** Laws of the infinite-memory cost models. *)
From Verif Require Import M_Base M_Bitset M_CTree M_Cost S_Opt P_Base P_Bitset P_Opt.
Set Implicit Arguments.
Unset Strict Implicit.
Local Open Scope Z_scope.

Lemma prod_over_ext p q d e n : (forall i, (i < n)%nat -> p i = q i /\ (p i = true -> d i = e i)) ->
  prod_over p d n = prod_over q e n.
Proof.
  induction n as [|n IH]; simpl; intros H; auto.
  rewrite IH by (intros i Hi; apply H; lia). destruct (H n) as (E & Ed); [lia|].
  rewrite <- E. destruct (p n); auto. rewrite Ed; auto.
Qed.

Lemma prod_over_pos p d n : (forall i, (i < n)%nat -> 1 <= d i) -> 1 <= prod_over p d n.
Proof.
  induction n as [|n IH]; simpl; intros H; [lia|].
  assert (1 <= prod_over p d n) by (apply IH; intros; apply H; lia).
  assert (1 <= d n) by (apply H; lia). destruct (p n); nia.
Qed.

Lemma prod_over_mono p q d n : (forall i, (i < n)%nat -> 1 <= d i) ->
  (forall i, (i < n)%nat -> p i = true -> q i = true) -> prod_over p d n <= prod_over q d n.
Proof.
  induction n as [|n IH]; simpl; intros Hd Hp; [lia|].
  assert (prod_over p d n <= prod_over q d n) by (apply IH; intros; [apply Hd; lia|apply Hp; auto; lia]).
  assert (1 <= prod_over p d n) by (apply prod_over_pos; intros; apply Hd; lia).
  assert (1 <= d n) by (apply Hd; lia). assert (Hpq := Hp n ltac:(lia)).
  destruct (p n), (q n); try nia.
Qed.

Lemma prod_over_split p s d n :
  prod_over p d n = prod_over (fun i => p i && negb (s i)) d n * prod_over (fun i => p i && s i) d n.
Proof. induction n as [|n IH]; simpl; auto. rewrite IH. destruct (p n), (s n); simpl; ring. Qed.

Lemma fold_prod_acc (f : nat -> Z) l a : fold_left (fun c i => c * f i) l a = a * fold_left (fun c i => c * f i) l 1.
Proof.
  revert a. induction l as [|x l IH]; intros a; cbn [fold_left]; [lia|].
  rewrite (IH (a * f x)), (IH (1 * f x)). ring.
Qed.

Lemma prod_filter (p : nat -> bool) f n :
  fold_left (fun c i => c * f i) (filter p (seq 0 n)) 1 = prod_over p f n.
Proof.
  induction n as [|n IH]; auto. rewrite seq_S, filter_app, fold_left_app, IH. simpl.
  destruct (p n); simpl; lia.
Qed.

Lemma prod_const (p : nat -> bool) x n :
  prod_over p (fun _ => x) n = x ^ Z.of_nat (length (filter p (seq 0 n))).
Proof.
  induction n as [|n IH]; auto. rewrite seq_S, filter_app, app_length. simpl. rewrite IH.
  destruct (p n); simpl.
  - rewrite Nat2Z.inj_add, Z.pow_add_r by lia. change (Z.of_nat 1) with 1. rewrite Z.pow_1_r. ring.
  - rewrite Nat.add_0_r. lia.
Qed.

Lemma simple_cost_prod b d : simple_get_cost b d = prod_over (btest b) (dim_at d) (length b).
Proof.
  destruct d as [x|l]; simpl.
  - rewrite (prod_const (btest b) (Z.of_N x)). rewrite bcount_spec. auto.
  - unfold bpositions. apply (prod_filter (btest b) (fun i => Z.of_N (nth i l 1%N))).
Qed.

Definition dims_pos (d : dims_t) : Prop := forall i, 1 <= dim_at d i.

Lemma dims_ok_pos c : dims_ok c = true -> dims_pos (dims c).
Proof.
  unfold dims_ok, dims_pos. destruct (dims c) as [x|l]; simpl; intros H i.
  - rewrite negb_true_iff, N.eqb_neq in H. lia.
  - apply andb_true_iff in H. destruct H as (_ & H). rewrite forallb_forall in H.
    destruct (Nat.lt_ge_cases i (length l)) as [Hi|Hi].
    + specialize (H _ (nth_In _ 1%N Hi)). rewrite negb_true_iff, N.eqb_neq in H. lia.
    + rewrite nth_overflow by auto. simpl. lia.
Qed.

Lemma sparse_cost_prod b sp np d : length sp = length b ->
  sparse_get_cost b sp np d =
  prod_over (fun i => btest b i && negb (btest sp i)) (dim_at d) (length b) *
  Z.min (prod_over (fun i => btest b i && btest sp i) (dim_at d) (length b)) np.
Proof.
  intros HL. unfold sparse_get_cost. rewrite !simple_cost_prod, bdiff_len, band_len by auto.
  rewrite (prod_over_ext (q := fun i => btest b i && negb (btest sp i)) (e := dim_at d)).
  2:{ intros i _. rewrite bdiff_test by auto. auto. }
  rewrite (prod_over_ext (p := btest (band b sp)) (q := fun i => btest b i && btest sp i) (e := dim_at d)).
  2:{ intros i _. rewrite band_test by auto. auto. }
  f_equal. set (x := prod_over _ _ _). destruct (Z.ltb_spec x np); lia.
Qed.

Lemma ccost_pos m a b c d n : cmodel_ok m n -> length a = n -> length b = n -> dims_pos d ->
  1 <= ccost_of m a b c d.
Proof.
  intros Hm La Lb Hd. assert (Lab : length (bor a b) = n) by (rewrite bor_len; congruence).
  unfold ccost_of. destruct m as [|sp np].
  - rewrite simple_cost_prod. apply prod_over_pos. intros; apply Hd.
  - destruct Hm as (Hs & Hnp). rewrite sparse_cost_prod by congruence.
    assert (1 <= prod_over (fun i => btest (bor a b) i && negb (btest sp i)) (dim_at d) (length (bor a b)))
      by (apply prod_over_pos; intros; apply Hd).
    assert (1 <= prod_over (fun i => btest (bor a b) i && btest sp i) (dim_at d) (length (bor a b)))
      by (apply prod_over_pos; intros; apply Hd).
    nia.
Qed.

(** ** The cost of the code is the cost of the specification *)
Lemma prod_or_false p q d n : (forall i, (i < n)%nat -> p i = q i) -> prod_over p d n = prod_over q d n.
Proof. intros H. apply prod_over_ext. intros; split; auto. Qed.

Lemma ccost_prod m a b c d n : cmodel_ok m n -> length a = n -> length b = n ->
  ccost_of m a b c d =
  let j x := btest a x || btest b x in
  match m with
  | Simple => prod_over j (dim_at d) n
  | Sparse sp np =>
      prod_over (fun x => j x && negb (btest sp x)) (dim_at d) n *
      Z.min (prod_over (fun x => j x && btest sp x) (dim_at d) n) np
  end.
Proof.
  intros Hm La Lb. assert (Lab : length (bor a b) = n) by (rewrite bor_len; congruence).
  unfold ccost_of. destruct m as [|sp np].
  - rewrite simple_cost_prod, Lab. apply prod_over_ext. intros i Hi. rewrite bor_test by congruence. auto.
  - destruct Hm as (Hs & Hn). rewrite sparse_cost_prod, Lab by congruence. simpl.
    f_equal; [|f_equal]; apply prod_over_ext; intros i Hi; rewrite bor_test by congruence; auto.
Qed.
