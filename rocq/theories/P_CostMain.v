(** Laws of the contraction cost (C20). *)
From Coq Require Import Permutation.
From Verif Require Import M_Base M_Bitset M_Tree M_CTree M_Cost S_Tree S_Opt P_Base P_Bitset P_Opt P_Cost.
Set Implicit Arguments.
Unset Strict Implicit.
Local Open Scope Z_scope.

Lemma nth_repeat_lt (A : Type) (k d : A) n i : (i < n)%nat -> nth i (repeat k n) d = k.
Proof. revert i. induction n as [|n IH]; intros [|i] H; simpl; auto; try lia. apply IH. lia. Qed.

(** The cost model and index sets [x], [y], [z] of size [n]. *)
Lemma c20_product m (a b c : bitset) d n x y z :
  cmodel_ok m n -> length a = n -> length b = n -> length c = n ->
  (forall i, xorb (nth i a false) (nth i b false) = true -> nth i c false = true) ->
  (forall i, nth i c false = true -> nth i a false || nth i b false = true) ->
  Permutation [x; y; z] [a; b; c] ->
  ccost_of m x y z d =
  let j i := nth i a false || nth i b false || nth i c false in
  match m with
  | Simple => prod_over j (dimension d) n
  | Sparse sp np =>
      prod_over (fun i => j i && negb (nth i sp false)) (dimension d) n *
      Z.min (prod_over (fun i => j i && nth i sp false) (dimension d) n) np
  end.
Proof.
  intros Hm La Lb Lc H1 H2 HP.
  assert (Hxy : length x = n /\ length y = n /\ forall i, btest x i || btest y i = btest a i || btest b i || btest c i).
  { assert (G : forall i, (btest a i || btest b i = btest a i || btest b i || btest c i) /\
        (btest a i || btest c i = btest a i || btest b i || btest c i) /\
        (btest b i || btest c i = btest a i || btest b i || btest c i)).
    { intros i. specialize (H1 i). specialize (H2 i). unfold btest.
      destruct (nth i a false), (nth i b false), (nth i c false); simpl in *; intuition congruence. }
    assert (In x [a; b; c]) by (eapply Permutation_in; [eauto|simpl; auto]).
    assert (In y [a; b; c]) by (eapply Permutation_in; [eauto|simpl; auto]).
    assert (Lxyz : length x = n /\ length y = n).
    { split; [clear H0; simpl in H|clear H; simpl in H0]; intuition congruence. }
    split; [tauto|]. split; [tauto|]. intros i. destruct (G i) as (G1 & G2 & G3).
    assert (Hc : Permutation (map (fun s => btest s i) [x; y; z]) (map (fun s => btest s i) [a; b; c])) by (apply Permutation_map; auto).
    simpl in Hc.
    assert (Hcnt : forall v, count_occ bool_dec [btest x i; btest y i; btest z i] v = count_occ bool_dec [btest a i; btest b i; btest c i] v).
    { intros v. apply Permutation_count_occ. auto. }
    specialize (Hcnt true). simpl in Hcnt. clear - Hcnt G1 G2 G3.
    destruct (btest x i), (btest y i), (btest z i), (btest a i), (btest b i), (btest c i); simpl in *; congruence || discriminate. }
  destruct Hxy as (Lx & Ly & E). rewrite (ccost_prod _ _ Hm Lx Ly).
  assert (Ed : forall i, dim_at d i = dimension d i) by (intros; unfold dim_at, dimension; auto).
  destruct m as [|sp np]; cbn zeta; [|f_equal; [|f_equal]]; apply prod_over_ext; intros i Hi; split; auto; rewrite E; auto.
Qed.

Lemma c20_uniform m a b c k n : cmodel_ok m n -> length a = n -> length b = n ->
  ccost_of m a b c (DInt k) = ccost_of m a b c (DVec (repeat k n)).
Proof.
  intros Hm La Lb. rewrite !(ccost_prod _ _ Hm La Lb).
  destruct m as [|sp np]; cbn zeta; [|f_equal; [|f_equal]]; apply prod_over_ext; intros i Hi; split; auto; intros _;
    simpl; rewrite nth_repeat_lt by auto; auto.
Qed.

Lemma c20_monotone m a b c a' b' c' d n : cmodel_ok m n ->
  length a = n -> length b = n -> length a' = n -> length b' = n ->
  (forall i, (i < n)%nat -> 1 <= dimension d i) ->
  (forall i, nth i a false || nth i b false = true -> nth i a' false || nth i b' false = true) ->
  ccost_of m a b c d <= ccost_of m a' b' c' d.
Proof.
  intros Hm La Lb La' Lb' Hd Hs. rewrite (ccost_prod _ _ Hm La Lb), (ccost_prod _ _ Hm La' Lb').
  assert (Hd' : forall i, (i < n)%nat -> 1 <= dim_at d i) by (intros i Hi; apply Hd; auto).
  fold (btest a) in Hs.
  destruct m as [|sp np]; cbn zeta.
  - apply prod_over_mono; auto. intros i _. apply Hs.
  - set (f1 := prod_over _ _ n). set (f2 := prod_over _ _ n). set (g1 := prod_over _ _ n). set (g2 := prod_over _ _ n).
    assert (f1 <= g1). { apply prod_over_mono; auto. intros i _. rewrite !andb_true_iff. intros (H & H'). split; auto. apply Hs; auto. }
    assert (f2 <= g2). { apply prod_over_mono; auto. intros i _. rewrite !andb_true_iff. intros (H' & H''). split; auto. apply Hs; auto. }
    assert (1 <= f1) by (apply prod_over_pos; auto). assert (1 <= f2) by (apply prod_over_pos; auto).
    destruct Hm as (_ & Hn). apply Z.mul_le_mono_nonneg; lia.
Qed.

Lemma c20_sparse sp np a b c d n : length sp = n -> 1 <= np -> length a = n -> length b = n ->
  (forall i, (i < n)%nat -> 1 <= dimension d i) ->
  1 <= ccost_of (Sparse sp np) a b c d <= ccost_of Simple a b c d /\
  (prod_over (fun i => (nth i a false || nth i b false) && nth i sp false) (dimension d) n <= np ->
   ccost_of (Sparse sp np) a b c d = ccost_of Simple a b c d).
Proof.
  intros Ls Hn La Lb Hd. assert (Hm : cmodel_ok (Sparse sp np) n) by (split; auto).
  rewrite (ccost_prod _ _ Hm La Lb). rewrite (@ccost_prod Simple _ _ _ _ n I La Lb). cbn zeta.
  assert (Hd' : forall i, (i < n)%nat -> 1 <= dim_at d i) by (intros i Hi; apply Hd; auto).
  rewrite (prod_over_split (fun x => btest a x || btest b x) (btest sp) (dim_at d) n).
  change (prod_over (fun i => (nth i a false || nth i b false) && nth i sp false) (dimension d) n)
    with (prod_over (fun i => (btest a i || btest b i) && btest sp i) (dim_at d) n).
  set (f1 := prod_over _ _ n). set (f2 := prod_over _ _ n).
  assert (1 <= f1) by (apply prod_over_pos; auto). assert (1 <= f2) by (apply prod_over_pos; auto).
  split; [split; nia|]. intros H1. rewrite Z.min_l by auto. auto.
Qed.
