(** The search reaches every contraction tree: from the dice to the cost. *)
From Coq Require Import Permutation QArith Reals Qreals.
From Verif Require Import M_Base M_Bitset M_Tree M_CTree M_Cost M_Opt M_InfMem M_Prob S_Tree S_Opt S_Reach
  P_Base P_Bitset P_Tree P_Shape P_TreeProps P_Opt P_Cost P_OptCost P_InfMem P_Canon P_InfMemMain P_InfMemFinal
  P_Reach P_ReachSim.
Set Implicit Arguments.
Unset Strict Implicit.
Local Open Scope nat_scope.

(** ** The same order has the same cost *)
Section Cost.
Variables (c c' : ctree) (n : nat) (out : nat -> Prop) (T T' : bt).
Hypothesis HC : core (nodes c) (inds c) n.
Hypothesis HC' : core (nodes c') (inds c') n.
Hypothesis HT : tree_of (nodes c) T.
Hypothesis HT' : tree_of (nodes c') T'.
Hypothesis HX : exact_inds c out.
Hypothesis HX' : exact_inds c' out.
Hypothesis Elen : length (nodes c') = length (nodes c).
Hypothesis Eleaf : forall l, l < (length (nodes c) + 1) / 2 -> nth_error (inds c') l = nth_error (inds c) l.
Hypothesis Edims : dims c' = dims c.

Lemma all_leaves p : In p (leaves T) <-> In p (leaves T').
Proof. destruct HT as (_ & _ & _ & H), HT' as (_ & _ & _ & H'). rewrite H, H', Elen. tauto. Qed.

Lemma leaf_has p x : In p (leaves T) -> has c p x <-> has c' p x.
Proof. intros Hp. unfold has. destruct HT as (_ & _ & _ & H). apply H in Hp. rewrite Eleaf by auto. tauto. Qed.

Lemma same_has S S' x : subtree S T -> subtree S' T' -> (forall p, In p (leaves S) <-> In p (leaves S')) ->
  (has c (top S) x <-> has c' (top S') x).
Proof.
  intros HS HS' HL. rewrite (exact_at HT HX x HS), (exact_at HT' HX' x HS'). unfold below, outside.
  assert (E1 : (exists l, In l (leaves S) /\ has c l x) <-> (exists l, In l (leaves S') /\ has c' l x)).
  { split; intros (l & H1 & H2); exists l.
    - split; [apply HL; auto|]. apply leaf_has; auto. eapply leaves_sub; eauto.
    - apply HL in H1. split; auto. apply leaf_has; auto. eapply leaves_sub; eauto. }
  assert (E2 : (exists l, In l (leaves T) /\ ~ In l (leaves S) /\ has c l x) <->
               (exists l, In l (leaves T') /\ ~ In l (leaves S') /\ has c' l x)).
  { split; intros (l & H1 & H2 & H3); exists l.
    - rewrite <- all_leaves, <- HL. split; auto. split; auto. apply leaf_has; auto.
    - rewrite <- all_leaves in H1. rewrite HL. split; auto. split; auto. apply leaf_has; auto. }
  tauto.
Qed.

Lemma has_carries k v x : has k v x <-> carries k v x = true.
Proof.
  rewrite has_ix. unfold carries, ix, btest. split; [tauto|]. intros H. split; auto.
  destruct (lt_dec v (length (inds k))); auto. rewrite (nth_overflow (inds k)) in H by lia.
  destruct x; discriminate.
Qed.

Lemma same_carries S S' x : subtree S T -> subtree S' T' -> (forall p, In p (leaves S) <-> In p (leaves S')) ->
  carries c (top S) x = carries c' (top S') x.
Proof.
  intros H1 H2 H3. pose proof (same_has x H1 H2 H3) as H. rewrite !has_carries in H.
  destruct (carries c (top S) x), (carries c' (top S') x); auto; symmetry; tauto || (symmetry; tauto).
Qed.

Lemma like_leaves S S' p : like (er S) (er S') -> In p (leaves S) <-> In p (leaves S').
Proof.
  intros H. rewrite <- !er_lv. split; apply Permutation_in; [|apply Permutation_sym]; apply like_lv; auto.
Qed.

Lemma step_cost_eq m sl a b a' b' :
  (forall x, carries c a x || carries c b x = carries c' a' x || carries c' b' x) ->
  step_cost m c n sl a b = step_cost m c' n sl a' b'.
Proof.
  intros H. unfold step_cost. rewrite Edims.
  destruct m; [|f_equal; [|f_equal]]; apply prod_over_ext; intros i _; rewrite H; auto.
Qed.

Lemma cost_eq m sl : like (er T) (er T') -> tree_cost m c n sl T = tree_cost m c' n sl T'.
Proof.
  assert (G : forall S S', subtree S T -> subtree S' T' -> like (er S) (er S') ->
    tree_cost m c n sl S = tree_cost m c' n sl S').
  { unfold tree_cost. induction S as [p|p l IHl r IHr]; intros [p'|p' l' r'] HS HS' HL; simpl in HL; inversion HL; subst; auto.
    - assert (Sl : subtree l T) by (eapply subtree_trans; [|exact HS]; apply sub_left; constructor).
      assert (Sr : subtree r T) by (eapply subtree_trans; [|exact HS]; apply sub_right; constructor).
      assert (Sl' : subtree l' T') by (eapply subtree_trans; [|exact HS']; apply sub_left; constructor).
      assert (Sr' : subtree r' T') by (eapply subtree_trans; [|exact HS']; apply sub_right; constructor).
      cbn [bt_cost]. rewrite (IHl l'), (IHr r') by auto. f_equal. apply step_cost_eq. intros x.
      rewrite (@same_carries l l' x), (@same_carries r r' x); auto; intros q; apply like_leaves; auto.
    - assert (Sl : subtree l T) by (eapply subtree_trans; [|exact HS]; apply sub_left; constructor).
      assert (Sr : subtree r T) by (eapply subtree_trans; [|exact HS]; apply sub_right; constructor).
      assert (Sl' : subtree l' T') by (eapply subtree_trans; [|exact HS']; apply sub_left; constructor).
      assert (Sr' : subtree r' T') by (eapply subtree_trans; [|exact HS']; apply sub_right; constructor).
      cbn [bt_cost]. rewrite (IHl r'), (IHr l') by auto.
      assert (E : step_cost m c n sl (top l) (top r) = step_cost m c' n sl (top l') (top r')).
      { apply step_cost_eq. intros x. rewrite (@same_carries l r' x), (@same_carries r l' x), orb_comm; auto;
          intros q; apply like_leaves; auto. }
      rewrite E. lia. }
  apply G; constructor.
Qed.
End Cost.

Lemma leaves_nodup T : NoDup (positions T) -> NoDup (leaves T).
Proof.
  induction T as [p|p l IHl r IHr]; intros ND; [simpl; constructor; auto; constructor|].
  apply nd_node in ND. destruct ND as (N1 & N2 & N3 & N4 & N5). simpl. apply nodup_app. split; auto. split; auto.
  intros z Hz Hz'. apply (N5 z); apply leaves_in; auto.
Qed.

Lemma reach_tree c m ds mc (r0 : dice) s0 rds s out c' (prob : nat -> Z -> Z -> R) :
  exact_inds c out -> cmodel_ok m (n_inds c) -> im_make c m r0 ds mc = Ok s0 -> im_run rds s0 = Ok s ->
  same_problem c c' -> exact_inds c' out -> ctree_is_valid c' (negb ds) = true ->
  (forall i d t, (0 < prob i d t)%R) ->
  exists K ints eps k, (0 < eps)%R /\
    forall us, length us = k -> Forall (fun u => (Q2R u <= eps)%R) us ->
    exists s', im_run (map (fun i => dice_rand (prob i)) (seq 0 K)) (with_rng s (ints, us)) = Ok s' /\
      (exists T T', tree_of (nodes (im_ct s')) T /\ tree_of (nodes c') T' /\ same_order T T') /\
      exists z, im_total s' = Ok z /\ get_cost (im_ccost m (dims c')) c' = Ok z /\ (im_min s' <= z)%Z.
Proof.
  intros HX Hcm Hm Hr HSP HX' V' Hp.
  assert (W : wfl (nodes c)) by (apply wf_iff; eapply exact_wf; eauto).
  destruct (im_make_inv W Hm) as (HI & Hmin & Ec & Ed & Em & Er & Emc & V1 & V2 & T1 & T2).
  destruct (run_ok rds HI) as (s' & E' & HI' & D' & M' & P'). rewrite E' in Hr. inversion Hr; subst s'. clear Hr.
  pose proof (iv_core HI) as HC0. rewrite Ec in HC0, P'. rewrite Ed in D', P'.
  assert (HG : good c (n_inds c) ds s none) by (split; auto).
  destruct (wfl_tree_of (co_wf (iv_core HI'))) as (T & HT).
  pose proof (good_exact HC0 HX HG) as HXs.
  destruct HSP as (_ & W' & Edm & Elen & Eli & Elf & Etop).
  assert (W2 : wfl (nodes c')) by (apply wf_iff; auto).
  destruct (valid_core W2 V') as (HC' & _ & HS').
  assert (En : n_inds c' = n_inds c).
  { unfold n_inds. destruct (n_leaves_pos W) as (N1 & _). unfold n_leaves in N1.
    pose proof (Elf 0 N1) as E0. assert (L0 : 0 < length (inds c)).
    { rewrite (co_len HC0). apply (wl_len W). }
    rewrite (nth_error_nth' (inds c) [] L0), (nth_error_nth' (inds c') []) in E0 by lia.
    inversion E0. congruence. }
  rewrite En in HC'.
  destruct (wfl_tree_of W2) as (T' & HT').
  (* both trees are valid for the graph of shared indices *)
  set (ad := adj c ds).
  assert (Hadj : forall k K, tree_of (nodes k) K -> length (nodes k) = length (nodes c) ->
     (forall l, l < (length (nodes c) + 1) / 2 -> nth_error (inds k) l = nth_error (inds c) l) ->
     core (nodes k) (inds k) (n_inds c) -> exact_inds k out -> ctree_is_valid k (negb ds) = true -> valid ad (er K)).
  { intros k K HK EL Hlf HCk HXk Vk.
    assert (Va : valid (adj k ds) (er K)).
    { apply (@er_valid k (n_inds c) out K ds HCk HK HXk). intros Hd. rewrite Hd in Vk. apply valid_all_share. exact Vk. }
    assert (Hsame : forall S, subtree S K -> valid (adj k ds) (er S) -> valid ad (er S)).
    { induction S as [p|p l IHl r IHr]; simpl; auto. intros HS (Vl & Vr & Vs).
      assert (Sl : subtree l K) by (eapply subtree_trans; [|exact HS]; apply sub_left; constructor).
      assert (Sr : subtree r K) by (eapply subtree_trans; [|exact HS]; apply sub_right; constructor).
      split; auto. split; auto. rewrite <- Vs. apply sh_ext. intros x y Hx Hy. rewrite er_lv in Hx, Hy.
      pose proof HK as (_ & _ & _ & Hlv). apply (leaves_sub Sl) in Hx. apply (leaves_sub Sr) in Hy.
      apply Hlv in Hx. apply Hlv in Hy. rewrite EL in Hx, Hy. unfold ad, adj, ix.
      assert (G : forall v, v < (length (nodes c) + 1) / 2 -> nth v (inds c) [] = nth v (inds k) []).
      { intros v Hv. pose proof (Hlf v Hv) as E0.
        destruct (nth_error (inds c) v) as [z|] eqn:Ez.
        - rewrite (nth_error_nth _ _ _ Ez), (nth_error_nth _ _ _ E0). auto.
        - apply nth_error_None in Ez. apply nth_error_None in E0. rewrite !nth_overflow by auto. auto. }
      rewrite !G by auto. auto. }
    apply Hsame; auto. constructor. }
  destruct (moves_same HC0 P') as (_ & _ & Edm1 & Elen1 & Eli1 & Elf1 & Etop1).
  destruct (c08_shared_valid HX Hm E') as (Vs & _).
  assert (VT : valid ad (er T)) by (eapply Hadj; eauto; apply (iv_core HI')).
  assert (VT' : valid ad (er T')) by (eapply Hadj; eauto).
  assert (HP : Permutation (lv (er T)) (lv (er T'))).
  { rewrite !er_lv. destruct (tree_of_in HT) as (ND & _), (tree_of_in HT') as (ND' & _).
    apply NoDup_Permutation; try (apply leaves_nodup; auto). intros p.
    destruct HT as (_ & _ & _ & H), HT' as (_ & _ & _ & H'). rewrite H, H', Elen, Elen1. tauto. }
  assert (HL1 : 1 < length (nodes (im_ct s))).
  { rewrite Elen1. rewrite <- Ec. apply (tot_length HI T1). }
  (* one sweep, then the way to the tree *)
  destruct T as [p|p l r].
  { exfalso. destruct HT as (_ & HPm & _). apply Permutation_length in HPm. rewrite seq_length in HPm.
    simpl in HPm. lia. }
  destruct (@can_step ad (adj_sym c ds) (er l) (er r) VT) as (v1 & Hst).
  assert (Hreach : reach ad v1 (er T')).
  { apply (@reach_all ad (adj_sym c ds) (length (lv v1))); auto.
    - apply (step_valid (adj_sym c ds) Hst). exact VT.
    - eapply Permutation_NoDup; [apply (step_lv Hst)|]. change (N (er l) (er r)) with (er (Nd p l r)).
      rewrite er_lv. apply leaves_nodup. apply (tree_of_in HT).
    - eapply Permutation_trans; [apply Permutation_sym, (step_lv Hst)|exact HP]. }
  destruct (@update_step c (n_inds c) out ds HC0 HX (prob 0) s (Nd p l r) v1 (Hp 0) HG HT Hst)
    as (pre & e1 & k1 & s1 & He1 & Hrun1 & HG1 & Ecm1 & Tb & HTb & HLb).
  destruct (@reach_run c (n_inds c) out ds HC0 HX v1 (er T') Hreach prob s1 Tb Hp HG1 HTb HLb 1)
    as (K & ints & e2 & k2 & s2 & He2 & Hrun2 & HG2 & Ecm2 & T3 & HT3 & HL3).
  exists (S K), (pre ++ ints), (Rmin e1 e2), (k1 + k2). split; [apply Rmin_pos; auto|].
  intros us Lu Hu. exists (with_rng s2 ([], [])).
  assert (Hrun : im_run (map (fun i => dice_rand (prob i)) (seq 0 (S K))) (with_rng s (pre ++ ints, us)) =
                 Ok (with_rng s2 ([], []))).
  { cbn [seq map im_run]. rewrite <- (firstn_skipn k1 us) in Hu |- *. apply Forall_app in Hu. destruct Hu as (Hu1 & Hu2).
    rewrite Hrun1; [|rewrite firstn_length; lia|].
    - cbn [bind]. rewrite <- (app_nil_r ints), <- (app_nil_r (skipn k1 us)). apply Hrun2; [rewrite skipn_length; lia|].
      eapply small_weaken; [|exact Hu2]. apply Rmin_r.
    - eapply small_weaken; [|exact Hu1]. apply Rmin_l. }
  split; [exact Hrun|]. split.
  { exists T3, T'. split; [exact HT3|]. split; auto. apply er_like. auto. }
  destruct HG2 as (HI2 & Ed2 & Mv2).
  exists (tot s2). split; [apply (im_total_ok (inv_rng _ HI2))|]. split.
  - rewrite (get_cost_tree m HC' HT'). cut (code_cost m c' T' = tot s2); [intros ->; reflexivity|].
    transitivity (code_cost (im_cm s2) (im_ct s2) T3); [|symmetry; apply (tot_tree HI2 HT3)].
    assert (Ecm : im_cm s2 = m).
    { transitivity (im_cm s1); [exact Ecm2|]. transitivity (im_cm s); [exact Ecm1|]. rewrite M'. exact Em. }
    rewrite Ecm, (code_cost_spec HC' HT' Hcm), (code_cost_spec (iv_core HI2) HT3 Hcm).
    destruct (moves_same HC0 Mv2) as (_ & _ & Edm2 & Elen2 & Eli2 & Elf2 & Etop2).
    symmetry. apply (@cost_eq (im_ct s2) c' (n_inds c) out T3 T'); auto.
    + apply (moves_exact HC0 Mv2 HX).
    + congruence.
    + intros v Hv. rewrite Elen2 in Hv. rewrite Elf, Elf2 by auto. auto.
    + congruence.
  - change (tot s2) with (tot (with_rng s2 (([] : list nat), ([] : list Q)))).
    eapply run_min_tot; [| | |exact Hrun].
    + apply inv_rng. exact HI'.
    + exact HL1.
    + discriminate.
Qed.

Lemma mh_positive beta delta old : (0 < mh_prob beta delta old)%R.
Proof. unfold mh_prob. destruct (delta <=? 0)%Z; [apply Rlt_0_1|]. unfold Rpower. apply exp_pos. Qed.

Lemma reach_tree_mh c m ds mc (r0 : dice) s0 rds s out c' (beta : nat -> R) :
  exact_inds c out -> cmodel_ok m (n_inds c) -> im_make c m r0 ds mc = Ok s0 -> im_run rds s0 = Ok s ->
  same_problem c c' -> exact_inds c' out -> ctree_is_valid c' (negb ds) = true ->
  exists K ints eps k, (0 < eps)%R /\
    forall us, length us = k -> Forall (fun u => (Q2R u <= eps)%R) us ->
    exists s', im_run (map (fun i => dice_rand (mh_prob (beta i))) (seq 0 K)) (with_rng s (ints, us)) = Ok s' /\
      (exists T T', tree_of (nodes (im_ct s')) T /\ tree_of (nodes c') T' /\ same_order T T') /\
      exists z, im_total s' = Ok z /\ get_cost (im_ccost m (dims c')) c' = Ok z /\ (im_min s' <= z)%Z.
Proof.
  intros H1 H2 H3 H4 H5 H6 H7.
  apply (reach_tree (prob := fun i => mh_prob (beta i)) H1 H2 H3 H4 H5 H6 H7).
  intros. apply mh_positive.
Qed.
