(** The finite-width search reaches every contraction tree. *)
From Coq Require Import Permutation QArith Reals Qreals.
From Verif Require Import M_Base M_Bitset M_Tree M_CTree M_Cost M_Opt M_InfMem M_FinWidth M_Prob S_Tree S_Opt S_FinWidth S_Reach
  S_ReachFin P_Base P_Bitset P_Tree P_Shape P_TreeProps P_Opt P_OptCost P_InfMem P_Canon P_Cost P_InfMemMain P_InfMemFinal
  P_FinWidth P_FinWidthOpt P_FinWidthMain P_FinWidthFinal P_Reach P_ReachSim P_ReachFinal P_ReachFin.
Set Implicit Arguments.
Unset Strict Implicit.
Local Open Scope nat_scope.

Lemma like_sub T' S' : subtree S' T' -> forall T, like (er T) (er T') -> exists S, subtree S T /\ like (er S) (er S').
Proof.
  induction 1 as [|p l r H IH|p l r H IH]; intros T HL.
  - exists T. split; [constructor|auto].
  - destruct T as [q|q a b]; simpl in HL; inversion HL; subst.
    + destruct (IH a) as (S & H1 & H2); auto. exists S. split; auto. apply sub_left. auto.
    + destruct (IH b) as (S & H1 & H2); auto. exists S. split; auto. apply sub_right. auto.
  - destruct T as [q|q a b]; simpl in HL; inversion HL; subst.
    + destruct (IH b) as (S & H1 & H2); auto. exists S. split; auto. apply sub_right. auto.
    + destruct (IH a) as (S & H1 & H2); auto. exists S. split; auto. apply sub_left. auto.
Qed.

Lemma fitted_all (Rn : Type) lg (s : fw_state Rn) n w : finv lg s n w -> fitted lg s ->
  all_fit lg (fm_cm (fw_m s)) (fm_max (fw_m s)) n (fw_ct s) (mem (fw_sl s)).
Proof.
  intros HI Hf v Hv. specialize (Hf v Hv). pose proof (fv_sl HI) as Lsl.
  pose proof (co_sz (fv_core HI) (v := v) ltac:(rewrite <- (co_len (fv_core HI)); auto)) as Lb.
  rewrite (@width_spec lg (fw_m s) _ _ n) in Hf by (try apply (fv_m HI); rewrite bdiff_len; congruence).
  unfold node_fits. eapply Z.le_trans; [|exact Hf]. apply Z.eq_le_incl. apply set_width_ext. intros i _.
  change (mem (bdiff (ix (inds (fw_ct s)) v) (fw_sl s)) i) with (btest (bdiff (ix (inds (fw_ct s)) v) (fw_sl s)) i).
  rewrite bdiff_test by congruence. reflexivity.
Qed.

Lemma freach_tree lg fr0 c m maxnew (r0 : dice) ds skip mc sl msl s0 us0 s out c'
    (prob : nat -> Z -> Z -> R) (shf : nat -> list nat -> list nat) (upd_sl : nat -> bool) :
  fw_built lg fr0 c m maxnew r0 ds skip mc sl msl s0 -> all_shuffle us0 -> fw_run lg us0 s0 = Ok s ->
  n_inds c <= maxnew -> (set_width lg (fm_cm m) (dims c) (n_inds c) (mem skip) <= fm_max m)%Z ->
  exact_inds c out -> same_problem c c' -> exact_inds c' out -> ctree_is_valid c' (negb ds) = true ->
  (forall i d t, (0 < prob i d t)%R) -> (forall i l, Permutation (shf i l) l) ->
  exists K ints eps k, (0 < eps)%R /\
    forall us, length us = k -> Forall (fun u => (Q2R u <= eps)%R) us ->
    exists s', fw_run lg (map (fun i => (fdice_rand (prob i) (shf i), upd_sl i)) (seq 0 K)) (fset_rng s (ints, us)) = Ok s' /\
      (exists T T', tree_of (nodes (fw_ct s')) T /\ tree_of (nodes c') T' /\ same_order T T') /\
      (exists z, fw_total s' = Ok z /\ get_cost (fw_ccost m (dims c') (fw_sl s')) c' = Ok z /\ (fw_min s' <= z)%Z) /\
      (fm_cm m = Simple -> all_fit lg (fm_cm m) (fm_max m) (n_inds c) c' (mem (fw_sl s'))).
Proof.
  intros HB Hsh Hr Hmax Hsk HX HSP HX' V' Hp Hpm.
  pose proof (fb_log HB) as Hlog. pose proof (fb_model HB) as Hcm.
  pose proof (built_wfl HB) as W.
  destruct (built_inv HB) as (HI & Hmin & Hfit0 & Hmf & Ec & Ed & Em & En0 & Es & Emc & Hdj0 & _ & _ & V1 & V2 & T1 & T2 & _).
  destruct (built_run HB Hsh Hr) as (HI' & D1 & D2 & D3 & D4 & P' & Hdj & Hfit).
  pose proof (fv_core HI) as HC0. rewrite Ec in HC0.
  assert (Edims : dims (fw_ct s) = dims c) by apply (built_dims HB Hsh Hr).
  assert (HG : fgood lg c (n_inds c) ds s none).
  { split; auto. split; auto. split; auto. split; [congruence|]. split; auto.
    rewrite D2, D4, Edims. eapply Z.le_trans; [|exact Hsk]. apply Z.eq_le_incl. apply set_width_ext. intros i _. apply omem_oskip. }
  destruct (wfl_tree_of (co_wf (fv_core HI'))) as (T & HT).
  pose proof (fgood_exact HC0 HX HG) as HXs.
  destruct HSP as (_ & W' & Edm & Elen & Eli & Elf & Etop).
  assert (W2 : wfl (nodes c')) by (apply wf_iff; auto).
  destruct (valid_core W2 V') as (HC' & _ & HS').
  assert (En : n_inds c' = n_inds c).
  { unfold n_inds. destruct (n_leaves_pos W) as (N1 & _). unfold n_leaves in N1.
    pose proof (Elf 0 N1) as E0. assert (L0 : 0 < length (inds c)).
    { rewrite (co_len HC0). apply (wl_len W). }
    rewrite (nth_error_nth' (inds c) [] L0), (nth_error_nth' (inds c') []) in E0 by lia.
    inversion E0. congruence. }
  rewrite En in HC'.
  destruct (wfl_tree_of W2) as (T' & HT').
  set (ad := adj c ds).
  assert (Hadj : forall k K, tree_of (nodes k) K -> length (nodes k) = length (nodes c) ->
     (forall l, l < (length (nodes c) + 1) / 2 -> nth_error (inds k) l = nth_error (inds c) l) ->
     core (nodes k) (inds k) (n_inds c) -> exact_inds k out -> ctree_is_valid k (negb ds) = true -> valid ad (er K)).
  { intros k K HK EL Hlf HCk HXk Vk.
    assert (Va : valid (adj k ds) (er K)).
    { apply (@er_valid k (n_inds c) out K ds HCk HK HXk). intros Hd. rewrite Hd in Vk. apply valid_all_share. exact Vk. }
    assert (Hsame : forall S, subtree S K -> valid (adj k ds) (er S) -> valid ad (er S)).
    { induction S as [p|p l IHl r IHr]; simpl; auto. intros HS (Vl & Vr & Vs).
      assert (Sl : subtree l K) by (eapply subtree_trans; [|exact HS]; apply sub_left; constructor).
      assert (Sr : subtree r K) by (eapply subtree_trans; [|exact HS]; apply sub_right; constructor).
      split; auto. split; auto. rewrite <- Vs. apply sh_ext. intros x y Hx Hy. rewrite er_lv in Hx, Hy.
      pose proof HK as (_ & _ & _ & Hlv). apply (leaves_sub Sl) in Hx. apply (leaves_sub Sr) in Hy.
      apply Hlv in Hx. apply Hlv in Hy. rewrite EL in Hx, Hy. unfold ad, adj, ix.
      assert (G : forall v, v < (length (nodes c) + 1) / 2 -> nth v (inds c) [] = nth v (inds k) []).
      { intros v Hv. pose proof (Hlf v Hv) as E0.
        destruct (nth_error (inds c) v) as [z|] eqn:Ez.
        - rewrite (nth_error_nth _ _ _ Ez), (nth_error_nth _ _ _ E0). auto.
        - apply nth_error_None in Ez. apply nth_error_None in E0. rewrite !nth_overflow by auto. auto. }
      rewrite !G by auto. auto. }
    apply Hsame; auto. constructor. }
  destruct (moves_same HC0 P') as (_ & _ & Edm1 & Elen1 & Eli1 & Elf1 & Etop1).
  destruct (f08_shared HB (or_introl (ex_intro _ out HX)) Hsh Hr) as (Vs & _).
  assert (VT : valid ad (er T)) by (eapply Hadj; eauto; apply (fv_core HI')).
  assert (VT' : valid ad (er T')) by (eapply Hadj; eauto).
  assert (HP : Permutation (lv (er T)) (lv (er T'))).
  { rewrite !er_lv. destruct (tree_of_in HT) as (ND & _), (tree_of_in HT') as (ND' & _).
    apply NoDup_Permutation; try (apply leaves_nodup; auto). intros p.
    destruct HT as (_ & _ & _ & H), HT' as (_ & _ & _ & H'). rewrite H, H', Elen, Elen1. tauto. }
  assert (HL1 : 1 < length (nodes (fw_ct s))).
  { rewrite Elen1. rewrite <- Ec. apply (ftot_length HI T1). }
  destruct T as [p|p l r].
  { exfalso. destruct HT as (_ & HPm & _). apply Permutation_length in HPm. rewrite seq_length in HPm.
    simpl in HPm. lia. }
  destruct (@can_step ad (adj_sym c ds) (er l) (er r) VT) as (v1 & Hst).
  assert (Hreach : reach ad v1 (er T')).
  { apply (@reach_all ad (adj_sym c ds) (length (lv v1))); auto.
    - apply (step_valid (adj_sym c ds) Hst). exact VT.
    - eapply Permutation_NoDup; [apply (step_lv Hst)|]. change (N (er l) (er r)) with (er (Nd p l r)).
      rewrite er_lv. apply leaves_nodup. apply (tree_of_in HT).
    - eapply Permutation_trans; [apply Permutation_sym, (step_lv Hst)|exact HP]. }
  destruct (@fupdate_step lg c (n_inds c) out ds Hlog HC0 HX (shf 0) (Hpm 0) (prob 0) (upd_sl 0) s (Nd p l r) v1 (Hp 0) HG HT Hst)
    as (pre & e1 & k1 & s1 & He1 & Hrun1 & HG1 & Ecm1 & Tb & HTb & HLb).
  destruct (@freach_run lg c (n_inds c) out ds Hlog HC0 HX prob shf upd_sl Hp Hpm v1 (er T') Hreach s1 Tb HG1 HTb HLb 1)
    as (K & ints & e2 & k2 & s2 & He2 & Hrun2 & HG2 & Ecm2 & T3 & HT3 & HL3).
  exists (S K), (pre ++ ints), (Rmin e1 e2), (k1 + k2). split; [apply Rmin_pos; auto|].
  intros us Lu Hu. exists (fset_rng s2 ([], [])).
  set (seq1 := map (fun i => (fdice_rand (prob i) (shf i), upd_sl i)) (seq 0 (S K))).
  assert (Hrun : fw_run lg seq1 (fset_rng s (pre ++ ints, us)) = Ok (fset_rng s2 ([], []))).
  { unfold seq1. cbn [seq map fw_run]. rewrite <- (firstn_skipn k1 us) in Hu |- *. apply Forall_app in Hu. destruct Hu as (Hu1 & Hu2).
    rewrite Hrun1; [|rewrite firstn_length; lia|].
    - cbn [bind]. rewrite <- (app_nil_r ints), <- (app_nil_r (skipn k1 us)). apply Hrun2; [rewrite skipn_length; lia|].
      eapply small_weaken; [|exact Hu2]. apply Rmin_r.
    - eapply small_weaken; [|exact Hu1]. apply Rmin_l. }
  assert (Hshs : all_shuffle seq1).
  { apply Forall_forall. intros u Hi. unfold seq1 in Hi. apply in_map_iff in Hi. destruct Hi as (i & <- & _).
    intros z q. simpl. apply Hpm. }
  split; [exact Hrun|]. split.
  { exists T3, T'. split; [exact HT3|]. split; auto. apply er_like. auto. }
  destruct HG2 as (HI2 & Ed2 & Mv2 & _).
  destruct (moves_same HC0 Mv2) as (_ & _ & Edm2 & Elen2 & Eli2 & Elf2 & Etop2).
  assert (Ecm : fw_m s2 = m) by congruence.
  pose proof (moves_exact HC0 Mv2 HX) as HX2.
  assert (Elen3 : length (nodes c') = length (nodes (fw_ct s2))) by congruence.
  assert (Elf3 : forall q, q < (length (nodes (fw_ct s2)) + 1) / 2 -> nth_error (inds c') q = nth_error (inds (fw_ct s2)) q).
  { intros v Hv. rewrite Elen2 in Hv. rewrite Elf, Elf2 by auto. auto. }
  assert (Edm3 : dims c' = dims (fw_ct s2)) by congruence.
  split.
  - exists (ftot s2). split; [apply (fw_total_ok HI2)|]. split.
    + change (fw_sl (fset_rng s2 ([], []))) with (fw_sl s2). rewrite (fget_cost_tree m (fw_sl s2) HC' HT').
      cut (fcode_cost m c' (fw_sl s2) T' = ftot s2); [intros ->; reflexivity|].
      rewrite (ftot_tree HI2 HT3), Ecm, (fcode_cost_spec HC' HT' Hcm (fv_sl HI2)), (fcode_cost_spec (fv_core HI2) HT3 Hcm (fv_sl HI2)).
      symmetry. apply (@cost_eq (fw_ct s2) c' (n_inds c) out T3 T'); auto.
    + change (ftot s2) with (ftot (fset_rng s2 (([] : list nat), ([] : list Q)))).
      eapply (frun_min_tot HB Hshs (s := fset_rng s (pre ++ ints, us))); [|exact HL1|discriminate|exact Hrun].
      apply finv_rng. exact HI'.
  - intros Hsi. assert (Hk : fits_kept s0) by (left; rewrite Em; auto).
    destruct (frun_ok Hlog Hshs (finv_rng (pre ++ ints, us) HI')) as [(E & _)|(s3 & E & HI3 & F1 & F2 & F3 & F4 & P3 & Hd3 & Hf3)].
    { exfalso. change (fw_run lg seq1 (fset_rng s (pre ++ ints, us)) = Err Crash) in E. congruence. }
    assert (E3 : s3 = fset_rng s2 ([], [])).
    { change (fw_run lg seq1 (fset_rng s (pre ++ ints, us)) = Ok s3) in E. congruence. }
    assert (Hfit3 : fitted lg s2).
    { cut (fitted lg s3); [rewrite E3; auto|]. apply Hf3; [exact Hdj|left; change (fm_cm (fw_m s) = Simple); rewrite D2; exact Hsi|exact (Hfit Hk)]. }
    pose proof (fitted_all HI2 Hfit3) as HA. intros v Hv.
    change (fw_sl (fset_rng s2 ([], []))) with (fw_sl s2).
    assert (Hin : In v (positions T')).
    { apply (tree_of_in HT'). rewrite <- (co_len HC'). auto. }
    destruct (in_subtree Hin) as (S' & HS1 & <-). destruct (like_sub HS1 HL3) as (S & HS2 & HLS).
    assert (Lt : top S < length (inds (fw_ct s2))).
    { rewrite (co_len (fv_core HI2)). apply (sub_lt HT3 HS2). }
    specialize (HA (top S) Lt). unfold node_fits in *. rewrite Ecm in HA. rewrite Edm3.
    eapply Z.le_trans; [|exact HA]. apply Z.eq_le_incl. apply set_width_ext. intros i _. f_equal.
    symmetry. eapply (@same_carries (fw_ct s2) c' out T3 T'); eauto. intros q. apply like_leaves. exact HLS.
Qed.
