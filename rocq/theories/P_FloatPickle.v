(** is_valid and pickling with rounded costs. *)
From Coq Require Import Permutation Relations Psatz.
From Verif Require Import M_Base M_Bitset M_Tree M_CTree M_Cost M_Opt M_InfMem M_Float S_Tree S_Opt S_Float
  P_Base P_Bitset P_Tree P_Shape P_TreeProps P_TreeValid P_Opt P_OptCost P_InfMem P_Canon P_Cost P_InfMemMain
  P_InfMemFinal P_Approx P_FloatRun P_FloatCost P_FloatMain.
Set Implicit Arguments.
Unset Strict Implicit.
Local Open Scope Z_scope.

Section Pickle.
  Variables (ar : arith) (q kp : nat).
  Hypothesis Hq : (1 <= q)%nat.
  Hypothesis Hac : accurate q kp ar.
  Variables (R : Type) (c : ctree) (m : cmodel) (r : R) (ds : bool) (mc : option ctree) (s0 : im_state R).
  Hypothesis HX : (exists out, exact_inds c out) \/ (ds = true /\ well_formed (nodes c)).
  Hypothesis Hcm : cmodel_ok m (n_inds c).
  Hypothesis Hm : fim_make ar c m r ds mc = Ok s0.

  Lemma fp_wf : wfl (nodes c).
  Proof. apply wf_iff. destruct HX as [(out & H)|(_ & H)]; auto. eapply exact_wf; eauto. Qed.

  (** The trees of a reachable state are valid. *)
  Lemma fp_valid rds s : fim_run ar rds s0 = Ok s ->
    ctree_is_valid (im_ct s) (negb ds) = true /\ ctree_is_valid (im_min_ct s) (negb ds) = true.
  Proof.
    intros Hr. pose proof fp_wf as W.
    destruct (fim_make_inv W Hm) as (HI & _ & Ec & _ & _ & _ & Emc & V1 & V2 & _).
    pose proof (fv_core HI) as HC. rewrite Ec in HC.
    destruct HX as [(out & HX')|(-> & W')].
    - destruct (c45_trees Hm HX' Hr) as (_ & _ & A & B & _). auto.
    - destruct (frun_facts W Hm Hr) as (HI' & _ & _ & P & Hmin). simpl in *.
      assert (G : forall c2, moves true c c2 -> core (nodes c2) (inds c2) (n_inds c) -> ctree_is_valid c2 false = true).
      { intros c2 P2 HC2. apply (core_valid HC2); [|discriminate].
        rewrite (dims_ok_eq HC HC2 (moves_dims P2)). eapply valid_core; eauto. }
      split; [apply G; auto; apply (fv_core HI')|].
      destruct Hmin as [(E1 & _)|(rds1 & rds2 & s1 & _ & _ & _ & HI1 & _ & P1 & E1 & _)]; rewrite E1; auto.
      apply G; auto. apply (fv_core HI1).
  Qed.

  Lemma fp_length : (1 < length (nodes c))%nat.
  Proof.
    pose proof fp_wf as W. destruct (fim_make_inv W Hm) as (HI & _ & Ec & _ & _ & _ & _ & _ & _ & T1 & _).
    rewrite <- Ec. pose proof (fv_core HI) as HC. pose proof (co_wf HC) as W0. pose proof (wl_len W0).
    destruct (Nat.eq_dec (length (nodes (im_ct s0))) 1) as [E|]; [|lia]. exfalso.
    destruct (fv_pc HI) as (_ & _ & HPl). unfold ftot in T1. rewrite E in T1. simpl in T1.
    destruct (kids2_or_leaf W0 (v := 0%nat) ltac:(lia)) as [Hlf|(a & b & p & Hn)].
    - rewrite HPl in T1 by auto. lia.
    - assert (K : kids2 (nodes (im_ct s0)) 0 a b) by (exists p; auto).
      destruct (kids2_lt W0 K) as (L1 & L2 & L3).
      destruct (wl_two W0 Hn) as [(E0 & _)|(a' & b' & E0 & E3 & Hne')]; simpl in *; [discriminate|].
      inversion E0; inversion E3; subst. lia.
  Qed.

  (** The recomputed costs of a tree reached from [c] are positive. *)
  Lemma fp_pos c2 : moves ds c c2 -> core (nodes c2) (inds c2) (n_inds c) ->
    (exists z, fget_cost ar (fim_ccost ar m (dims c2)) c2 = Ok z /\ 0 < z) /\
    (forall (s : im_state R), im_ct s = c2 -> im_cm s = m -> finv ar s (n_inds c) none -> 0 < ftot s).
  Proof.
    intros P HC2. pose proof fp_wf as W. destruct (fim_make_inv W Hm) as (HI & _ & Ec & _ & _ & _ & Emc & V1 & V2 & _).
    pose proof (fv_core HI) as HC. rewrite Ec in HC.
    destruct (wfl_tree_of (co_wf HC2)) as (T & HT).
    assert (Hpos : 0 < tree_cost m c2 (n_inds c) no_slices T).
    { rewrite <- (code_cost_spec HC2 HT Hcm). apply (code_cost_pos HC2 HT); auto.
      - rewrite (dims_ok_eq HC HC2 (moves_dims P)). eapply valid_core; eauto.
      - destruct (moves_keep HC P) as (-> & _). apply fp_length. }
    split.
    - destruct (get_cost_close Hq Hac HC2 Hcm HT) as (z & E & Ha). exists z. split; auto. eapply approx_pos; eauto.
    - intros s E1 E2 HIs. subst c2. rewrite <- E2 in Hpos, Hcm. pose proof (total_close Hq Hac HIs Hcm HT). eapply approx_pos; eauto.
  Qed.

  (** Cached costs are not negative. *)
  Lemma fp_nonneg c2 ks ps : core (nodes c2) (inds c2) (n_inds c) -> ccost_ok (fim_ccost ar m (dims c2)) (nodes c2) (inds c2) ks ->
    fpcost_ok ar (nodes c2) ks ps none ->
    (forall v, (v < length ks)%nat -> 0 <= zx ks v) /\ (forall v, (v < length ps)%nat -> 0 <= zx ps v).
  Proof.
    intros HC2 HK HP. pose proof HK as (LK & HKk & HKl). pose proof HP as (LP & _).
    set (f := fun p a b => ccost_of m (nth p (inds c2) []) (nth a (inds c2) []) (nth b (inds c2) []) (dims c2)).
    assert (Hf : forall v a b p', nth_error (nodes c2) v = Some (mkNode (Some a) (Some b) p') ->
      approx q (2 * (n_inds c + kp + 1)) (zx ks v) (f v a b) /\ 0 <= f v a b).
    { intros v a b p' Hn. rewrite (HKk v a b) by (exists p'; auto). apply (steps_close Hq Hac HC2 Hcm Hn). }
    split.
    - intros v Hv. rewrite LK in Hv. destruct (kids2_or_leaf (co_wf HC2) Hv) as [Hlf|(a & b & p & Hn)]; [rewrite HKl; auto; lia|].
      destruct (Hf _ _ _ _ Hn) as (Ha & H0). eapply approx_nonneg; eauto.
    - intros v Hv. rewrite LP in Hv. destruct (nth_error (nodes c2) v) as [nd|] eqn:En; [|apply nth_error_None in En; lia].
      destruct (build_bt (co_wf HC2) En) as (T & HU & <-).
      destruct (pcost_approx Hq Hac HP (fun v H => H) HU Hf) as (A1 & A0). eapply approx_nonneg; eauto.
  Qed.

  Lemma c45_pickle rds s : (forall z, 0 <= z -> rclose ar z z = true) -> fim_run ar rds s0 = Ok s ->
    exists s', fim_unpickle ar (im_pickle s) = Ok s' /\ im_pickle s' = im_pickle s.
  Proof.
    intros Hrc Hr. pose proof fp_wf as W. destruct (fp_valid Hr) as (V1 & V2).
    destruct (fim_make_inv W Hm) as (HI & Hmin & Ec & _ & Em0 & _ & Emc & _ & _ & _ & T2).
    pose proof (fv_core HI) as HC. rewrite Ec in HC.
    destruct (frun_facts W Hm Hr) as (HI' & Em & Ed & P & Hmm).
    assert (Hz : exists z, fget_cost ar (fim_ccost ar m (dims (im_min_ct s))) (im_min_ct s) = Ok z /\ 0 < z).
    { destruct Hmm as [(E1 & E2)|(rds1 & rds2 & s1 & _ & _ & _ & HI1 & _ & P1 & E1 & _)]; rewrite E1.
      - eauto.
      - apply (fp_pos P1 (fv_core HI1)). }
    destruct Hz as (z & Ez & Pz).
    unfold im_pickle, fim_unpickle, fim_make. rewrite Ed, Em.
    assert (Hb : base_is_valid (im_ct s) (im_min_ct s) ds = true) by (unfold base_is_valid; rewrite V1, V2; auto).
    rewrite Hb. simpl negb. cbn iota.
    pose proof (fv_core HI') as HC'.
    destruct (ccost_exists (fccost_ucost ar m (dims (im_ct s))) HC') as (ks & HK).
    destruct (opcost_exists ar ks (co_wf HC')) as (ps & HP). destruct (hyper_exists HC') as (hs & HH).
    pose proof (fcost_cache_ok HC' HK HP) as Ek. rewrite Ek. cbn [bind].
    pose proof (hyper_fold HC' HH (core_n_inds HC')) as Eh. rewrite Eh. cbn [bind]. rewrite Ez. cbn [bind].
    set (s' := mkIM (im_ct s) ds (im_rng s) (im_min_ct s) m (mkCC ps ks) hs z).
    assert (HIs : finv ar s' (n_inds c) none) by (constructor; auto; apply opcost_fp; auto).
    rewrite (fim_total_ok HIs). cbn [bind].
    destruct (fp_pos P HC') as (_ & Hp). specialize (Hp s' eq_refl eq_refl HIs).
    destruct (Z.leb_spec (ftot s') 0); [lia|]. destruct (Z.leb_spec z 0); [lia|]. simpl orb. cbn iota.
    assert (Ev : fim_is_valid ar s' = true).
    { unfold fim_is_valid, s'. simpl im_ct. simpl im_min_ct. simpl im_ds. simpl im_cm. simpl im_cc. simpl im_hyper. simpl im_min.
      rewrite Hb, Ek, Ez, Eh, Hrc by lia.
      destruct (fp_nonneg HC' HK (opcost_fp none HP)) as (N1 & N2). simpl pcost. simpl ccost.
      rewrite !(list_eqb_nonneg Hrc), (list_eqb_refl _ beqb_refl) by auto. auto. }
    rewrite Ev. exists s'. split; auto.
  Qed.

  Lemma c45_valid rds s : tolerates q (2 * (n_inds c + kp + 1) + length (nodes c)) ar ->
    fim_run ar rds s0 = Ok s -> fim_is_valid ar s = true.
  Proof.
    intros Htol Hr.
    assert (Hrc : forall z, 0 <= z -> rclose ar z z = true).
    { intros z Hz. apply (Htol z z z Hz); (eapply approx_mono; [exact Hq|exact Hz| |apply (approx_refl Hq)]); lia. }
    pose proof fp_wf as W. destruct (fp_valid Hr) as (V1 & V2).
    destruct (fim_make_inv W Hm) as (HI & Hmin & Ec & _ & Em0 & _ & Emc & _ & _ & _ & T2).
    pose proof (fv_core HI) as HC. rewrite Ec in HC.
    destruct (frun_facts W Hm Hr) as (HI' & Em & Ed & P & Hmm).
    pose proof (fv_core HI') as HC'. pose proof (moves_keep HC P) as (EL & _).
    unfold fim_is_valid. rewrite Ed, Em.
    assert (Hb : base_is_valid (im_ct s) (im_min_ct s) ds = true) by (unfold base_is_valid; rewrite V1, V2; auto).
    rewrite Hb.
    assert (Hz : exists z, fget_cost ar (fim_ccost ar m (dims (im_min_ct s))) (im_min_ct s) = Ok z /\ rclose ar z (im_min s) = true).
    { destruct Hmm as [(E1 & E2)|(rds1 & rds2 & s1 & _ & _ & _ & HI1 & M1 & P1 & E1 & E2)]; rewrite E1, E2.
      - exists (im_min s0). split; auto. apply Hrc. lia.
      - pose proof (fv_core HI1) as HC1. destruct (wfl_tree_of (co_wf HC1)) as (T & HT).
        destruct (get_cost_close Hq Hac HC1 Hcm HT) as (z & Ez & Ha). exists z. split; auto.
        destruct (moves_keep HC P1) as (EL1 & _). rewrite EL1 in Ha.
        assert (Hcm1 : cmodel_ok (im_cm s1) (n_inds c)) by (rewrite M1; auto).
        pose proof (total_close Hq Hac HI1 Hcm1 HT) as Hb1. rewrite EL1, M1 in Hb1.
        apply (Htol _ _ (tree_cost m (im_ct s1) (n_inds c) no_slices T)); auto.
        rewrite <- (code_cost_spec HC1 HT Hcm). apply Z.lt_le_incl. apply (code_cost_pos HC1 HT); auto.
        + rewrite (dims_ok_eq HC HC1 (moves_dims P1)). eapply valid_core; eauto. rewrite <- Ec. eapply fp_valid with (rds := []). simpl. eauto.
        + rewrite EL1. apply fp_length. }
    destruct Hz as (z & -> & ->).
    pose proof (fv_cc HI') as HK. rewrite Em in HK. set (ks := ccost (im_cc s)) in *.
    destruct (opcost_exists ar ks (co_wf HC')) as (ps & HP).
    rewrite (fcost_cache_ok HC' HK HP). rewrite (hyper_fold HC' (fv_hyper HI') (core_n_inds HC')).
    rewrite (list_eqb_refl _ beqb_refl). simpl pcost. simpl ccost.
    destruct (fp_nonneg HC' HK (opcost_fp none HP)) as (N1 & _). rewrite (@list_eqb_nonneg _ ks Hrc N1).
    assert (El : list_eqb (rclose ar) (pcost (im_cc s)) ps = true).
    { pose proof (fv_pc HI') as HPs. fold ks in HPs. pose proof (opcost_fp none HP) as HPo.
      pose proof HPs as (L1 & _). pose proof HPo as (L2 & _).
      apply list_eqb_zx; [congruence|]. rewrite L1. intros v Hv.
      destruct (nth_error (nodes (im_ct s)) v) as [nd|] eqn:En; [|apply nth_error_None in En; lia].
      destruct (build_bt (co_wf HC') En) as (T & HU & <-).
      set (f := fun p a b => ccost_of m (nth p (inds (im_ct s)) []) (nth a (inds (im_ct s)) []) (nth b (inds (im_ct s)) []) (dims (im_ct s))).
      assert (Hf : forall v a b p', nth_error (nodes (im_ct s)) v = Some (mkNode (Some a) (Some b) p') ->
        approx q (2 * (n_inds c + kp + 1)) (zx ks v) (f v a b) /\ 0 <= f v a b).
      { intros v a b p' Hn. destruct HK as (_ & HKk & _). rewrite (HKk v a b) by (exists p'; auto). apply (steps_close Hq Hac HC' Hcm Hn). }
      destruct (pcost_approx Hq Hac HPs (fun v H => H) HU Hf) as (A1 & A0).
      destruct (pcost_approx Hq Hac HPo (fun v H => H) HU Hf) as (A2 & _).
      pose proof (bt_size_bound (co_wf HC') HU) as Hs.
      apply (Htol _ _ (bt_cost f T) A0); eapply approx_mono; try exact Hq; try exact A0; [|exact A1| |exact A2]; lia. }
    rewrite El. auto.
  Qed.
End Pickle.
