(** Final forms of the lemmas about rounded costs. *)
From Coq Require Import Permutation Relations Psatz.
From Verif Require Import M_Base M_Bitset M_Tree M_CTree M_Cost M_Opt M_InfMem M_Float S_Tree S_Opt S_Float
  P_Base P_Bitset P_Tree P_Shape P_TreeProps P_TreeValid P_Opt P_OptCost P_InfMem P_Canon P_Cost P_InfMemMain
  P_InfMemFinal P_Approx P_FloatRun P_FloatCost.
Set Implicit Arguments.
Unset Strict Implicit.

(** Every run succeeds and makes the same kind of moves as the exact one. *)
Lemma frun_facts ar (R : Type) c m (r : R) ds mc s0 rds s :
  wfl (nodes c) -> fim_make ar c m r ds mc = Ok s0 -> fim_run ar rds s0 = Ok s ->
  finv ar s (n_inds c) none /\ im_cm s = m /\ im_ds s = ds /\ moves ds c (im_ct s) /\
  (im_min_ct s = im_min_ct s0 /\ im_min s = im_min s0 \/
   exists rds1 rds2 s1, rds = rds1 ++ rds2 /\ rds1 <> [] /\ fim_run ar rds1 s0 = Ok s1 /\ finv ar s1 (n_inds c) none /\
     im_cm s1 = m /\ moves ds c (im_ct s1) /\ im_min_ct s = im_ct s1 /\ im_min s = ftot s1).
Proof.
  intros W Hm Hr.
  destruct (fim_make_inv W Hm) as (HI & Hmin & Ec & Ed & Em & Er & Emc & V1 & V2 & T1 & T2).
  destruct (frun_ok rds HI) as (s' & E' & HI' & D' & M' & P'). rewrite E' in Hr. inversion Hr; subst s'.
  rewrite Ec, Ed in P'. split; auto. split; [congruence|]. split; [congruence|]. split; auto.
  destruct (frun_min HI E') as (_ & [G|(rds1 & rds2 & s1 & F1 & F2 & F3 & HI1 & D1 & M1 & P1 & G1 & G2)]); auto.
  right. exists rds1, rds2, s1. rewrite Ec, Ed in P1. split; auto. split; auto. split; auto. split; auto. split; [congruence|]. auto.
Qed.

Lemma c45_trees ar (R : Type) c m (r : R) ds mc s0 rds s out :
  fim_make ar c m r ds mc = Ok s0 -> exact_inds c out -> fim_run ar rds s0 = Ok s ->
  exact_inds (im_ct s) out /\ same_problem c (im_ct s) /\
  ctree_is_valid (im_ct s) (negb ds) = true /\ ctree_is_valid (im_min_ct s) (negb ds) = true /\
  (mc = None -> exact_inds (im_min_ct s) out /\ same_problem c (im_min_ct s)).
Proof.
  intros Hm HX Hr. assert (W : wfl (nodes c)) by (apply wf_iff; eapply exact_wf; eauto).
  destruct (fim_make_inv W Hm) as (HI & _ & Ec & _ & _ & _ & Emc & V1 & V2 & _).
  pose proof (fv_core HI) as HC. rewrite Ec in HC.
  destruct (frun_facts W Hm Hr) as (HI' & _ & _ & P & Hmin).
  split; [eapply moves_exact; eauto|]. split; [eapply moves_same; eauto|].
  split; [eapply moves_valid_shared; eauto|].
  destruct Hmin as [(E1 & _)|(rds1 & rds2 & s1 & _ & _ & _ & _ & _ & P1 & E1 & _)]; rewrite E1.
  - split; auto. intros ->. rewrite Emc. split; auto. eapply same_refl; eauto.
  - split; [eapply moves_valid_shared; eauto|]. intros _. split; [eapply moves_exact; eauto|eapply moves_same; eauto].
Qed.

Lemma list_eqb_zx (f : Z -> Z -> bool) l k : length l = length k -> (forall v, (v < length l)%nat -> f (zx l v) (zx k v) = true) ->
  list_eqb f l k = true.
Proof.
  revert k. induction l as [|x l IH]; intros [|y k] HL H; simpl in *; try discriminate; auto.
  apply andb_true_iff. split; [apply (H 0%nat); lia|]. apply IH; [lia|]. intros v Hv. apply (H (S v)). lia.
Qed.

Lemma list_eqb_nonneg (f : Z -> Z -> bool) l : (forall z, 0 <= z -> f z z = true)%Z -> (forall v, (v < length l)%nat -> 0 <= zx l v)%Z ->
  list_eqb f l l = true.
Proof. intros Hf H. apply list_eqb_zx; auto. Qed.

Lemma c45_runs ar (R : Type) c m (r : R) ds mc s0 :
  well_formed (nodes c) -> fim_make ar c m r ds mc = Ok s0 -> forall rds, exists s, fim_run ar rds s0 = Ok s.
Proof.
  intros W Hm rds. apply wf_iff in W. destruct (fim_make_inv W Hm) as (HI & _).
  destruct (frun_ok rds HI) as (s & E & _). eauto.
Qed.

Lemma bt_size_bound t p T : wfl t -> unfolds t p T -> 2 * bt_size T + 1 <= length t.
Proof.
  intros W HU. rewrite bt_size_len. rewrite <- (seq_length (length t) 0).
  apply NoDup_incl_length; [eapply wfl_nodup; eauto|]. intros v Hv. apply in_seq. simpl. split; [lia|].
  clear - HU Hv. revert p HU. induction T as [x|x l IHl r IHr]; simpl in *; intros p HU.
  - destruct Hv as [->|[]]. apply (nth_error_lt HU).
  - destruct HU as (Hn & Ul & Ur). destruct Hv as [->|Hv]; [apply (nth_error_lt Hn)|].
    apply in_app_or in Hv. destruct Hv; eauto.
Qed.

Local Open Scope Z_scope.
Section Close.
  Variables (ar : arith) (q kp : nat).
  Hypothesis Hq : (1 <= q)%nat.
  Hypothesis Hac : accurate q kp ar.

  Lemma steps_close m c n : core (nodes c) (inds c) n -> cmodel_ok m n ->
    forall v a b p, nth_error (nodes c) v = Some (mkNode (Some a) (Some b) p) ->
    approx q (2 * (n + kp + 1)) (fim_ccost ar m (dims c) (ix (inds c) v) (ix (inds c) a) (ix (inds c) b))
      (ccost_of m (nth v (inds c) []) (nth a (inds c) []) (nth b (inds c) []) (dims c)) /\
    0 <= ccost_of m (nth v (inds c) []) (nth a (inds c) []) (nth b (inds c) []) (dims c).
  Proof.
    intros HC Hm v a b p Hn. assert (K : kids2 (nodes c) v a b) by (exists p; auto).
    destruct (kids2_lt (co_wf HC) K) as (L1 & L2 & L3).
    apply (fccost_approx Hq Hac _ _ Hm); apply (co_sz HC); auto.
  Qed.

  Lemma total_close (R : Type) (s : im_state R) n T : finv ar s n none -> cmodel_ok (im_cm s) n ->
    tree_of (nodes (im_ct s)) T ->
    approx q (2 * (n + kp + 1) + length (nodes (im_ct s))) (ftot s) (tree_cost (im_cm s) (im_ct s) n no_slices T).
  Proof.
    intros HI Hm HT. pose proof (fv_core HI) as HC. rewrite <- (code_cost_spec HC HT Hm). unfold code_cost.
    pose proof HT as (HU & _ & Htop & _). pose proof (fv_cc HI) as (LK & HKk & HKl).
    destruct (@pcost_approx ar q kp Hq Hac _ _ _ _ (2 * (n + kp + 1))%nat
      (fun p a b => ccost_of (im_cm s) (nth p (inds (im_ct s)) []) (nth a (inds (im_ct s)) []) (nth b (inds (im_ct s)) []) (dims (im_ct s)))
      (fv_pc HI) (fun v H => H) T None HU) as (Ha & H0).
    { intros v a b p Hn. rewrite (HKk v a b) by (exists p; auto). apply (steps_close HC Hm Hn). }
    pose proof (bt_size_bound (co_wf HC) HU).
    unfold ftot. rewrite <- Htop. apply approx_mono with (k := (2 * (n + kp + 1) + 2 * bt_size T)%nat); auto. lia.
  Qed.

  Lemma get_cost_close m c n T : core (nodes c) (inds c) n -> cmodel_ok m n -> tree_of (nodes c) T ->
    exists z, fget_cost ar (fim_ccost ar m (dims c)) c = Ok z /\
      approx q (2 * (n + kp + 1) + length (nodes c)) z (tree_cost m c n no_slices T).
  Proof.
    intros HC Hm HT. rewrite <- (code_cost_spec HC HT Hm). unfold code_cost.
    pose proof HT as (HU & _). unfold fget_cost. rewrite (traverse_ok HT). cbn [bind].
    destruct (@fget_cost_fold ar q kp Hq Hac (fim_ccost ar m (dims c)) 
       (fun p a b => ccost_of m (nth p (inds c) []) (nth a (inds c) []) (nth b (inds c) []) (dims c))
       (2 * (n + kp + 1))%nat c n HC T None 0 0 (2 * (n + kp + 1))%nat HU) as (z & E & Ha & H0); auto; try lia.
    { apply (steps_close HC Hm). }
    { apply approx_mono with (k := 0%nat); auto; try lia. apply (approx_refl Hq). }
    exists z. split; auto. pose proof (bt_size_bound (co_wf HC) HU).
    eapply approx_mono; [exact Hq|exact H0| |exact Ha]. lia.
  Qed.

  Lemma c45_total (R : Type) c m (r : R) ds mc s0 rds s :
    well_formed (nodes c) -> cmodel_ok m (n_inds c) -> fim_make ar c m r ds mc = Ok s0 -> fim_run ar rds s0 = Ok s ->
    exists T t, tree_of (nodes (im_ct s)) T /\ im_total s = Ok t /\
      approx q (2 * (n_inds c + kp + 1) + length (nodes c)) t (tree_cost m (im_ct s) (n_inds c) no_slices T).
  Proof.
    intros W Hcm Hm Hr. apply wf_iff in W.
    destruct (fim_make_inv W Hm) as (HI & _ & Ec & _). pose proof (fv_core HI) as HC. rewrite Ec in HC.
    destruct (frun_facts W Hm Hr) as (HI' & Em & _ & P & _).
    destruct (wfl_tree_of (co_wf (fv_core HI'))) as (T & HT). exists T, (ftot s). split; auto.
    split; [apply (fim_total_ok HI')|]. destruct (moves_keep HC P) as (<- & _).
    rewrite <- Em. apply total_close; auto. rewrite Em. auto.
  Qed.

  Lemma c45_min (R : Type) c m (r : R) ds mc s0 rds s :
    well_formed (nodes c) -> fim_make ar c m r ds mc = Ok s0 -> fim_run ar rds s0 = Ok s ->
    (* the recorded minimum is about the cost of the recorded tree *)
    (forall T, tree_of (nodes (im_min_ct s)) T -> cmodel_ok m (n_inds (im_min_ct s)) ->
       approx q (2 * (n_inds (im_min_ct s) + kp + 1) + length (nodes (im_min_ct s))) (im_min s)
         (tree_cost m (im_min_ct s) (n_inds (im_min_ct s)) no_slices T)) /\
    (* it never increases and is at most the reported cost at the end of every update so far *)
    (forall rds1 rds2 s1, rds = rds1 ++ rds2 -> fim_run ar rds1 s0 = Ok s1 ->
       im_min s <= im_min s1 /\
       (rds1 <> [] -> forall t1, im_total s1 = Ok t1 -> im_min s <= t1)) /\
    (* it is the initial best, or was current and reported at the end of some update *)
    (im_min_ct s = im_min_ct s0 /\ im_min s = im_min s0 \/
     exists rds1 rds2 s1, rds = rds1 ++ rds2 /\ rds1 <> [] /\ fim_run ar rds1 s0 = Ok s1 /\
       im_min_ct s = im_ct s1 /\ im_total s1 = Ok (im_min s)).
  Proof.
    intros W Hm Hr. apply wf_iff in W.
    destruct (fim_make_inv W Hm) as (HI & Hmin & Ec & Ed & Em & Er & Emc & V1 & V2 & T1 & T2).
    destruct (frun_facts W Hm Hr) as (HI' & Em' & _ & P & Hmm).
    split; [|split].
    - intros T HT Hcm. assert (Wm : wfl (nodes (im_min_ct s))) by (apply wf_iff; exists T; auto).
      destruct Hmm as [(E1 & E2)|(rds1 & rds2 & s1 & F1 & F2 & F3 & HI1 & M1 & P1 & E1 & E2)].
      + rewrite E1 in *. destruct (valid_core Wm V2) as (HCm & _).
        destruct (get_cost_close HCm Hcm HT) as (z & Ez & Ha). rewrite Hmin in Ez. inversion Ez; subst z. rewrite E2. auto.
      + rewrite E1, E2 in *. pose proof (fv_core HI1) as HC1. rewrite (core_n_inds HC1) in *. rewrite <- M1. apply total_close; auto.
        rewrite M1. auto.
    - intros rds1 rds2 s1 E1 Hr1. destruct (frun_facts W Hm Hr1) as (HI1 & _).
      subst rds. rewrite (frun_app _ Hr1) in Hr. destruct (frun_min HI1 Hr) as (Hle & _). split; auto.
      intros Hne t1 Ht. rewrite (fim_total_ok HI1) in Ht. inversion Ht; subst t1.
      assert (HL : (1 < length (nodes (im_ct s0)))%nat).
      { pose proof (fv_core HI) as HC. pose proof (co_wf HC) as W0. pose proof (wl_len W0).
        destruct (Nat.eq_dec (length (nodes (im_ct s0))) 1) as [E|]; [|lia]. exfalso.
        destruct (fv_pc HI) as (_ & _ & HPl). unfold ftot in T1. rewrite E in T1. simpl in T1.
        destruct (kids2_or_leaf W0 (v := 0%nat) ltac:(lia)) as [Hlf|(a & b & p & Hn)].
        - rewrite HPl in T1 by auto. lia.
        - assert (K : kids2 (nodes (im_ct s0)) 0 a b) by (exists p; auto).
          destruct (kids2_lt W0 K) as (L1 & L2 & L3).
          destruct (wl_two W0 Hn) as [(E0 & _)|(a' & b' & E0 & E3 & Hne')]; simpl in *; [discriminate|].
          inversion E0; inversion E3; subst. lia. }
      pose proof (frun_below HI HL Hne Hr1). lia.
    - destruct Hmm as [G|(rds1 & rds2 & s1 & F1 & F2 & F3 & HI1 & M1 & P1 & E1 & E2)]; auto.
      right. exists rds1, rds2, s1. repeat (split; [assumption|]). rewrite (fim_total_ok HI1), E2. auto.
  Qed.
End Close.
