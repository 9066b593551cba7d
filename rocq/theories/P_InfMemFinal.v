(** Lemmas in the form of the properties C07-C15. *)
From Coq Require Import Permutation Relations QArith Reals Qreals.
From Verif Require Import M_Base M_Bitset M_Tree M_CTree M_Cost M_Opt M_InfMem M_Prob S_Tree S_Opt
  P_Base P_Bitset P_Tree P_Shape P_TreeProps P_TreeValid P_Opt P_OptCost P_InfMem P_Canon P_Cost P_InfMemMain.
Set Implicit Arguments.
Unset Strict Implicit.
Local Open Scope nat_scope.

Lemma exact_wf c out : exact_inds c out -> well_formed (nodes c).
Proof. intros (T & HT & _). exists T. auto. Qed.

(** ** Checking exactness by computation, for examples *)
Fixpoint subs (T : bt) : list bt :=
  T :: match T with Lf _ => [] | Nd _ l r => subs l ++ subs r end.
Lemma subs_in S T : subtree S T -> In S (subs T).
Proof.
  induction 1; [destruct S; simpl; auto| |]; simpl; right; apply in_or_app; auto.
Qed.
Definition hasb (c : ctree) (v x : nat) : bool := (v <? length (inds c)) && btest (ix (inds c) v) x.
Definition exact_check (c : ctree) (n : nat) (out : nat -> bool) (T : bt) : bool :=
  (length (inds c) =? length (nodes c)) && forallb (fun b => length b =? n) (inds c) &&
  forallb (fun S => forallb (fun x =>
    Bool.eqb (hasb c (top S) x)
      (existsb (fun l => hasb c l x) (leaves S) &&
       (existsb (fun l => negb (existsb (Nat.eqb l) (leaves S)) && hasb c l x) (leaves T) || out x)))
    (seq 0 n)) (subs T).
Lemma exact_check_ok c n out T : tree_of (nodes c) T -> exact_check c n out T = true ->
  exact_inds c (fun x => out x = true).
Proof.
  intros HT H. unfold exact_check in H. rewrite !andb_true_iff in H. destruct H as ((HL & HS) & HX).
  exists T. split; auto. intros S HSu x. rewrite forallb_forall in HX, HS.
  assert (Hhas : forall v, has c v x <-> hasb c v x = true).
  { intros v. rewrite has_ix. unfold hasb. rewrite andb_true_iff, Nat.ltb_lt. tauto. }
  assert (Hn : forall v, n <= x -> hasb c v x = false).
  { intros v Hx. unfold hasb. destruct (Nat.ltb_spec v (length (inds c))); auto. simpl.
    apply btest_over. unfold ix. specialize (HS _ (nth_In _ [] H)). apply Nat.eqb_eq in HS. unfold bitset in *. rewrite HS. auto. }
  rewrite Hhas.
  assert (Hb : below c S x <-> existsb (fun l => hasb c l x) (leaves S) = true).
  { unfold below. rewrite existsb_exists. split; intros (l & H1 & H2); exists l; split; auto; apply Hhas; auto. }
  assert (Ho : outside c T S x <-> existsb (fun l => negb (existsb (Nat.eqb l) (leaves S)) && hasb c l x) (leaves T) = true).
  { unfold outside. rewrite existsb_exists.
    assert (Hi : forall l, negb (existsb (Nat.eqb l) (leaves S)) = true <-> ~ In l (leaves S)).
    { intros l. rewrite negb_true_iff. split.
      - intros He Hi. assert (existsb (Nat.eqb l) (leaves S) = true) by (apply existsb_exists; exists l; split; auto; apply Nat.eqb_refl). congruence.
      - intros Hni. destruct (existsb (Nat.eqb l) (leaves S)) eqn:He; auto. apply existsb_exists in He.
        destruct He as (y & Hy & E). apply Nat.eqb_eq in E. subst. contradiction. }
    split.
    - intros (l & H1 & H2 & H3). exists l. split; auto. apply andb_true_iff. split; [apply Hi; auto|apply Hhas; auto].
    - intros (l & H1 & H2). apply andb_true_iff in H2. destruct H2. exists l. split; auto. split; [apply Hi; auto|apply Hhas; auto]. }
  rewrite Hb, Ho. rewrite <- orb_true_iff, <- andb_true_iff.
  destruct (Nat.lt_ge_cases x n) as [Hx|Hx].
  - specialize (HX _ (subs_in HSu)). rewrite forallb_forall in HX. specialize (HX x ltac:(apply in_seq; lia)).
    apply Bool.eqb_prop in HX. rewrite HX. reflexivity.
  - rewrite Hn by auto. split; [discriminate|]. intros H. apply andb_true_iff in H. destruct H as (H & _).
    apply existsb_exists in H. destruct H as (l & _ & H). rewrite Hn in H by auto. discriminate.
Qed.

(** ** C07 *)
Lemma c07 (R : Type) c m (r : R) ds mc s0 rds s out :
  im_make c m r ds mc = Ok s0 -> exact_inds c out -> im_run rds s0 = Ok s ->
  exact_inds (im_ct s) out /\ (mc = None -> exact_inds (im_min_ct s) out).
Proof.
  intros Hm HX Hr. assert (W : wfl (nodes c)) by (apply wf_iff; eapply exact_wf; eauto).
  destruct (im_make_inv W Hm) as (HI & Hmin & Ec & Ed & Em & Er & Emc & V1 & V2 & T1 & T2).
  pose proof (iv_core HI) as HC. rewrite Ec in HC.
  destruct (run_ok rds HI) as (s' & E' & HI' & D' & M' & P'). rewrite E' in Hr. inversion Hr; subst s'.
  rewrite Ec in P'. split; [eapply moves_exact; eauto|].
  intros ->. destruct (run_min HI E') as (_ & [(E1 & _)|(rds1 & rds2 & s1 & _ & _ & _ & _ & _ & _ & P1 & E1 & _)]).
  - rewrite E1, Emc. auto.
  - rewrite E1. rewrite Ec in P1. eapply moves_exact; eauto.
Qed.

(** ** C08 *)
Lemma valid_weaken c cs : ctree_is_valid c cs = true -> ctree_is_valid c false = true.
Proof.
  unfold ctree_is_valid. rewrite !andb_true_iff. intros ((((H1 & H2) & H3) & H4) & H5).
  repeat match goal with |- _ /\ _ => split end; auto.
  rewrite all_pos_spec in H5 |- *. intros v nd Hn. specialize (H5 v nd Hn).
  unfold node_contraction_ok in *. destruct (is_leaf nd); auto.
  destruct (c0 nd) as [a|], (c1 nd) as [b|]; auto.
  destruct (nth_error (inds c) a), (nth_error (inds c) b), (nth_error (inds c) v); auto.
  unfold M_CTree.contraction_ok in *. rewrite !andb_true_iff in *. simpl. tauto.
Qed.

Lemma valid_all_share c : ctree_is_valid c true = true -> all_share c.
Proof.
  unfold ctree_is_valid. rewrite !andb_true_iff. intros ((((H1 & H2) & H3) & H4) & H5).
  rewrite all_pos_spec in H5. intros p a b q Hn. specialize (H5 _ _ Hn).
  rewrite forallb_forall in H3.
  unfold node_contraction_ok in H5. simpl in H5.
  destruct (nth_error (inds c) a) as [x|] eqn:Ea; [|discriminate].
  destruct (nth_error (inds c) b) as [y|] eqn:Eb; [|discriminate].
  destruct (nth_error (inds c) p) as [z|] eqn:Ep; [|discriminate].
  unfold M_CTree.contraction_ok in H5. rewrite !andb_true_iff in H5. destruct H5 as ((H5 & _) & _).
  simpl in H5. rewrite negb_involutive in H5.
  pose proof (H3 _ (nth_error_In _ _ Ea)) as Lx. pose proof (H3 _ (nth_error_In _ _ Eb)) as Ly.
  apply Nat.eqb_eq in Lx. apply Nat.eqb_eq in Ly.
  apply bintersects_spec in H5; [|congruence]. destruct H5 as (i & Hi & Hj).
  exists i. rewrite !has_ix. unfold ix.
  assert (E1 : nth a (inds c) [] = x) by (apply nth_error_nth; auto).
  assert (E2 : nth b (inds c) [] = y) by (apply nth_error_nth; auto).
  rewrite E1, E2. repeat split; auto; eapply nth_error_lt; eauto.
Qed.

Lemma moves_valid ds c c' : wfl (nodes c) -> ctree_is_valid c false = true -> moves ds c c' ->
  ctree_is_valid c' false = true.
Proof.
  intros W V Hm. destruct (valid_core W V) as (HC & HD & _).
  pose proof (moves_core Hm HC) as HC'. apply (core_valid HC').
  - rewrite (dims_ok_eq HC HC' (moves_dims Hm)). auto.
  - discriminate.
Qed.

Lemma moves_valid_shared ds c c' out : exact_inds c out -> ctree_is_valid c (negb ds) = true -> moves ds c c' ->
  ctree_is_valid c' (negb ds) = true.
Proof.
  intros HX V Hm. assert (W : wfl (nodes c)) by (apply wf_iff; eapply exact_wf; eauto).
  destruct (valid_core W V) as (HC & HD & HS).
  pose proof (moves_core Hm HC) as HC'. apply (core_valid HC').
  - rewrite (dims_ok_eq HC HC' (moves_dims Hm)). auto.
  - destruct ds; [discriminate|]. intros _. simpl in HS. apply (moves_shared HC Hm HX). auto.
Qed.

Lemma c08 (R : Type) c m (r : R) ds mc s0 rds s :
  well_formed (nodes c) -> im_make c m r ds mc = Ok s0 -> im_run rds s0 = Ok s ->
  ctree_is_valid (im_ct s) false = true /\ ctree_is_valid (im_min_ct s) false = true.
Proof.
  intros W Hm Hr. apply wf_iff in W.
  destruct (im_make_inv W Hm) as (HI & Hmin & Ec & Ed & Em & Er & Emc & V1 & V2 & T1 & T2).
  apply valid_weaken in V1. apply valid_weaken in V2.
  destruct (run_ok rds HI) as (s' & E' & HI' & D' & M' & P'). rewrite E' in Hr. inversion Hr; subst s'.
  rewrite Ec in P'. split; [eapply moves_valid; eauto|].
  destruct (run_min HI E') as (_ & [(E1 & _)|(rds1 & rds2 & s1 & _ & _ & _ & _ & _ & _ & P1 & E1 & _)]); rewrite E1; auto.
  rewrite Ec in P1. eapply moves_valid; eauto.
Qed.

Lemma c08_shared_valid (R : Type) c m (r : R) ds mc s0 rds s out :
  exact_inds c out -> im_make c m r ds mc = Ok s0 -> im_run rds s0 = Ok s ->
  ctree_is_valid (im_ct s) (negb ds) = true /\ ctree_is_valid (im_min_ct s) (negb ds) = true.
Proof.
  intros HX Hm Hr. assert (W : wfl (nodes c)) by (apply wf_iff; eapply exact_wf; eauto).
  destruct (im_make_inv W Hm) as (HI & Hmin & Ec & Ed & Em & Er & Emc & V1 & V2 & T1 & T2).
  destruct (run_ok rds HI) as (s' & E' & HI' & D' & M' & P'). rewrite E' in Hr. inversion Hr; subst s'.
  rewrite Ec, Ed in P'. split; [eapply moves_valid_shared; eauto|].
  destruct (run_min HI E') as (_ & [(E1 & _)|(rds1 & rds2 & s1 & _ & _ & _ & _ & _ & _ & P1 & E1 & _)]); rewrite E1; auto.
  rewrite Ec, Ed in P1. eapply moves_valid_shared; eauto.
Qed.

Lemma c08_shared (R : Type) c m (r : R) ds mc s0 rds s out :
  exact_inds c out -> im_make c m r ds mc = Ok s0 -> im_run rds s0 = Ok s ->
  ctree_is_valid (im_ct s) (negb ds) = true /\ ctree_is_valid (im_min_ct s) (negb ds) = true /\
  (ds = false -> all_share (im_ct s) /\ all_share (im_min_ct s)).
Proof.
  intros HX Hm Hr. destruct (c08_shared_valid HX Hm Hr) as (V1 & V2). split; auto. split; auto.
  intros ->. split; apply valid_all_share; auto.
Qed.

(** ** C09 *)
Lemma c09 (R : Type) c m (r : R) ds mc s0 rds s :
  well_formed (nodes c) -> cmodel_ok m (n_inds c) -> im_make c m r ds mc = Ok s0 -> im_run rds s0 = Ok s ->
  exists T, tree_of (nodes (im_ct s)) T /\
    im_total s = Ok (tree_cost m (im_ct s) (n_inds c) no_slices T) /\
    get_cost (im_ccost m (dims (im_ct s))) (im_ct s) = im_total s.
Proof.
  intros W Hcm Hm Hr. apply wf_iff in W.
  destruct (im_make_inv W Hm) as (HI & Hmin & Ec & Ed & Em & Er & Emc & V1 & V2 & T1 & T2).
  destruct (run_ok rds HI) as (s' & E' & HI' & D' & M' & P'). rewrite E' in Hr. inversion Hr; subst s'.
  destruct (wfl_tree_of (co_wf (iv_core HI'))) as (T & HT). exists T. split; auto.
  rewrite (im_total_ok HI'), (tot_tree HI' HT). rewrite M', Em.
  split; [f_equal; apply code_cost_spec; auto; apply (iv_core HI')|].
  apply (get_cost_tree m (iv_core HI') HT).
Qed.

(** ** C10 *)
Lemma run_the_min (R : Type) (rds : list (rand R)) s s' n : inv s n none -> the_min s -> im_run rds s = Ok s' ->
  the_min s'.
Proof.
  intros HI Hm Hr. destruct (run_ok rds HI) as (s2 & E2 & HI2 & D2 & M2 & P2).
  rewrite E2 in Hr. inversion Hr; subst s2.
  unfold the_min. rewrite M2.
  destruct (run_min HI E2) as (_ & [(E1 & E3)|(rds1 & rds2 & s1 & _ & _ & _ & HI1 & _ & M1 & P1 & E1 & E3)]); rewrite E1, E3.
  - exact Hm.
  - destruct (wfl_tree_of (co_wf (iv_core HI1))) as (T & HT). rewrite (tot_tree HI1 HT), M1.
    apply (get_cost_tree _ (iv_core HI1) HT).
Qed.

Lemma run_min_tot (R : Type) (rds : list (rand R)) s s' n : inv s n none -> 1 < length (nodes (im_ct s)) -> rds <> [] ->
  im_run rds s = Ok s' -> (im_min s' <= tot s')%Z.
Proof.
  intros HI HL Hne. revert s HI HL Hne. induction rds as [|rd rds IH]; intros s HI HL Hne Hr; [congruence|].
  simpl in Hr. destruct (im_update_spec rd HI) as (s1 & E1 & HI1 & D1 & M1 & P1 & Hmm). rewrite E1 in Hr. simpl in Hr.
  assert (HL1 : 1 < length (nodes (im_ct s1))).
  { destruct (moves_keep (iv_core HI) (path_moves P1)) as (-> & _). auto. }
  destruct rds as [|rd' rds].
  - simpl in Hr. inversion Hr; subst. destruct Hmm as [(_ & -> & H)|(_ & -> & _)]; [auto|lia].
  - apply (IH s1 HI1 HL1); auto. discriminate.
Qed.

Lemma run_app (R : Type) (rds1 rds2 : list (rand R)) s s1 : im_run rds1 s = Ok s1 ->
  im_run (rds1 ++ rds2) s = im_run rds2 s1.
Proof.
  revert s. induction rds1 as [|rd rds1 IH]; simpl; intros s H; [congruence|].
  apply bind_ok in H. destruct H as (s2 & H1 & H2). rewrite H1. simpl. auto.
Qed.

Lemma c10 (R : Type) c m (r : R) ds mc s0 rds s :
  well_formed (nodes c) -> im_make c m r ds mc = Ok s0 -> im_run rds s0 = Ok s ->
  (* the recorded minimum is the cost of the recorded tree *)
  get_cost (im_ccost m (dims (im_min_ct s))) (im_min_ct s) = Ok (im_min s) /\
  (forall T, tree_of (nodes (im_min_ct s)) T -> cmodel_ok m (n_inds (im_min_ct s)) ->
     im_min s = tree_cost m (im_min_ct s) (n_inds (im_min_ct s)) no_slices T) /\
  (* at most the cost at the end of every update so far, and non-increasing *)
  (forall rds1 rds2 s1, rds = rds1 ++ rds2 -> im_run rds1 s0 = Ok s1 ->
     (im_min s <= im_min s1)%Z /\
     (rds1 <> [] -> forall t1, im_total s1 = Ok t1 -> (im_min s <= t1)%Z)) /\
  (mc = None -> forall t0, im_total s0 = Ok t0 -> (im_min s <= t0)%Z) /\
  (* it is the initial best, or was current at the end of some update *)
  (im_min_ct s = im_min_ct s0 /\ im_min s = im_min s0 \/
   exists rds1 rds2 s1, rds = rds1 ++ rds2 /\ rds1 <> [] /\ im_run rds1 s0 = Ok s1 /\
     im_min_ct s = im_ct s1 /\ im_total s1 = Ok (im_min s)).
Proof.
  intros W Hm Hr. apply wf_iff in W.
  destruct (im_make_inv W Hm) as (HI & Hmin & Ec & Ed & Em & Er & Emc & V1 & V2 & T1 & T2).
  destruct (run_ok rds HI) as (s' & E' & HI' & D' & M' & P'). rewrite E' in Hr. inversion Hr; subst s'.
  pose proof (run_the_min HI Hmin E') as Hmin'. unfold the_min in Hmin'. rewrite M', Em in Hmin'.
  assert (Hm2 : forall rds1 rds2 s1, rds = rds1 ++ rds2 -> im_run rds1 s0 = Ok s1 ->
     (im_min s <= im_min s1)%Z /\ inv s1 (n_inds c) none).
  { intros rds1 rds2 s1 E1 Hr1. rewrite E1, (run_app rds2 Hr1) in E'.
    destruct (run_ok rds1 HI) as (s2 & E2 & HI2 & _). rewrite E2 in Hr1. inversion Hr1; subst s2.
    split; auto. apply (run_min HI2 E'). }
  split; [|split; [|split; [|split]]].
  - exact Hmin'.
  - intros T HT Hcm. destruct (c08 (proj2 (wf_iff _) W) Hm E') as (_ & V).
    assert (Wm : wfl (nodes (im_min_ct s))) by (apply wf_iff; exists T; auto).
    destruct (valid_core Wm V) as (HCm & _). pose proof (get_cost_tree m HCm HT) as E.
    rewrite (code_cost_spec HCm HT Hcm) in E. congruence.
  - intros rds1 rds2 s1 E1 Hr1. destruct (Hm2 _ _ _ E1 Hr1) as (H1 & H2). split; auto.
    intros Hne t1 Ht. rewrite (im_total_ok H2) in Ht. inversion Ht; subst t1.
    pose proof (run_min_tot HI (tot_length HI T1) Hne Hr1). lia.
  - intros -> t0 Ht. rewrite (im_total_ok HI) in Ht. inversion Ht; subst t0.
    assert (im_min s0 = tot s0).
    { unfold the_min in Hmin. rewrite Emc, Em in Hmin.
      pose proof (iv_core HI) as HC0. destruct (wfl_tree_of (co_wf HC0)) as (T & HT).
      rewrite (tot_tree HI HT), Em. rewrite Ec in *. rewrite (get_cost_tree m HC0 HT) in Hmin. congruence. }
    destruct (Hm2 [] rds s0 eq_refl eq_refl). lia.
  - destruct (run_min HI E') as (_ & [Hc|(rds1 & rds2 & s1 & F1 & F2 & F3 & HI1 & _ & _ & _ & G1 & G2)]); auto.
    right. exists rds1, rds2, s1. repeat split; auto. rewrite (im_total_ok HI1). congruence.
Qed.

(** ** C11 *)
Lemma moves_same ds c c' n : core (nodes c) (inds c) n -> moves ds c c' -> same_problem c c'.
Proof.
  intros HC Hm. pose proof (moves_core Hm HC) as HC'. destruct (moves_keep HC Hm) as (L & Hlf & Hr).
  assert (Hnth : forall v, v < length (nodes c) -> ix (inds c') v = ix (inds c) v ->
    nth_error (inds c') v = nth_error (inds c) v).
  { intros v Hv E. unfold ix in E.
    rewrite (nth_error_nth' (inds c') []) by (rewrite (co_len HC'); lia).
    rewrite (nth_error_nth' (inds c) []) by (rewrite (co_len HC); lia). congruence. }
  pose proof (wl_len (co_wf HC)) as L0. destruct (n_leaves_pos (co_wf HC)) as (N0 & N1).
  split; [apply wf_iff; apply HC|]. split; [apply wf_iff; apply HC'|].
  split; [apply (moves_dims Hm)|]. split; auto. split; [rewrite (co_len HC), (co_len HC'); auto|].
  split.
  - intros l Hl. fold (n_leaves (nodes c)) in Hl. apply Hnth; [lia|]. apply Hlf.
    destruct (nth_error (nodes c) l) as [nd|] eqn:Hn; [|apply nth_error_None in Hn; lia].
    destruct (wl_two (co_wf HC) Hn) as [(E0 & E1)|(a & b & E0 & E1 & _)].
    + exists (par nd). rewrite Hn. destruct nd; simpl in *; subst; auto.
    + exfalso. apply (wl_leaf (co_wf HC) Hn) in Hl. congruence.
  - apply Hnth; [lia|auto].
Qed.

Lemma same_refl c n : core (nodes c) (inds c) n -> same_problem c c.
Proof. intros HC. apply (moves_same (ds := true) HC). constructor. Qed.

Lemma c11 (R : Type) c m (r : R) ds mc s0 rds s :
  well_formed (nodes c) -> im_make c m r ds mc = Ok s0 -> im_run rds s0 = Ok s ->
  same_problem c (im_ct s) /\ (im_min_ct s = im_min_ct s0 \/ same_problem c (im_min_ct s)) /\
  (mc = None -> same_problem c (im_min_ct s)) /\ im_cm s = m /\ im_ds s = ds.
Proof.
  intros W Hm Hr. apply wf_iff in W.
  destruct (im_make_inv W Hm) as (HI & Hmin & Ec & Ed & Em & Er & Emc & V1 & V2 & T1 & T2).
  destruct (run_ok rds HI) as (s' & E' & HI' & D' & M' & P'). rewrite E' in Hr. inversion Hr; subst s'.
  pose proof (iv_core HI) as HC. rewrite Ec in *.
  split; [eapply moves_same; eauto|].
  assert (G : im_min_ct s = im_min_ct s0 \/ same_problem c (im_min_ct s)).
  { destruct (run_min HI E') as (_ & [(E1 & _)|(rds1 & rds2 & s1 & _ & _ & _ & _ & _ & _ & P1 & E1 & _)]); auto.
    right. rewrite E1. rewrite Ec in P1. eapply moves_same; eauto. }
  split; auto. split; [|split; congruence].
  intros ->. destruct G as [->|G]; auto. rewrite Emc. eapply same_refl; eauto.
Qed.

(** ** C12 *)
Lemma unfolds_top t q T : unfolds t q T -> exists n, nth_error t (top T) = Some n /\ par n = q.
Proof. destruct T; simpl; [intros H|intros (H & _)]; rewrite H; eexists; split; eauto. Qed.

Lemma depth_climb t v k S : at_depth v k S -> forall q j, unfolds t q S -> climb t (top S) j -> climb t v (k + j).
Proof.
  induction 1 as [T HT|k p l r H IH|k p l r H IH]; intros q j HU Hc; simpl in *.
  - subst. auto.
  - destruct HU as (Hn & Ul & Ur). replace (S (k + j)) with (k + S j) by lia. apply (IH _ _ Ul).
    apply climb_up with p; auto. destruct (unfolds_top Ul) as (n & Hn' & Hp). exists n. auto.
  - destruct HU as (Hn & Ul & Ur). replace (S (k + j)) with (k + S j) by lia. apply (IH _ _ Ur).
    apply climb_up with p; auto. destruct (unfolds_top Ur) as (n & Hn' & Hp). exists n. auto.
Qed.

Lemma c12 (R : Type) c m (r : R) ds mc s0 :
  well_formed (nodes c) -> im_make c m r ds mc = Ok s0 ->
  forall rds, exists s, im_run rds s0 = Ok s /\
  forall T l d rd B nd r', tree_of (nodes (im_ct s)) T -> In l (leaves T) -> at_depth l d T ->
    nth_error (nodes (im_ct s)) l = Some nd -> par nd = Some B ->
    exists tc s', im_total s = Ok tc /\
      forall fuel, d <= fuel -> im_loop rd fuel (with_rng s r') tc B = Ok s'.
Proof.
  intros W Hm rds. apply wf_iff in W.
  destruct (im_make_inv W Hm) as (HI & Hmin & Ec & Ed & Em & Er & Emc & V1 & V2 & T1 & T2).
  destruct (run_ok rds HI) as (s & E' & HI' & D' & M' & P'). exists s. split; auto.
  intros T l d rd B nd r' HT Hl Hd Hn Hp. pose proof (iv_core HI') as HC. pose proof (co_wf HC) as W'.
  exists (tot s). rewrite (im_total_ok HI').
  assert (PB : parent (nodes (im_ct s)) l B) by (exists nd; auto).
  assert (Hc : climb (nodes (im_ct s)) l d).
  { pose proof HT as (HU & _ & Htop & _). replace d with (d + 0) by lia. apply (depth_climb Hd HU).
    constructor; [rewrite Htop; pose proof (wl_len W'); lia|].
    intros p (x & Hx & Hpx). destruct (unfolds_top HU) as (y & Hy & Hpy). congruence. }
  inversion Hc as [v Hv Hnp Ev Ek|v p k Hpp Hck Ev Ek]; subst v d; [exfalso; eapply Hnp; eauto|].
  assert (p = B) by (eapply parent_fun; eauto). subst p.
  assert (HnB : ~ leaf_at (nodes (im_ct s)) B).
  { intros (q & Hq). apply (wl_kp W') in PB. destruct PB as (x & Hx & Hkk). rewrite Hq in Hx.
    inversion Hx; subst. simpl in Hkk. destruct Hkk; discriminate. }
  assert (HIw : inv (with_rng s r') (n_inds c) (fun v => parent (nodes (im_ct (with_rng s r'))) B v)).
  { eapply inv_weaken; [apply inv_rng; eauto|]. intros v []. }
  destruct (@im_loop_spec _ rd k (S k) (with_rng s r') _ (tot s) B HIw Hck HnB ltac:(lia) eq_refl) as (s' & E & _).
  exists s'. split; auto. intros fuel Hf.
  destruct (@im_loop_spec _ rd k fuel (with_rng s r') _ (tot s) B HIw Hck HnB ltac:(lia) eq_refl) as (s2 & E2 & _).
  enough (s2 = s') by congruence. clear - E E2 Hf.
  assert (Hmono : forall f1 f2 (x : im_state R) z B y, f1 <= f2 -> im_loop rd f1 x z B = Ok y -> im_loop rd f2 x z B = Ok y).
  { clear. induction f1 as [|f1 IH]; simpl; intros f2 x z B y Hle H; [discriminate|].
    destruct f2 as [|f2]; [lia|]. simpl. apply bind_ok in H. destruct H as ((x1 & nxt) & H1 & H2). rewrite H1. simpl in *.
    destruct nxt as [(z' & B')|]; auto. apply (IH f2); auto. lia. }
  apply (Hmono _ fuel) in E; [congruence|auto].
Qed.

(** ** C14 and C15 *)
Lemma reach_valid (R : Type) c m (r : R) ds mc s0 rds s :
  (exists out, exact_inds c out) \/ (ds = true /\ well_formed (nodes c)) ->
  im_make c m r ds mc = Ok s0 -> im_run rds s0 = Ok s ->
  inv s (n_inds c) none /\ the_min s /\ im_ds s = ds /\ im_cm s = m /\
  ctree_is_valid (im_ct s) (negb ds) = true /\ ctree_is_valid (im_min_ct s) (negb ds) = true /\
  1 < length (nodes (im_ct s)) /\ (rds = [] -> s = s0).
Proof.
  intros HX Hm Hr.
  assert (W : wfl (nodes c)) by (apply wf_iff; destruct HX as [(out & HX)|(_ & W)]; auto; eapply exact_wf; eauto).
  destruct (im_make_inv W Hm) as (HI & Hmin & Ec & Ed & Em & Er & Emc & V1 & V2 & T1 & T2).
  destruct (run_ok rds HI) as (s' & E' & HI' & D' & M' & P'). rewrite E' in Hr. inversion Hr; subst s'.
  split; auto. split; [apply (run_the_min HI Hmin E')|]. split; [congruence|]. split; [congruence|].
  assert (V : ctree_is_valid (im_ct s) (negb ds) = true /\ ctree_is_valid (im_min_ct s) (negb ds) = true).
  { destruct HX as [(out & HX)|(-> & W')]; [eapply c08_shared_valid; eauto|simpl; eapply c08; eauto]. }
  destruct V as (V & V'). split; auto. split; auto. split.
  - destruct (moves_keep (iv_core HI) P') as (-> & _). apply (tot_length HI T1).
  - intros ->. simpl in E'. congruence.
Qed.

Lemma c14 (R : Type) c m (r : R) ds mc s0 rds s :
  (exists out, exact_inds c out) \/ (ds = true /\ well_formed (nodes c)) ->
  im_make c m r ds mc = Ok s0 -> im_run rds s0 = Ok s -> im_is_valid s = true.
Proof.
  intros HX Hm Hr. destruct (reach_valid HX Hm Hr) as (HI & Hmin & Ed & Em & V1 & V2 & _).
  apply (inv_is_valid HI Hmin); rewrite Ed; auto.
Qed.

(** Positivity of totals. *)
Lemma reach_pos (R : Type) c m (r : R) ds mc s0 rds s : wfl (nodes c) -> cmodel_ok m (n_inds c) ->
  im_make c m r ds mc = Ok s0 -> im_run rds s0 = Ok s ->
  inv s (n_inds c) none /\ im_cm s = m /\ dims_ok (im_ct s) = true /\ 1 < length (nodes (im_ct s)) /\
  (0 < tot s)%Z /\ (0 < im_min s)%Z.
Proof.
  intros W Hcm Hm Hr.
  destruct (im_make_inv W Hm) as (HI & Hmin & Ec & Ed & Em & Er & Emc & V1 & V2 & T1 & T2).
  assert (Hdim : dims_ok c = true) by (eapply valid_core; eauto).
  assert (P : forall rds s, im_run rds s0 = Ok s -> inv s (n_inds c) none /\ im_cm s = m /\ dims_ok (im_ct s) = true /\
     1 < length (nodes (im_ct s)) /\ (0 < tot s)%Z).
  { clear rds s Hr. intros rds s Hr.
    destruct (run_ok rds HI) as (s' & E' & HI' & D' & M' & P'). rewrite E' in Hr. inversion Hr; subst s'.
    split; auto. split; [congruence|].
    assert (Hd : dims_ok (im_ct s) = true).
    { rewrite (dims_ok_eq (iv_core HI) (iv_core HI') (moves_dims P')), Ec. auto. }
    assert (HL : 1 < length (nodes (im_ct s))).
    { destruct (moves_keep (iv_core HI) P') as (-> & _). apply (tot_length HI T1). }
    split; auto. split; auto.
    destruct (wfl_tree_of (co_wf (iv_core HI'))) as (T & HT). rewrite (tot_tree HI' HT).
    apply (code_cost_pos (n := n_inds c)); auto; [apply (iv_core HI')|]. rewrite M', Em. auto. }
  destruct (P _ _ Hr) as (H1 & H2 & H3 & H4 & H5).
  repeat (split; [assumption|]).
  destruct (run_min HI Hr) as (_ & [(_ & E1)|(rds1 & rds2 & s1 & _ & _ & Hr1 & _ & _ & _ & P1 & _ & E1)]); rewrite E1; auto.
  apply (P _ _ Hr1).
Qed.

Lemma c15 (R : Type) c m (r : R) ds mc s0 rds s :
  (exists out, exact_inds c out) \/ (ds = true /\ well_formed (nodes c)) ->
  cmodel_ok m (n_inds c) ->
  im_make c m r ds mc = Ok s0 -> im_run rds s0 = Ok s -> im_unpickle (im_pickle s) = Ok s.
Proof.
  intros HX Hcm Hm Hr. destruct (reach_valid HX Hm Hr) as (HI & Hmin & Ed & Em & V1 & V2 & _).
  assert (W : wfl (nodes c)) by (apply wf_iff; destruct HX as [(out & HX)|(_ & W)]; auto; eapply exact_wf; eauto).
  destruct (reach_pos W Hcm Hm Hr) as (_ & _ & _ & _ & T1 & T2).
  unfold im_unpickle, im_pickle. apply (im_make_ok HI Hmin); auto; rewrite Ed; auto.
Qed.
