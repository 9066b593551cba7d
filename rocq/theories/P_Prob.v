(** Acceptance rules (C13). *)
From Coq Require Import Permutation Relations QArith Reals Qreals Lra.
From Verif Require Import M_Base M_Bitset M_Tree M_CTree M_Cost M_Opt M_InfMem M_Prob S_Tree S_Opt
  P_Base P_Bitset P_Tree P_Shape P_TreeProps P_TreeValid P_Opt P_OptCost P_InfMem P_Canon P_Cost P_InfMemMain P_InfMemFinal.
Set Implicit Arguments.
Unset Strict Implicit.
Local Open Scope nat_scope.

(** ** Greedy *)
Lemma path_le (R : Type) (rd : rand R) ds c z c' z' :
  (forall r delta tot r', accept rd r delta tot = (true, r') -> (delta <= 0)%Z) ->
  path rd ds c z c' z' -> (z' <= z)%Z.
Proof.
  intros H. induction 1 as [|c z c1 z1 c2 z2 Hm Ha Hp IH]; [lia|].
  destruct Ha as (r & r' & Ha). apply H in Ha. lia.
Qed.

Lemma run_le (R : Type) n (rds : list (rand R)) : 
  Forall (fun rd => forall r delta tot r', accept rd r delta tot = (true, r') -> (delta <= 0)%Z) rds ->
  forall s s', inv s n none -> im_run rds s = Ok s' -> (tot s' <= tot s)%Z.
Proof.
  induction 1 as [|rd rds Hrd _ IH]; simpl; intros s s' HI Hr; [inversion Hr; lia|].
  destruct (im_update_spec rd HI) as (s1 & E1 & HI1 & D1 & M1 & P1 & _). rewrite E1 in Hr. simpl in Hr.
  pose proof (path_le Hrd P1). pose proof (IH _ _ HI1 Hr). lia.
Qed.

Lemma greedy_accept (R : Type) prng (uniform : R -> Q * R) : (forall r, (0 < fst (uniform r))%Q) ->
  forall r delta tot r', accept (q_rand prng uniform greedy_prob) r delta tot = (true, r') -> (delta <= 0)%Z.
Proof.
  intros Hu r delta tot r'. simpl. specialize (Hu r). destruct (uniform r) as (u & r1). simpl in Hu.
  intros H. injection H as H _. apply Qle_bool_iff in H. unfold greedy_prob in H.
  destruct (Z.leb_spec delta 0); auto. apply Qle_not_lt in H. contradiction.
Qed.

Lemma c13_greedy (R : Type) c m (r : R) ds mc s0 rds0 rds s s' t t' :
  well_formed (nodes c) -> im_make c m r ds mc = Ok s0 -> im_run rds0 s0 = Ok s ->
  Forall (fun rd => exists prng uniform, rd = q_rand prng uniform greedy_prob /\
                      forall r, (0 < fst (uniform r))%Q) rds ->
  im_run rds s = Ok s' -> im_total s = Ok t -> im_total s' = Ok t' -> (t' <= t)%Z.
Proof.
  intros W Hm Hr0 Hg Hr Ht Ht'. apply wf_iff in W.
  destruct (im_make_inv W Hm) as (HI & _). destruct (run_ok rds0 HI) as (s1 & E1 & HI1 & _).
  rewrite E1 in Hr0. inversion Hr0; subst s1.
  destruct (run_ok rds HI1) as (s2 & E2 & HI2 & _). rewrite E2 in Hr. inversion Hr; subst s2.
  rewrite (im_total_ok HI1) in Ht. rewrite (im_total_ok HI2) in Ht'. inversion Ht; inversion Ht'; subst.
  apply (@run_le _ (n_inds c) rds); auto. eapply Forall_impl; [|exact Hg].
  intros rd (prng & uniform & -> & Hu). apply greedy_accept; auto.
Qed.

(** ** Metropolis-Hastings *)
Lemma mh_improving beta delta old : (delta <= 0)%Z -> mh_prob beta delta old = 1%R.
Proof. intros H. unfold mh_prob. apply Z.leb_le in H. rewrite H. auto. Qed.

Lemma mh_range beta delta old : (0 <= beta)%R -> (0 < old)%Z ->
  (0 < mh_prob beta delta old <= 1)%R.
Proof.
  intros Hb Ho. unfold mh_prob. destruct (Z.leb_spec delta 0); [lra|].
  assert (H1 : (0 < IZR delta / IZR old)%R).
  { apply Rmult_lt_0_compat; [apply IZR_lt; auto|apply Rinv_0_lt_compat; apply IZR_lt; auto]. }
  split; [apply exp_pos|]. unfold Rpower.
  assert (L : (0 < ln (1 + IZR delta / IZR old))%R) by (rewrite <- ln_1; apply ln_increasing; lra).
  set (x := ln _) in *. apply Rle_trans with (exp 0); [|rewrite exp_0; lra].
  destruct (Req_dec beta 0) as [->|]; [replace (-0 * x)%R with 0%R by ring; lra|].
  left. apply exp_increasing. nra.
Qed.

Lemma mh_zero delta old : (0 < old)%Z -> mh_prob 0 delta old = 1%R.
Proof.
  intros Ho. unfold mh_prob. destruct (Z.leb_spec delta 0); auto.
  rewrite Ropp_0. apply Rpower_O.
  assert (H1 : (0 < IZR delta / IZR old)%R).
  { apply Rmult_lt_0_compat; [apply IZR_lt; auto|apply Rinv_0_lt_compat; apply IZR_lt; auto]. }
  lra.
Qed.

(** A colder chain, or a larger increase, is accepted less often. *)
Lemma mh_antitone beta beta' delta delta' old : (0 <= beta <= beta')%R -> (0 < old)%Z -> (delta <= delta')%Z ->
  (mh_prob beta' delta' old <= mh_prob beta delta old)%R.
Proof.
  intros Hb Ho Hd. destruct (Z.leb_spec delta 0) as [H0|H0].
  - rewrite (mh_improving beta old H0). apply mh_range; auto. lra.
  - unfold mh_prob. destruct (Z.leb_spec delta 0); [lia|]. destruct (Z.leb_spec delta' 0); [lia|].
    assert (I : (0 < / IZR old)%R) by (apply Rinv_0_lt_compat, IZR_lt; auto).
    assert (D : (0 < IZR delta <= IZR delta')%R) by (split; [apply IZR_lt|apply IZR_le]; lia).
    assert (L : (0 < ln (1 + IZR delta / IZR old))%R).
    { rewrite <- ln_1. apply ln_increasing; [lra|]. unfold Rdiv. nra. }
    assert (L' : (ln (1 + IZR delta / IZR old) <= ln (1 + IZR delta' / IZR old))%R).
    { unfold Rdiv. destruct (Req_dec (IZR delta) (IZR delta')) as [->|]; [lra|].
      left. apply ln_increasing; nra. }
    unfold Rpower. set (x := ln (1 + IZR delta / IZR old)) in *. set (y := ln (1 + IZR delta' / IZR old)) in *.
    destruct (Req_dec (- beta' * y) (- beta * x)) as [->|]; [lra|]. left. apply exp_increasing. nra.
Qed.

Lemma mh_accept (R : Type) prng (uniform : R -> Q * R) beta r delta tot : (fst (uniform r) <= 1)%Q -> (delta <= 0)%Z ->
  fst (accept (r_rand prng uniform (mh_prob beta)) r delta tot) = true.
Proof.
  intros Hu Hd. simpl. destruct (uniform r) as (u & r'). simpl in *. rewrite mh_improving by auto.
  destruct (Rle_dec (Q2R u) 1) as [|H]; auto. exfalso. apply H. 
  replace 1%R with (Q2R 1) by (unfold Q2R; simpl; lra). apply Qle_Rle. auto.
Qed.

(** ** The rule is only consulted with a positive running total *)
Definition agree (R : Type) (rd rd' : rand R) : Prop :=
  (forall r, draw rd r = draw rd' r) /\
  (forall r delta tot, (0 < tot)%Z -> accept rd r delta tot = accept rd' r delta tot).

Lemma bind_ext (A B : Type) (x : res A) (f g : A -> res B) : (forall a, f a = g a) -> bind x f = bind x g.
Proof. intros H. destruct x; simpl; auto. Qed.

Lemma nn_agree (R : Type) (rd rd' : rand R) c ds r p : agree rd rd' ->
  get_ctree_nn rd c ds r p = get_ctree_nn rd' c ds r p.
Proof.
  intros (Hd & _). unfold get_ctree_nn. destruct p as [p|]; auto.
  apply bind_ext. intros nb. destruct (is_root nb || is_leaf nb); auto.
  destruct (par nb), (c0 nb), (c1 nb); auto. apply bind_ext. intros na.
  destruct (if oeqb (c0 na) (Some p) then c1 na else c0 na); auto.
  do 3 (apply bind_ext; intros ?). rewrite Hd. auto.
Qed.

Lemma iter_agree (R : Type) (rd rd' : rand R) s z B : agree rd rd' -> (0 < z)%Z ->
  im_iter rd s z B = im_iter rd' s z B.
Proof.
  intros Ha Hz. unfold im_iter. rewrite (nn_agree _ _ _ _ Ha). apply bind_ext. intros (nn & r1).
  destruct nn as [[[[A C] D] E]|]; auto. do 9 (apply bind_ext; intros ?).
  rewrite (proj2 Ha _ _ _ Hz). auto.
Qed.

Lemma tot_pos_w (R : Type) (s : im_state R) n w : inv s n w -> dims_ok (im_ct s) = true -> cmodel_ok (im_cm s) n ->
  1 < length (nodes (im_ct s)) -> (0 < sumZ (ccost (im_cc s)))%Z.
Proof.
  intros [HC HH HK HP] HD Hm HL. destruct HK as (LK & HKk & HKl).
  destruct (wfl_tree_of (co_wf HC)) as (T & HT). pose proof HT as (HU & _).
  rewrite <- (bt_cost_total HT LK HKl).
  replace (bt_cost _ T) with (code_cost (im_cm s) (im_ct s) T); [eapply code_cost_pos; eauto|].
  apply (bt_cost_ext HU). intros p a b q Hn. symmetry. apply (HKk p a b). exists q. auto.
Qed.

Lemma loop_agree (R : Type) (rd rd' : rand R) n : agree rd rd' -> forall fuel s B,
  inv s n (fun v => parent (nodes (im_ct s)) B v) -> B < length (nodes (im_ct s)) ->
  dims_ok (im_ct s) = true -> cmodel_ok (im_cm s) n -> 1 < length (nodes (im_ct s)) ->
  im_loop rd fuel s (sumZ (ccost (im_cc s))) B = im_loop rd' fuel s (sumZ (ccost (im_cc s))) B.
Proof.
  intros Ha. induction fuel as [|f IH]; simpl; intros s B HI LB HD Hm HL; auto.
  pose proof (tot_pos_w HI HD Hm HL) as Hp. rewrite <- (iter_agree s B Ha Hp).
  destruct (im_iter_spec rd HI LB eq_refl) as [(r & -> & _)|(s' & tot' & A & -> & PB & PB' & HI' & Henv & -> & _ & Hmv)]; auto.
  simpl. destruct Henv as (D1 & D2 & D3 & D4).
  assert (Hmm : moves (im_ds s) (im_ct s) (im_ct s')).
  { destruct Hmv as [(-> & _)|(Hmv & _)]; [constructor|]. econstructor; [eauto|constructor]. }
  destruct (moves_keep (iv_core HI) Hmm) as (EL & _).
  apply IH; auto.
  - apply (parent_lt (co_wf (iv_core HI')) PB').
  - rewrite (dims_ok_eq (iv_core HI) (iv_core HI') (moves_dims Hmm)). auto.
  - congruence.
  - lia.
Qed.

Lemma update_agree (R : Type) (rd rd' : rand R) n s : agree rd rd' -> inv s n none ->
  dims_ok (im_ct s) = true -> cmodel_ok (im_cm s) n -> 1 < length (nodes (im_ct s)) ->
  im_update rd s = im_update rd' s.
Proof.
  intros Ha HI HD Hm HL. unfold im_update. rewrite (proj1 Ha). destruct (draw rd' (im_rng s)) as (x & r0).
  destruct (get (nodes (im_ct s)) _) as [nd|] eqn:Eg; auto. simpl bind. destruct (par nd) as [B|] eqn:Ep; auto.
  rewrite (im_total_ok (inv_rng r0 HI)). simpl bind.
  apply get_ok in Eg.
  assert (PB : parent (nodes (im_ct s)) (x mod n_leaves (nodes (im_ct s))) B) by (exists nd; auto).
  unfold tot. rewrite (@loop_agree _ rd rd' n Ha (length (nodes (im_ct s))) (with_rng s r0) B); auto.
  - eapply inv_weaken; [apply inv_rng; eauto|]. intros v [].
  - apply (parent_lt (co_wf (iv_core HI)) PB).
Qed.

Lemma run_agree (R : Type) n (rds rds' : list (rand R)) : Forall2 (@agree R) rds rds' -> forall s, inv s n none ->
  dims_ok (im_ct s) = true -> cmodel_ok (im_cm s) n -> 1 < length (nodes (im_ct s)) ->
  im_run rds s = im_run rds' s.
Proof.
  induction 1 as [|rd rd' rds rds' Ha _ IH]; simpl; intros s HI HD Hm HL; auto.
  rewrite <- (update_agree Ha HI HD Hm HL).
  destruct (im_update_spec rd HI) as (s1 & -> & HI1 & D1 & M1 & P1 & _). simpl.
  pose proof (path_moves P1) as Hmm.
  destruct (moves_keep (iv_core HI) Hmm) as (EL & _).
  apply IH; auto.
  - rewrite (dims_ok_eq (iv_core HI) (iv_core HI1) (moves_dims Hmm)). auto.
  - congruence.
  - lia.
Qed.

Lemma c13_positive (R : Type) c m (r : R) ds mc s0 rds rds' :
  well_formed (nodes c) -> cmodel_ok m (n_inds c) -> im_make c m r ds mc = Ok s0 ->
  Forall2 (fun rd rd' : rand R =>
    (forall r, draw rd r = draw rd' r) /\
    (forall r delta tot, (0 < tot)%Z -> accept rd r delta tot = accept rd' r delta tot)) rds rds' ->
  im_run rds s0 = im_run rds' s0.
Proof.
  intros W Hcm Hm Ha. apply wf_iff in W.
  destruct (@reach_pos _ c m r ds mc s0 [] s0 W Hcm Hm eq_refl) as (HI & M & HD & HL & _).
  apply (run_agree Ha HI HD); auto. rewrite M. auto.
Qed.
