(** The finite-width optimizer: updates, constructor, sessions. *)
From Coq Require Import Permutation Relations.
From Verif Require Import M_Base M_Bitset M_Tree M_CTree M_Cost M_Opt M_InfMem M_FinWidth S_Tree S_Opt S_FinWidth
  P_Base P_Bitset P_Tree P_Shape P_TreeProps P_TreeValid P_Opt P_OptCost P_InfMem P_Canon P_Cost P_InfMemMain P_InfMemFinal
  P_FinWidth P_FinWidthOpt.
Set Implicit Arguments.
Unset Strict Implicit.
Local Open Scope nat_scope.

Lemma finv_shaped (R : Type) lg (s : fw_state R) n w : finv lg s n w -> shaped (fw_ct s) n.
Proof.
  intros HI. pose proof (fv_core HI) as HC. split; [apply (co_len HC)|]. intros b Hb.
  apply (In_nth _ _ []) in Hb. destruct Hb as (v & Hv & <-). apply (co_sz HC (v := v)). rewrite <- (co_len HC). auto.
Qed.

Lemma move_dims1 ds c c' : move ds c c' -> dims c' = dims c.
Proof. intros H. apply (@moves_dims ds c c'). econstructor; [exact H|constructor]. Qed.

(** ** The loop *)
Lemma fw_loop_spec (R : Type) lg (fr : frand R) : log_like lg -> forall k fuel (s : fw_state R) n total B,
  finv lg s n (fun v => parent (nodes (fw_ct s)) B v) ->
  climb (nodes (fw_ct s)) B k -> ~ leaf_at (nodes (fw_ct s)) B -> k < fuel ->
  total = ftot s ->
  (fw_loop lg fr fuel s total B = Err Crash /\ may_crash lg s n) \/
  exists s', fw_loop lg fr fuel s total B = Ok s' /\ finv lg s' n none /\ same_fenv s s' /\
    (disj s -> disj s') /\ (fits_kept s -> fitted lg s -> fitted lg s') /\
    path (fr_base fr) (fw_ds s) (fw_ct s) total (fw_ct s') (ftot s').
Proof.
  intros Hlog. induction k as [|k IH]; intros fuel s n total B HI Hc Hlf Hf Ht; (destruct fuel as [|f]; [lia|]); cbn [fw_loop];
    pose proof (climb_lt (co_wf (fv_core HI)) Hc) as LB;
    destruct (fw_iter_spec fr Hlog HI LB Ht) as [(r & E & Hb)|[(E & Hcr)|(s' & tot' & A & E & PB & PB' & HI' & Henv & Ht' & Hcl & Hdj & Hfi & Hm)]];
    rewrite E; cbn [bind].
  - right. eexists. split; [reflexivity|]. inversion Hc as [? ? Hnp|]; subst.
    split; [apply (finv_weaken (finv_rng r HI)); intros v Hv; eapply Hnp; eauto|].
    split; [repeat split; auto|]. split; [auto|]. split; [auto|]. simpl. constructor.
  - left. auto.
  - exfalso. inversion Hc as [? ? Hnp|]; subst. eapply Hnp; eauto.
  - exfalso. destruct Hb as [Hb|Hb]; [contradiction|]. inversion Hc; subst. eapply Hb; eauto.
  - left. auto.
  - inversion Hc as [|? p ? Hp Hc']; subst.
    assert (p = A) by (eapply parent_fun; eauto). subst p.
    assert (HnA : ~ leaf_at (nodes (fw_ct s')) A).
    { intros (q & Hq). apply (wl_kp (co_wf (fv_core HI'))) in PB'. destruct PB' as (m & Hm' & Hk). rewrite Hq in Hm'.
      inversion Hm'; subst. simpl in Hk. destruct Hk; discriminate. }
    destruct Henv as (D1 & D2 & D3 & D4 & D5 & D6 & D7).
    assert (Ed : dims (fw_ct s') = dims (fw_ct s)).
    { destruct Hm as [(-> & _)|(Hm & _)]; auto. eapply move_dims1; eauto. }
    destruct (IH f s' n _ A HI' (Hcl _ Hc') HnA ltac:(lia) eq_refl) as [(E2 & Hcr)|(s2 & E2 & HI2 & Henv2 & Hdj2 & Hfi2 & HP2)].
    + left. split; auto. unfold may_crash in *. rewrite D3, D4, D5, Ed in Hcr. auto.
    + right. exists s2. split; [exact E2|]. split; [exact HI2|].
      destruct Henv2 as (F1 & F2 & F3 & F4 & F5 & F6 & F7).
      split; [repeat split; congruence|]. split; [auto|]. split.
      { intros Hk Hfit. apply Hfi2; auto. unfold fits_kept in *. rewrite D3, D4. auto. }
      destruct Hm as [(Ec & Et)|(Hm & Ha)].
      * rewrite <- Ec, <- Et, <- D1. exact HP2.
      * rewrite D1 in HP2. econstructor; eauto.
Qed.

(** ** New slices for the current tree *)
Lemma fitted_skip (R : Type) lg (s : fw_state R) n w : log_like lg -> finv lg s n w -> disj s -> fitted lg s ->
  forall v, v < length (inds (fw_ct s)) -> skip_fit lg (fw_m s) (fw_ct s) n (fw_skip s) v.
Proof.
  intros Hlog HI Hdj Hf v Hv. specialize (Hf v Hv). unfold skip_fit. eapply Z.le_trans; [|exact Hf].
  pose proof (co_sz (fv_core HI) (v := v) ltac:(rewrite <- (co_len (fv_core HI)); auto)) as Lv.
  pose proof (fv_sl HI) as Ls. rewrite (@width_spec lg _ _ _ n) by (try apply (fv_m HI); rewrite bdiff_len; congruence).
  apply set_width_mono; auto; [apply (fv_dims HI)|]. intros x Hx Hb. apply andb_true_iff in Hb. destruct Hb as (H1 & H2).
  change (mem (bdiff (ix (inds (fw_ct s)) v) (fw_sl s)) x) with (btest (bdiff (ix (inds (fw_ct s)) v) (fw_sl s)) x).
  rewrite bdiff_test by congruence.
  change (carries (fw_ct s) v x) with (btest (ix (inds (fw_ct s)) v) x) in H1. rewrite H1. simpl.
  destruct (btest (fw_sl s) x) eqn:Hb; auto. rewrite (Hdj x Hb) in H2. discriminate.
Qed.

Lemma fw_reslice_spec (R : Type) lg (fr : frand R) b (s : fw_state R) n : log_like lg -> shuffles fr -> finv lg s n none ->
  exists s', fw_reslice lg fr b s = Ok s' /\ finv lg s' n none /\ same_fenv s s' /\ fw_ct s' = fw_ct s /\
    (ftot s' <= ftot s)%Z /\ (disj s -> disj s') /\ (disj s -> fitted lg s -> fitted lg s').
Proof.
  intros Hlog Hsh HI. unfold fw_reslice. destruct (b && bany (fw_sl s)).
  2:{ exists s. split; auto. split; auto. split; [repeat split; auto|]. split; auto. split; [lia|]. split; auto. }
  rewrite (fv_width HI).
  destruct (@get_slices_ok R lg (fw_m s) fr (fw_ct s) n (fw_skip s) (fv_m HI) Hlog (fv_dims HI) Hsh
    (proj2 (wf_iff _) (co_wf (fv_core HI))) (finv_shaped HI) (fv_skip HI) (fw_rng s)) as (sl & r & -> & (G1 & G2 & _) & Gf).
  cbn [bind]. destruct (@cache_ex (fw_m s) (dims (fw_ct s)) sl (fw_ct s) n (fv_core HI)) as (k & -> & HK & HP). cbn [bind].
  rewrite (@back_total _ _ _ _ _ _ (fv_core HI) HK HP). cbn [bind]. rewrite (fw_total_ok HI). cbn [bind].
  destruct (Z.ltb_spec (sumZ (ccost k)) (ftot s)) as [Hlt|Hge]; (eexists; split; [reflexivity|]).
  - split. { destruct HI. constructor; auto. } split; [repeat split; auto|]. split; auto.
    split; [unfold ftot at 1; simpl; lia|]. split; [intros _ x Hx; apply G2; auto|].
    intros Hdj Hf v Hv. simpl in *. apply Gf; auto. eapply fitted_skip; eauto.
  - rewrite <- (fv_width HI). split; [apply finv_rng; auto|]. split; [repeat split; auto|]. split; auto. split; [unfold ftot; simpl; lia|].
    split; auto.
Qed.

(** ** One update *)
Lemma fw_update_spec (R : Type) lg (fr : frand R) b (s : fw_state R) n : log_like lg -> shuffles fr -> finv lg s n none ->
  (fw_update lg fr b s = Err Crash /\ may_crash lg s n) \/
  exists s' z, fw_update lg fr b s = Ok s' /\ finv lg s' n none /\
    fw_ds s' = fw_ds s /\ fw_m s' = fw_m s /\ fw_maxnew s' = fw_maxnew s /\ fw_skip s' = fw_skip s /\
    path (fr_base fr) (fw_ds s) (fw_ct s) (ftot s) (fw_ct s') z /\ (ftot s' <= z)%Z /\
    (disj s -> disj s') /\ (disj s -> fits_kept s -> fitted lg s -> fitted lg s') /\
    ((fw_min_ct s' = fw_min_ct s /\ fw_min_sl s' = fw_min_sl s /\ fw_min s' = fw_min s /\
        (1 < length (nodes (fw_ct s)) -> (fw_min s <= ftot s')%Z)) \/
     (fw_min_ct s' = fw_ct s' /\ fw_min_sl s' = fw_sl s' /\ fw_min s' = ftot s' /\ (ftot s' < fw_min s)%Z)).
Proof.
  intros Hlog Hsh HI. unfold fw_update. destruct (draw (fr_base fr) (fw_rng s)) as (x & r0).
  pose proof (fv_core HI) as HC. pose proof (co_wf HC) as W. destruct (n_leaves_pos W) as (N0 & N1).
  set (l := x mod n_leaves (nodes (fw_ct s))).
  assert (Ll : l < n_leaves (nodes (fw_ct s))) by (apply Nat.mod_upper_bound; lia).
  assert (Lx : l < length (nodes (fw_ct s))) by lia.
  destruct (get_lt Lx) as (nd & -> & Hn). cbn [bind].
  destruct (par nd) as [B|] eqn:Ep.
  2:{ right. eexists _, (ftot s). split; [reflexivity|]. split; [apply finv_rng; auto|]. simpl.
      do 4 (split; [auto|]). split; [constructor|]. split; [unfold ftot; simpl; lia|]. split; [auto|]. split; [auto|].
      left. repeat split; auto. intros HL. exfalso.
      assert (l = length (nodes (fw_ct s)) - 1).
      { apply (wl_root W); auto. intros p (m & Hm & Hp). congruence. }
      unfold n_leaves in Ll.
      assert ((length (nodes (fw_ct s)) + 1) / 2 < length (nodes (fw_ct s))) by (apply Nat.div_lt_upper_bound; lia). lia. }
  rewrite (fw_total_ok (finv_rng r0 HI)). cbn [bind].
  set (s0 := fw_set s (fw_ct s) r0 (fw_width s) (fw_sl s) (fw_cc s) (fw_hyper s)).
  assert (PB : parent (nodes (fw_ct s)) l B) by (exists nd; auto).
  pose proof (parent_lt W PB) as LB. destruct (climb_ex W LB) as (k & Hk).
  assert (HnB : ~ leaf_at (nodes (fw_ct s)) B).
  { intros (q & Hq). apply (wl_kp W) in PB. destruct PB as (m & Hm & Hkk). rewrite Hq in Hm.
    inversion Hm; subst. simpl in Hkk. destruct Hkk; discriminate. }
  destruct (@fw_loop_spec R lg fr Hlog k (length (nodes (fw_ct s))) s0 n (ftot s0) B)
    as [(E1 & Hcr)|(s1 & E1 & HI1 & (D1 & D2 & D3 & D4 & D5 & D6 & D7) & Hdj1 & Hfi1 & HP1)]; auto.
  { apply (finv_weaken (finv_rng r0 HI)). intros v []. }
  { simpl. apply (climb_bound W Hk). }
  { left. rewrite E1. auto. }
  right. rewrite E1. cbn [bind].
  destruct (fw_reslice_spec b Hlog Hsh HI1) as (s2 & E2 & HI2 & (F1 & F2 & F3 & F4 & F5 & F6 & F7) & Ec & Hle & Hdj2 & Hfi2).
  rewrite E2. cbn [bind]. unfold fw_update_min. rewrite (fw_total_ok HI2). cbn [bind].
  simpl in D1, D2, D3, D4, D5, D6, D7, HP1. change (ftot s0) with (ftot s) in HP1. rewrite <- Ec in HP1.
  destruct (Z.ltb_spec (ftot s2) (fw_min s2)) as [Hlt|Hge]; eexists _, (ftot s1); (split; [reflexivity|]); simpl.
  - split; [destruct HI2; constructor; auto|]. do 4 (split; [congruence|]). split; [exact HP1|].
    split; [exact Hle|]. split; [intros Hd; apply Hdj2; apply Hdj1; auto|].
    split. { intros Hd Hk' Hf. apply Hfi2; [apply Hdj1; auto|apply Hfi1; auto]. }
    right. repeat split; auto. rewrite <- D7, <- F7. exact Hlt.
  - split; auto. do 4 (split; [congruence|]). split; [exact HP1|].
    split; [exact Hle|]. split; [intros Hd; apply Hdj2; apply Hdj1; auto|].
    split. { intros Hd Hk' Hf. apply Hfi2; [apply Hdj1; auto|apply Hfi1; auto]. }
    left. split; [congruence|]. split; [congruence|]. split; [congruence|]. intros _. rewrite <- D7, <- F7. exact Hge.
Qed.

(** ** Sessions *)
Definition shuffle_ok (R : Type) (us : list (frand R * bool)) : Prop := Forall (fun u => shuffles (fst u)) us.

Lemma may_crash_eq (R : Type) lg (s s' : fw_state R) n : fw_m s' = fw_m s -> fw_maxnew s' = fw_maxnew s ->
  fw_skip s' = fw_skip s -> dims (fw_ct s') = dims (fw_ct s) -> may_crash lg s' n -> may_crash lg s n.
Proof. unfold may_crash. intros -> -> -> ->. auto. Qed.

Lemma frun_ok (R : Type) lg n : log_like lg -> forall (us : list (frand R * bool)) s, shuffle_ok us -> finv lg s n none ->
  (fw_run lg us s = Err Crash /\ may_crash lg s n) \/
  exists s', fw_run lg us s = Ok s' /\ finv lg s' n none /\
    fw_ds s' = fw_ds s /\ fw_m s' = fw_m s /\ fw_maxnew s' = fw_maxnew s /\ fw_skip s' = fw_skip s /\
    moves (fw_ds s) (fw_ct s) (fw_ct s') /\
    (disj s -> disj s') /\ (disj s -> fits_kept s -> fitted lg s -> fitted lg s').
Proof.
  intros Hlog. induction us as [|(fr & b) us IH]; intros s Hsh HI; cbn [fw_run].
  - right. exists s. split; auto. split; auto. do 4 (split; auto). split; [constructor|]. auto.
  - inversion Hsh as [|? ? Hs1 Hs2]; subst. simpl in Hs1.
    destruct (fw_update_spec b Hlog Hs1 HI) as [(E1 & Hcr)|(s1 & z & E1 & HI1 & D1 & D2 & D3 & D4 & P1 & _ & Hd1 & Hf1 & _)];
      rewrite E1; cbn [bind]; [left; auto|].
    pose proof (path_moves P1) as M1.
    destruct (IH s1 Hs2 HI1) as [(E2 & Hcr)|(s2 & E2 & HI2 & F1 & F2 & F3 & F4 & P2 & Hd2 & Hf2)].
    + left. split; auto. eapply may_crash_eq; [..|exact Hcr]; auto. apply (moves_dims M1).
    + right. exists s2. split; auto. split; auto. do 4 (split; [congruence|]). split.
      { rewrite D1 in P2. eapply moves_trans; eauto. }
      split; auto. intros Hd Hk Hf. apply Hf2; auto. unfold fits_kept in *. rewrite D2, D3. auto.
Qed.

Lemma frun_min (R : Type) lg n : log_like lg -> forall (us : list (frand R * bool)) s s', shuffle_ok us -> finv lg s n none ->
  fw_run lg us s = Ok s' ->
  (fw_min s' <= fw_min s)%Z /\
  ((fw_min_ct s' = fw_min_ct s /\ fw_min_sl s' = fw_min_sl s /\ fw_min s' = fw_min s) \/
   exists us1 us2 s1, us = us1 ++ us2 /\ us1 <> [] /\ fw_run lg us1 s = Ok s1 /\ finv lg s1 n none /\
     fw_ds s1 = fw_ds s /\ fw_m s1 = fw_m s /\ fw_maxnew s1 = fw_maxnew s /\ fw_skip s1 = fw_skip s /\
     moves (fw_ds s) (fw_ct s) (fw_ct s1) /\
     (disj s -> disj s1) /\ (disj s -> fits_kept s -> fitted lg s -> fitted lg s1) /\
     fw_min_ct s' = fw_ct s1 /\ fw_min_sl s' = fw_sl s1 /\ fw_min s' = ftot s1).
Proof.
  intros Hlog. induction us as [|(fr & b) us IH]; intros s s' Hsh HI H; cbn [fw_run] in H.
  - inversion H; subst. split; [lia|]. left. auto.
  - inversion Hsh as [|? ? Hs1 Hs2]; subst. simpl in Hs1. apply bind_ok in H. destruct H as (s1 & H1 & H2).
    destruct (fw_update_spec b Hlog Hs1 HI) as [(E1 & _)|(s1' & z & E1 & HI1 & D1 & D2 & D3 & D4 & P1 & _ & Hd1 & Hf1 & Hm)];
      rewrite E1 in H1; [discriminate|]. inversion H1; subst s1'.
    destruct (IH s1 s' Hs2 HI1 H2) as (Hle & Hc).
    assert (Hle1 : (fw_min s1 <= fw_min s)%Z) by (destruct Hm as [(_ & _ & -> & _)|(_ & _ & -> & ?)]; lia).
    split; [lia|].
    destruct Hc as [(Ec & Es & Em)|(us1 & us2 & s2 & -> & Hne & Hr & HI2 & F1 & F2 & F3 & F4 & P2 & Hd2 & Hf2 & Ec & Es & Em)].
    + destruct Hm as [(E3 & E4 & E5 & _)|(E3 & E4 & E5 & _)].
      * left. repeat split; congruence.
      * right. exists [(fr, b)], us, s1. split; auto. split; [discriminate|]. cbn [fw_run]. rewrite E1. cbn [bind].
        split; auto. split; auto. do 4 (split; [auto|]). split; [eapply path_moves; exact P1|].
        do 2 (split; [auto|]). repeat split; congruence.
    + right. exists ((fr, b) :: us1), us2, s2. split; auto. split; [discriminate|]. cbn [fw_run]. rewrite E1. cbn [bind].
      split; auto. split; auto. do 4 (split; [congruence|]).
      split. { rewrite D1 in P2. eapply moves_trans; [eapply path_moves; exact P1|exact P2]. }
      split; auto. split; [|auto]. intros Hd Hk Hf. apply Hf2; auto. unfold fits_kept in *. rewrite D2, D3. auto.
Qed.

(** ** The constructor *)
Definition the_fmin (R : Type) (s : fw_state R) : Prop :=
  get_cost (fw_ccost (fw_m s) (dims (fw_min_ct s)) (fw_min_sl s)) (fw_min_ct s) = Ok (fw_min s).
Definition min_fits (R : Type) (lg : N -> Z) (s : fw_state R) : Prop :=
  forallb (fits lg (fw_m s) (dims (fw_ct s)) (fw_min_sl s)) (inds (fw_min_ct s)) = true.

Lemma fitted_forall (R : Type) lg (s : fw_state R) : fitted lg s <->
  forallb (fits lg (fw_m s) (dims (fw_ct s)) (fw_sl s)) (inds (fw_ct s)) = true.
Proof.
  rewrite forallb_forall. unfold fitted, fits. split.
  - intros H b Hb. apply (In_nth _ _ []) in Hb. destruct Hb as (v & Hv & <-). apply Z.leb_le. apply (H v Hv).
  - intros H v Hv. apply Z.leb_le. apply H. apply nth_In. auto.
Qed.

Lemma finv_is_valid (R : Type) lg (s : fw_state R) n : finv lg s n none -> the_fmin s -> fitted lg s -> min_fits lg s ->
  ctree_is_valid (fw_ct s) (negb (fw_ds s)) = true ->
  ctree_is_valid (fw_min_ct s) (negb (fw_ds s)) = true ->
  fw_is_valid lg s = true.
Proof.
  intros HI Hm Hf Hmf V1 V2. pose proof (fv_core HI) as HC. unfold fw_is_valid, base_is_valid.
  rewrite V1, V2, Hm, Z.eqb_refl. apply fitted_forall in Hf. rewrite Hf, Hmf.
  rewrite (cost_cache_ok HC (fv_cc HI) (fv_pc HI)). simpl pcost. simpl ccost.
  rewrite !(list_eqb_refl _ Z.eqb_refl). rewrite (hyper_fold HC (fv_hyper HI) (core_n_inds HC)).
  rewrite (list_eqb_refl _ beqb_refl). rewrite (fv_width HI). rewrite (list_eqb_refl _ Z.eqb_refl). auto.
Qed.

Lemma dims_ok_positive c : dims_ok c = true -> dims_positive (dims c).
Proof. intros H x. pose proof (@dims_ok_pos c H x) as Hx. unfold dim_at in Hx. unfold dimension. destruct (dims c); auto. Qed.

Lemma fw_make_inv (R : Type) lg (fr : frand R) c m maxnew (r : R) ds skip mc sl msl s :
  wfl (nodes c) -> log_like lg -> shuffles fr -> cmodel_ok (fm_cm m) (n_inds c) -> skip_len skip (n_inds c) ->
  (forall k, sl = Some k -> length k = n_inds c) ->
  fw_make lg fr c m maxnew r ds skip mc sl msl = Ok s ->
  finv lg s (n_inds c) none /\ the_fmin s /\ fitted lg s /\ min_fits lg s /\
  fw_ct s = c /\ fw_ds s = ds /\ fw_m s = m /\ fw_maxnew s = maxnew /\ fw_skip s = skip /\
  fw_min_ct s = match mc with Some x => x | None => c end /\
  match sl with Some k => fw_sl s = k | None =>
    (forall x, btest (fw_sl s) x = true -> omem skip x = false) /\
    (forall x, btest (fw_sl s) x = true -> exists v, too_wide lg m c v /\ btest (ix (inds c) v) x = true) end /\
  fw_min_sl s = match msl with Some k => k | None => fw_sl s end /\
  ctree_is_valid c (negb ds) = true /\ ctree_is_valid (fw_min_ct s) (negb ds) = true /\
  (0 < ftot s)%Z /\ (0 < fw_min s)%Z.
Proof.
  intros W Hlog Hsh Hcm Hsk Hsl H. unfold fw_make in H. set (mct := match mc with Some x => x | None => c end) in *.
  destruct (base_is_valid c mct ds) eqn:Hb; cbn [negb] in H; [|discriminate H].
  unfold base_is_valid in Hb. apply andb_true_iff in Hb. destruct Hb as (V1 & V2).
  destruct (valid_core W V1) as (HC & HD & HS). pose proof (dims_ok_positive HD) as Hdp.
  assert (Hshp : shaped c (n_inds c)).
  { split; [apply (co_len HC)|]. intros b Hb. apply (In_nth _ _ []) in Hb. destruct Hb as (v & Hv & <-).
    apply (co_sz HC (v := v)). rewrite <- (co_len HC). auto. }
  cbv zeta in H. apply bind_ok in H. destruct H as ((sl1 & r1) & Esl & H).
  assert (Hs1 : length sl1 = n_inds c /\ match sl with Some k => sl1 = k | None =>
    (forall x, btest sl1 x = true -> omem skip x = false) /\
    (forall x, btest sl1 x = true -> exists v, too_wide lg m c v /\ btest (ix (inds c) v) x = true) end).
  { destruct sl as [k|].
    - inversion Esl; subst. split; auto.
    - destruct (@get_slices_ok R lg m fr c (n_inds c) skip Hcm Hlog Hdp Hsh (proj2 (wf_iff _) W) Hshp Hsk r)
        as (sl2 & r2 & E2 & (G1 & G2 & G3) & _). rewrite E2 in Esl. inversion Esl; subst. auto. }
  destruct Hs1 as (Ls1 & Hs1).
  destruct (@cache_ex m (dims c) sl1 c (n_inds c) HC) as (k & Ek & HK & HP). rewrite Ek in H. cbn [bind] in H.
  destruct (hyper_exists HC) as (hs & HH).
  rewrite (hyper_fold HC HH eq_refl) in H. cbn [bind] in H.
  set (msl1 := match msl with Some x => x | None => sl1 end) in *.
  destruct (get_cost (fw_ccost m (dims mct) msl1) mct) as [mt|] eqn:Emt; cbn [bind] in H; [|discriminate].
  set (st := mkFW c ds r1 mct m maxnew (width_cache_make lg m c) skip sl1 msl1 k hs mt) in *.
  assert (HI : finv lg st (n_inds c) none) by (constructor; auto).
  rewrite (fw_total_ok HI) in H. cbn [bind] in H.
  destruct ((ftot st <=? 0)%Z || (mt <=? 0)%Z) eqn:Hz; [discriminate|].
  apply orb_false_iff in Hz. destruct Hz as (Z1 & Z2). apply Z.leb_gt in Z1. apply Z.leb_gt in Z2.
  destruct (fw_is_valid lg st) eqn:Hv; [|discriminate]. inversion H; subst s. clear H.
  unfold fw_is_valid in Hv. rewrite !andb_true_iff in Hv. destruct Hv as ((((((_ & _) & Hf) & Hmf) & _) & _) & _).
  split; [exact HI|]. split; [exact Emt|]. split; [apply fitted_forall; exact Hf|]. split; [exact Hmf|].
  do 6 (split; [reflexivity|]). split; [destruct sl; exact Hs1|].
  split; [reflexivity|]. auto.
Qed.

Lemma fw_make_ok (R : Type) lg (fr : frand R) (s : fw_state R) n : finv lg s n none -> the_fmin s -> fitted lg s -> min_fits lg s ->
  ctree_is_valid (fw_ct s) (negb (fw_ds s)) = true -> ctree_is_valid (fw_min_ct s) (negb (fw_ds s)) = true ->
  (0 < ftot s)%Z -> (0 < fw_min s)%Z ->
  fw_make lg fr (fw_ct s) (fw_m s) (fw_maxnew s) (fw_rng s) (fw_ds s) (fw_skip s) (Some (fw_min_ct s)) (Some (fw_sl s)) (Some (fw_min_sl s)) = Ok s.
Proof.
  intros HI Hm Hf Hmf V1 V2 T1 T2. unfold fw_make. unfold base_is_valid. rewrite V1, V2. cbn [negb bind].
  pose proof (fv_core HI) as HC.
  rewrite (cost_cache_ok HC (fv_cc HI) (fv_pc HI)). cbn [bind]. rewrite (hyper_fold HC (fv_hyper HI) (core_n_inds HC)). cbn [bind].
  unfold the_fmin in Hm. rewrite Hm. cbn [bind]. rewrite <- (fv_width HI).
  replace (mkFW (fw_ct s) (fw_ds s) (fw_rng s) (fw_min_ct s) (fw_m s) (fw_maxnew s) (fw_width s) (fw_skip s) (fw_sl s) (fw_min_sl s)
    (mkCC (pcost (fw_cc s)) (ccost (fw_cc s))) (fw_hyper s) (fw_min s)) with s
    by (destruct s as [a1 a2 a3 a4 a5 a6 a7 a8 a9 a10 [f g] a11 a12]; auto).
  rewrite (fw_total_ok HI). cbn [bind].
  rewrite (proj2 (Z.leb_gt _ _) T1), (proj2 (Z.leb_gt _ _) T2). cbn [orb].
  rewrite (finv_is_valid HI Hm Hf Hmf V1 V2). auto.
Qed.

(** ** Total in terms of abstract trees *)
Definition fcode_cost (m : fmodel) (c : ctree) (sl : bitset) (T : bt) : Z :=
  bt_cost (fun p a b => fw_ccost m (dims c) sl (nth p (inds c) []) (nth a (inds c) []) (nth b (inds c) [])) T.

Lemma fcode_cost_spec m c n sl T : core (nodes c) (inds c) n -> tree_of (nodes c) T -> cmodel_ok (fm_cm m) n -> length sl = n ->
  fcode_cost m c sl T = tree_cost (fm_cm m) c n (mem sl) T.
Proof.
  intros HC HT Hm Ls. pose proof HT as (HU & _). apply (bt_cost_ext HU). intros p a b q Hn.
  assert (K : kids2 (nodes c) p a b) by (exists q; auto).
  destruct (kids2_lt (co_wf HC) K) as (L1 & L2 & L3).
  pose proof (co_sz HC L1) as S1. pose proof (co_sz HC L2) as S2. pose proof (co_sz HC L3) as S3.
  change (nth p (inds c) []) with (ix (inds c) p). change (nth a (inds c) []) with (ix (inds c) a).
  change (nth b (inds c) []) with (ix (inds c) b).
  change (fw_ccost m (dims c) sl (ix (inds c) p) (ix (inds c) a) (ix (inds c) b)) with
    (ccost_of (fm_cm m) (bor (ix (inds c) p) (ix (inds c) a)) sl (ix (inds c) b) (dims c)).
  assert (Lb : length (bor (ix (inds c) p) (ix (inds c) a)) = n) by (rewrite bor_len; congruence).
  rewrite (ccost_prod _ _ Hm Lb Ls). pose proof (co_loc HC K) as HL. unfold step_cost.
  assert (E : forall i, btest (bor (ix (inds c) p) (ix (inds c) a)) i || btest sl i =
                        carries c a i || carries c b i || mem sl i).
  { intros i. specialize (HL i). rewrite bor_test by congruence. unfold carries. change (nth i (nth a (inds c) []) false) with (btest (ix (inds c) a) i).
    change (nth i (nth b (inds c) []) false) with (btest (ix (inds c) b) i). change (mem sl i) with (btest sl i).
    destruct (btest (ix (inds c) p) i), (btest (ix (inds c) a) i), (btest (ix (inds c) b) i); simpl in *; intuition congruence. }
  destruct (fm_cm m) as [|sp np]; cbn [bt_cost]; [|f_equal; [|f_equal]]; apply prod_over_ext; intros i Hi; rewrite E; auto.
Qed.

Lemma ftot_tree (R : Type) lg (s : fw_state R) n T : finv lg s n none -> tree_of (nodes (fw_ct s)) T ->
  ftot s = fcode_cost (fw_m s) (fw_ct s) (fw_sl s) T.
Proof.
  intros HI HT. pose proof HT as (HU & _). destruct (fv_cc HI) as (LK & HKk & HKl).
  unfold ftot. rewrite <- (bt_cost_total HT LK HKl).
  apply (bt_cost_ext HU). intros p a b q Hn. apply (HKk p a b). exists q. auto.
Qed.

Lemma fget_cost_tree m c n sl T : core (nodes c) (inds c) n -> tree_of (nodes c) T ->
  get_cost (fw_ccost m (dims c) sl) c = Ok (fcode_cost m c sl T).
Proof. intros HC HT. apply (get_cost_ok (fw_ccost m (dims c) sl) HC HT). Qed.

Lemma fcode_cost_pos m c n sl T : core (nodes c) (inds c) n -> tree_of (nodes c) T -> dims_positive (dims c) ->
  cmodel_ok (fm_cm m) n -> length sl = n -> 1 < length (nodes c) -> (0 < fcode_cost m c sl T)%Z.
Proof.
  intros HC HT HD Hm Ls HL. pose proof HT as (HU & _ & Htop & Hlv).
  destruct (@bt_cost_pos (fun p a b => fw_ccost m (dims c) sl (nth p (inds c) []) (nth a (inds c) []) (nth b (inds c) []))
     _ _ _ HU) as (_ & Hp).
  { intros p a b q Hn. assert (K : kids2 (nodes c) p a b) by (exists q; auto).
    destruct (kids2_lt (co_wf HC) K) as (L1 & L2 & L3).
    change (1 <= ccost_of (fm_cm m) (bor (ix (inds c) p) (ix (inds c) a)) sl (ix (inds c) b) (dims c))%Z.
    apply (ccost_pos (n := n)); auto.
    rewrite bor_len by (rewrite (co_sz HC L1), (co_sz HC L2); auto). apply (co_sz HC); auto. }
  unfold fcode_cost.
  enough (1 <= bt_cost (fun p a b => fw_ccost m (dims c) sl (nth p (inds c) []) (nth a (inds c) []) (nth b (inds c) [])) T)%Z by lia.
  apply Hp. rewrite Htop.
  destruct (nth_error (nodes c) (length (nodes c) - 1)) as [nd|] eqn:Hn; [|apply nth_error_None in Hn; lia].
  unfold is_leaf. destruct (c0 nd) eqn:E0; auto. exfalso.
  apply (wl_leaf (co_wf HC) Hn) in E0. unfold n_leaves in E0.
  assert ((length (nodes c) + 1) / 2 < length (nodes c)) by (apply Nat.div_lt_upper_bound; lia). lia.
Qed.

Lemma ftot_length (R : Type) lg (s : fw_state R) n : finv lg s n none -> (0 < ftot s)%Z -> 1 < length (nodes (fw_ct s)).
Proof.
  intros HI Ht. pose proof (fv_core HI) as HC. pose proof (co_wf HC) as W. pose proof (wl_len W).
  destruct (Nat.eq_dec (length (nodes (fw_ct s))) 1) as [E|]; [|lia]. exfalso.
  destruct (fv_cc HI) as (LK & _ & HKl). unfold ftot in Ht.
  destruct (kids2_or_leaf W (v := 0) ltac:(lia)) as [Hlf|(a & b & q & Hn)].
  - specialize (HKl _ Hlf). destruct (ccost (fw_cc s)) as [|x [|y l]]; simpl in LK; try lia.
    unfold zx in HKl. simpl in HKl, Ht. lia.
  - assert (K : kids2 (nodes (fw_ct s)) 0 a b) by (exists q; auto).
    destruct (kids2_lt W K) as (L1 & L2 & L3).
    destruct (wl_two W Hn) as [(E0 & _)|(a' & b' & E0 & E1 & Hne)]; simpl in *; [discriminate|].
    inversion E0; inversion E1; subst. lia.
Qed.
