(** Lemmas in the form of the properties, for the finite-width optimizer. *)
From Coq Require Import QArith Permutation Relations.
From Verif Require Import M_Base M_Bitset M_Tree M_CTree M_Cost M_Opt M_InfMem M_Prob M_FinWidth S_Tree S_Opt S_FinWidth
  P_Base P_Bitset P_Tree P_Shape P_TreeProps P_TreeValid P_Opt P_OptCost P_InfMem P_Canon P_Cost P_InfMemMain P_InfMemFinal
  P_Prob P_FinWidth P_FinWidthOpt P_FinWidthMain.
Set Implicit Arguments.
Unset Strict Implicit.
Local Open Scope nat_scope.

Arguments fb_log {R lg fr c m maxnew r ds skip mc sl msl s0}.
Arguments fb_shuf {R lg fr c m maxnew r ds skip mc sl msl s0}.
Arguments fb_tree {R lg fr c m maxnew r ds skip mc sl msl s0}.
Arguments fb_model {R lg fr c m maxnew r ds skip mc sl msl s0}.
Arguments fb_given {R lg fr c m maxnew r ds skip mc sl msl s0}.
Arguments fb_make {R lg fr c m maxnew r ds skip mc sl msl s0}.

Definition oskip (skip : bitset) : option bitset := if bany skip then Some skip else None.

Lemma bany_spec b : bany b = true <-> exists x, btest b x = true.
Proof.
  unfold bany, btest. split.
  - intros H. apply existsb_exists in H. destruct H as (y & Hy & Ey). apply (In_nth _ _ false) in Hy.
    destruct Hy as (i & _ & E). exists i. congruence.
  - intros (x & Hx). apply existsb_exists. exists true. split; auto. rewrite <- Hx. apply nth_In.
    destruct (Nat.lt_ge_cases x (length b)); auto. rewrite nth_overflow in Hx by auto. discriminate.
Qed.

Lemma omem_oskip skip x : omem (oskip skip) x = mem skip x.
Proof.
  unfold oskip. destruct (bany skip) eqn:H; auto. simpl. symmetry. apply not_true_is_false. intros Hx.
  assert (bany skip = true) by (apply bany_spec; exists x; exact Hx). congruence.
Qed.
Lemma bempty_none b n : length b = n -> bany b = false -> b = bempty n.
Proof.
  intros <- H. unfold bempty. induction b as [|x b IH]; simpl in *; auto. unfold bany in *. simpl in H.
  apply orb_false_iff in H. destruct H as (-> & H). f_equal. auto.
Qed.

Section Built.
  Variables (R : Type) (lg : N -> Z) (fr : frand R) (c : ctree) (m : fmodel) (maxnew : nat) (r : R) (ds : bool)
    (skip : bitset) (mc : option ctree) (sl msl : option bitset) (s0 : fw_state R).
  Hypothesis HB : fw_built lg fr c m maxnew r ds skip mc sl msl s0.
  Let n := n_inds c.

  Lemma built_wfl : wfl (nodes c).
  Proof. apply wf_iff. apply (fb_tree HB). Qed.

  Lemma built_inv : finv lg s0 n none /\ the_fmin s0 /\ fitted lg s0 /\ min_fits lg s0 /\
    fw_ct s0 = c /\ fw_ds s0 = ds /\ fw_m s0 = m /\ fw_maxnew s0 = maxnew /\ fw_skip s0 = oskip skip /\
    fw_min_ct s0 = match mc with Some x => x | None => c end /\ disj s0 /\
    length (fw_min_sl s0) = n /\ disjoint (mem (fw_min_sl s0)) (mem skip) /\
    ctree_is_valid c (negb ds) = true /\ ctree_is_valid (fw_min_ct s0) (negb ds) = true /\
    (0 < ftot s0)%Z /\ (0 < fw_min s0)%Z /\ (msl = None -> fw_min_sl s0 = fw_sl s0).
  Proof.
    destruct (fb_given HB) as (Hsk & Hgiv & Hmc). pose proof (fb_make HB) as H. unfold py_fw_make in H.
    destruct (existsb _ _); [discriminate|]. fold (oskip skip) in H.
    assert (Hskl : skip_len (oskip skip) n) by (unfold oskip; destruct (bany skip); simpl; auto).
    destruct (fw_make_inv built_wfl (fb_log HB) (fb_shuf HB) (fb_model HB) Hskl (fun k E => proj1 (Hgiv k (or_introl E))) H)
      as (HI & Hmin & Hf & Hmf & Ec & Ed & Em & En & Es & Emc & Hsl & Emsl & V1 & V2 & T1 & T2).
    assert (Hdj : disj s0).
    { intros x Hx. rewrite Es. destruct sl as [k|]; [|apply Hsl; auto]. subst k.
      destruct (Hgiv _ (or_introl eq_refl)) as (_ & Hd). rewrite omem_oskip. specialize (Hd x Hx).
      destruct (mem skip x); auto. exfalso. auto. }
    repeat (split; [assumption|]).
    assert (Lsl : length (fw_sl s0) = n) by apply (fv_sl HI).
    split; [|split; [|split; [|split; [|split; [|split]]]]]; auto.
    - rewrite Emsl. destruct msl as [k|]; auto. apply (Hgiv _ (or_intror eq_refl)).
    - rewrite Emsl. destruct msl as [k|]; [apply (Hgiv _ (or_intror eq_refl))|].
      intros x Hx Hy. specialize (Hdj x Hx). rewrite Es, omem_oskip in Hdj. congruence.
    - intros E. rewrite Emsl, E. auto.
  Qed.

  (** What a run from [s0] gives. *)
  Lemma built_run us s : all_shuffle us -> fw_run lg us s0 = Ok s ->
    finv lg s n none /\ fw_ds s = ds /\ fw_m s = m /\ fw_maxnew s = maxnew /\ fw_skip s = oskip skip /\
    moves ds c (fw_ct s) /\ disj s /\ (fits_kept s0 -> fitted lg s).
  Proof.
    intros Hsh Hr. destruct built_inv as (HI & Hmin & Hf & Hmf & Ec & Ed & Em & En & Es & Emc & Hdj & _).
    destruct (frun_ok (fb_log HB) Hsh HI) as [(E & _)|(s' & E & HI' & D1 & D2 & D3 & D4 & P & Hd' & Hf')];
      rewrite E in Hr; [discriminate|]. inversion Hr; subst s'.
    rewrite Ec, Ed in P. split; auto. repeat (split; [congruence|]). split; auto.
  Qed.

  Lemma built_dims us s : all_shuffle us -> fw_run lg us s0 = Ok s -> dims (fw_ct s) = dims c.
  Proof. intros Hsh Hr. destruct (built_run Hsh Hr) as (_ & _ & _ & _ & _ & P & _). apply (moves_dims P). Qed.

  Lemma run_fmin us s : all_shuffle us -> fw_run lg us s0 = Ok s -> the_fmin s.
  Proof.
    intros Hsh Hr. destruct built_inv as (HI & Hmin & _). destruct (built_run Hsh Hr) as (_ & _ & Em & _).
    destruct built_inv as (_ & _ & _ & _ & _ & _ & Em0 & _).
    unfold the_fmin. rewrite Em.
    destruct (frun_min (fb_log HB) Hsh HI Hr) as
      (_ & [(E1 & E2 & E3)|(us1 & us2 & s1 & _ & _ & _ & HI1 & _ & M1 & _ & _ & P1 & _ & _ & E1 & E2 & E3)]); rewrite E1, E2, E3.
    - rewrite <- Em0. exact Hmin.
    - destruct (wfl_tree_of (co_wf (fv_core HI1))) as (T & HT). rewrite (ftot_tree HI1 HT), M1, Em0.
      apply (fget_cost_tree _ _ (fv_core HI1) HT).
  Qed.

  (** *** C07 *)
  Lemma f07 us s out : all_shuffle us -> fw_run lg us s0 = Ok s -> exact_inds c out ->
    exact_inds (fw_ct s) out /\ (mc = None -> exact_inds (fw_min_ct s) out).
  Proof.
    intros Hsh Hr HX. destruct built_inv as (HI & _ & _ & _ & Ec & Ed & _ & _ & _ & Emc & _).
    pose proof (fv_core HI) as HC. rewrite Ec in HC.
    destruct (built_run Hsh Hr) as (_ & _ & _ & _ & _ & P & _). split; [eapply moves_exact; eauto|].
    intros E. rewrite E in Emc.
    destruct (frun_min (fb_log HB) Hsh HI Hr) as
      (_ & [(E1 & _)|(us1 & us2 & s1 & _ & _ & _ & HI1 & _ & _ & _ & _ & P1 & _ & _ & E1 & _)]); rewrite E1.
    - rewrite Emc. auto.
    - rewrite Ec in P1. eapply moves_exact; eauto.
  Qed.

  (** *** C08 *)
  Lemma f08 us s : all_shuffle us -> fw_run lg us s0 = Ok s ->
    ctree_is_valid (fw_ct s) false = true /\ ctree_is_valid (fw_min_ct s) false = true.
  Proof.
    intros Hsh Hr. destruct built_inv as (HI & _ & _ & _ & Ec & Ed & _ & _ & _ & Emc & _ & _ & _ & V1 & V2 & _).
    apply valid_weaken in V1. apply valid_weaken in V2. pose proof built_wfl as W.
    destruct (built_run Hsh Hr) as (_ & _ & _ & _ & _ & P & _). split; [eapply moves_valid; eauto|].
    destruct (frun_min (fb_log HB) Hsh HI Hr) as
      (_ & [(E1 & _)|(us1 & us2 & s1 & _ & _ & _ & HI1 & _ & _ & _ & _ & P1 & _ & _ & E1 & _)]); rewrite E1; auto.
    rewrite Ec in P1. eapply moves_valid; eauto.
  Qed.

  Lemma f08_shared us s : (exists out, exact_inds c out) \/ ds = true -> all_shuffle us -> fw_run lg us s0 = Ok s ->
    ctree_is_valid (fw_ct s) (negb ds) = true /\ ctree_is_valid (fw_min_ct s) (negb ds) = true.
  Proof.
    intros HX Hsh Hr. destruct HX as [(out & HX)|E].
    2:{ pose proof (f08 Hsh Hr) as H. rewrite E. exact H. }
    destruct built_inv as (HI & _ & _ & _ & Ec & Ed & _ & _ & _ & Emc & _ & _ & _ & V1 & V2 & _).
    destruct (built_run Hsh Hr) as (_ & _ & _ & _ & _ & P & _). split; [eapply moves_valid_shared; eauto|].
    destruct (frun_min (fb_log HB) Hsh HI Hr) as
      (_ & [(E1 & _)|(us1 & us2 & s1 & _ & _ & _ & HI1 & _ & _ & _ & _ & P1 & _ & _ & E1 & _)]); rewrite E1; auto.
    rewrite Ec, Ed in P1. eapply moves_valid_shared; eauto.
  Qed.

  Lemma f08_all_share us s out : exact_inds c out -> all_shuffle us -> fw_run lg us s0 = Ok s -> ds = false ->
    all_share (fw_ct s) /\ all_share (fw_min_ct s).
  Proof.
    intros HX Hsh Hr E. destruct (f08_shared (or_introl (ex_intro _ out HX)) Hsh Hr) as (V1 & V2).
    rewrite E in V1, V2. split; apply valid_all_share; auto.
  Qed.

  (** *** C18 *)
  Lemma f18 us s : all_shuffle us -> fw_run lg us s0 = Ok s ->
    exists T, tree_of (nodes (fw_ct s)) T /\
      fw_total s = Ok (tree_cost (fm_cm m) (fw_ct s) n (mem (fw_sl s)) T).
  Proof.
    intros Hsh Hr. destruct (built_run Hsh Hr) as (HI & _ & Em & _ & _ & P & _).
    destruct (wfl_tree_of (co_wf (fv_core HI))) as (T & HT). exists T. split; auto.
    rewrite (fw_total_ok HI), (ftot_tree HI HT). f_equal. rewrite Em.
    apply fcode_cost_spec; auto; [apply (fv_core HI)|apply (fb_model HB)|apply (fv_sl HI)].
  Qed.

  Lemma min_shape us s : all_shuffle us -> fw_run lg us s0 = Ok s ->
    n_inds (fw_min_ct s) = n /\ dims (fw_min_ct s) = dims c /\ length (fw_min_sl s) = n /\ well_formed (nodes (fw_min_ct s)) /\
    (forall b, In b (inds (fw_min_ct s)) -> length b = n).
  Proof.
    intros Hsh Hr. destruct built_inv as (HI & _ & _ & _ & Ec & Ed & _ & _ & _ & Emc & _ & Lm & _ & V1 & V2 & _).
    destruct (f08 Hsh Hr) as (_ & V).
    assert (G : n_inds (fw_min_ct s) = n /\ dims (fw_min_ct s) = dims c /\ length (fw_min_sl s) = n /\ well_formed (nodes (fw_min_ct s))).
    { destruct (frun_min (fb_log HB) Hsh HI Hr) as
        (_ & [(E1 & E2 & _)|(us1 & us2 & s1 & _ & _ & Hr1 & HI1 & _ & _ & _ & _ & P1 & _ & _ & E1 & E2 & _)]); rewrite E1, E2.
      - rewrite Emc. destruct (fb_given HB) as (_ & _ & Hmc). destruct mc as [x|].
        + destruct (Hmc x eq_refl) as (W & En & Ed'). auto.
        + repeat (split; [auto|]). apply (fb_tree HB).
      - split; [apply (core_n_inds (fv_core HI1))|]. split; [rewrite Ec in P1; apply (moves_dims P1)|].
        split; [apply (fv_sl HI1)|apply wf_iff; apply (fv_core HI1)]. }
    destruct G as (G1 & G2 & G3 & G4). repeat (split; [assumption|]).
    intros b Hb. apply wf_iff in G4. destruct (valid_core G4 V) as (HC & _). rewrite G1 in HC.
    apply (In_nth _ _ []) in Hb. destruct Hb as (v & Hv & <-). apply (co_sz HC (v := v)). rewrite <- (co_len HC). auto.
  Qed.

  Lemma f18_min us s : all_shuffle us -> fw_run lg us s0 = Ok s ->
    exists T, tree_of (nodes (fw_min_ct s)) T /\
      fw_min s = tree_cost (fm_cm m) (fw_min_ct s) n (mem (fw_min_sl s)) T.
  Proof.
    intros Hsh Hr. destruct (min_shape Hsh Hr) as (G1 & G2 & G3 & (T & HT) & G5). exists T. split; auto.
    pose proof (run_fmin Hsh Hr) as Hm. unfold the_fmin in Hm. destruct (built_run Hsh Hr) as (_ & _ & Em & _). rewrite Em in Hm.
    destruct (f08 Hsh Hr) as (_ & V). assert (Wm : wfl (nodes (fw_min_ct s))) by (apply wf_iff; exists T; auto).
    destruct (valid_core Wm V) as (HC & _). rewrite G1 in HC.
    rewrite (fget_cost_tree m (fw_min_sl s) HC HT) in Hm. inversion Hm as [E].
    apply fcode_cost_spec; auto. apply (fb_model HB).
  Qed.

  (** *** C10 *)
  Lemma frun_app us1 us2 s s1 : fw_run lg us1 s = Ok s1 -> fw_run lg (us1 ++ us2) s = fw_run (R := R) lg us2 s1.
  Proof.
    revert s. induction us1 as [|(f & b) us1 IH]; cbn [fw_run app]; intros s H; [congruence|].
    apply bind_ok in H. destruct H as (s2 & H1 & H2). rewrite H1. cbn [bind]. auto.
  Qed.

  Lemma frun_min_tot us : all_shuffle us -> forall s s', finv lg s n none -> 1 < length (nodes (fw_ct s)) -> us <> [] ->
    fw_run (R := R) lg us s = Ok s' -> (fw_min s' <= ftot s')%Z.
  Proof.
    pose proof (fb_log HB) as Hlog.
    induction us as [|(f & b) us IH]; intros Hsh s s' HI HL Hne Hr; [congruence|].
    inversion Hsh as [|? ? Hs1 Hs2]; subst. simpl in Hs1. cbn [fw_run] in Hr.
    destruct (fw_update_spec b Hlog Hs1 HI) as [(E1 & _)|(s1 & z & E1 & HI1 & D1 & D2 & D3 & D4 & P1 & _ & _ & _ & Hmm)];
      rewrite E1 in Hr; cbn [bind] in Hr; [discriminate|].
    assert (HL1 : 1 < length (nodes (fw_ct s1))).
    { destruct (moves_keep (fv_core HI) (path_moves P1)) as (-> & _). auto. }
    destruct us as [|u us].
    - simpl in Hr. inversion Hr; subst. destruct Hmm as [(_ & _ & -> & H)|(_ & _ & -> & _)]; [auto|lia].
    - apply (IH Hs2 s1 s' HI1 HL1); auto. discriminate.
  Qed.

  Lemma f10 us s : all_shuffle us -> fw_run lg us s0 = Ok s ->
    (forall us1 us2 s1, us = us1 ++ us2 -> fw_run lg us1 s0 = Ok s1 ->
       (fw_min s <= fw_min s1)%Z /\
       (us1 <> [] -> forall t1, fw_total s1 = Ok t1 -> (fw_min s <= t1)%Z)) /\
    (mc = None -> msl = None -> forall t0, fw_total s0 = Ok t0 -> (fw_min s <= t0)%Z) /\
    (fw_min_ct s = fw_min_ct s0 /\ fw_min_sl s = fw_min_sl s0 /\ fw_min s = fw_min s0 \/
     exists us1 us2 s1, us = us1 ++ us2 /\ us1 <> [] /\ fw_run lg us1 s0 = Ok s1 /\
       fw_min_ct s = fw_ct s1 /\ fw_min_sl s = fw_sl s1 /\ fw_total s1 = Ok (fw_min s)).
  Proof.
    intros Hsh Hr. destruct built_inv as (HI & Hmin & _ & _ & Ec & Ed & Em & _ & _ & Emc & _ & _ & _ & _ & _ & T1 & T2 & Emsl).
    assert (Hm2 : forall us1 us2 s1, us = us1 ++ us2 -> fw_run lg us1 s0 = Ok s1 ->
       (fw_min s <= fw_min s1)%Z /\ finv lg s1 n none /\ all_shuffle us1).
    { intros us1 us2 s1 E1 Hr1. rewrite E1 in Hsh, Hr. rewrite (frun_app us2 Hr1) in Hr.
      unfold all_shuffle in Hsh. apply Forall_app in Hsh. destruct Hsh as (Hs1 & Hs2).
      destruct (built_run Hs1 Hr1) as (HI1 & _). split; [|auto]. apply (frun_min (fb_log HB) Hs2 HI1 Hr). }
    split; [|split].
    - intros us1 us2 s1 E1 Hr1. destruct (Hm2 _ _ _ E1 Hr1) as (H1 & H2 & H3). split; auto.
      intros Hne t1 Ht. rewrite (fw_total_ok H2) in Ht. inversion Ht; subst t1.
      pose proof (frun_min_tot H3 HI (ftot_length HI T1) Hne Hr1). lia.
    - intros E E' t0 Ht. rewrite (fw_total_ok HI) in Ht. inversion Ht; subst t0.
      assert (fw_min s0 = ftot s0).
      { unfold the_fmin in Hmin. rewrite E in Emc. specialize (Emsl E'). rewrite Emc, Emsl, Em in Hmin.
        pose proof (fv_core HI) as HC0. destruct (wfl_tree_of (co_wf HC0)) as (T & HT).
        rewrite (ftot_tree HI HT), Em. rewrite Ec in *. rewrite (fget_cost_tree m (fw_sl s0) HC0 HT) in Hmin. congruence. }
      destruct (Hm2 [] us s0 eq_refl eq_refl). lia.
    - destruct (frun_min (fb_log HB) Hsh HI Hr) as
        (_ & [Hc|(us1 & us2 & s1 & F1 & F2 & F3 & HI1 & _ & _ & _ & _ & _ & _ & _ & G1 & G2 & G3)]); auto.
      right. exists us1, us2, s1. repeat (split; [assumption|]). rewrite (fw_total_ok HI1). congruence.
  Qed.

  (** *** C11 *)
  Lemma f11 us s : all_shuffle us -> fw_run lg us s0 = Ok s ->
    same_problem c (fw_ct s) /\ (fw_min_ct s = fw_min_ct s0 \/ same_problem c (fw_min_ct s)) /\
    (mc = None -> same_problem c (fw_min_ct s)) /\
    fw_m s = m /\ fw_ds s = ds /\ fw_maxnew s = maxnew /\ fw_skip_set s = skip.
  Proof.
    intros Hsh Hr. destruct built_inv as (HI & _ & _ & _ & Ec & Ed & _ & _ & _ & Emc & _).
    pose proof (fv_core HI) as HC. rewrite Ec in *.
    destruct (built_run Hsh Hr) as (HI' & D1 & D2 & D3 & D4 & P & _).
    split; [eapply moves_same; eauto|].
    assert (G : fw_min_ct s = fw_min_ct s0 \/ same_problem c (fw_min_ct s)).
    { destruct (frun_min (fb_log HB) Hsh HI Hr) as
        (_ & [(E1 & _)|(us1 & us2 & s1 & _ & _ & _ & HI1 & _ & _ & _ & _ & P1 & _ & _ & E1 & _)]); auto.
      right. rewrite E1. rewrite Ec in P1. eapply moves_same; eauto. }
    split; auto. split.
    { intros E. rewrite E in Emc. destruct G as [->|G]; auto. rewrite Emc. eapply same_refl; eauto. }
    repeat (split; [assumption|]). unfold fw_skip_set. rewrite D4. unfold oskip.
    destruct (bany skip) eqn:Hb; auto. symmetry. apply bempty_none; auto.
    rewrite (core_n_inds (fv_core HI')). destruct (fb_given HB) as (Lsk & _). exact Lsk.
  Qed.

  (** *** C12 *)
  Lemma skip_width : set_width lg (fm_cm (fw_m s0)) (dims (fw_ct s0)) n (omem (fw_skip s0)) = set_width lg (fm_cm m) (dims c) n (mem skip).
  Proof.
    destruct built_inv as (_ & _ & _ & _ & -> & _ & -> & _ & -> & _). apply set_width_ext. intros i _. apply omem_oskip.
  Qed.

  Lemma f12 us : all_shuffle us ->
    (exists s, fw_run lg us s0 = Ok s) \/
    (fw_run lg us s0 = Err Crash /\ 0 < maxnew /\ (fm_max m < set_width lg (fm_cm m) (dims c) n (mem skip))%Z).
  Proof.
    intros Hsh. destruct built_inv as (HI & _ & _ & _ & Ec & _ & Em & En & _).
    destruct (frun_ok (fb_log HB) Hsh HI) as [(E & H1 & H2)|(s' & E & _)]; [right|left; eauto].
    rewrite skip_width in H2. rewrite Em in H2. rewrite En in H1. auto.
  Qed.

  Lemma f12_walk us s : all_shuffle us -> fw_run lg us s0 = Ok s ->
    maxnew = 0 \/ (set_width lg (fm_cm m) (dims c) n (mem skip) <= fm_max m)%Z ->
    forall T l d f B nd r', tree_of (nodes (fw_ct s)) T -> In l (leaves T) -> at_depth l d T ->
      nth_error (nodes (fw_ct s)) l = Some nd -> par nd = Some B ->
      exists tc s', fw_total s = Ok tc /\
        forall fuel, d <= fuel ->
          fw_loop lg f fuel (fw_set s (fw_ct s) r' (fw_width s) (fw_sl s) (fw_cc s) (fw_hyper s)) tc B = Ok s'.
  Proof.
    intros Hsh Hr Hnc T l d f B nd r' HT Hl Hd Hn Hp.
    destruct (built_run Hsh Hr) as (HI & D1 & D2 & D3 & D4 & P & _). pose proof (fb_log HB) as Hlog.
    pose proof (fv_core HI) as HC. pose proof (co_wf HC) as W'.
    assert (Hnc' : ~ may_crash lg s n).
    { intros (H1 & H2). destruct built_inv as (_ & _ & _ & _ & Ec & _ & Em & En & Es & _).
      rewrite D2, D4, (moves_dims P) in H2. pose proof skip_width as Hw. rewrite Ec, Em, Es in Hw. rewrite Hw in H2. lia. }
    exists (ftot s). rewrite (fw_total_ok HI).
    assert (PB : parent (nodes (fw_ct s)) l B) by (exists nd; auto).
    assert (Hc : climb (nodes (fw_ct s)) l d).
    { pose proof HT as (HU & _ & Htop & _). replace d with (d + 0) by lia. apply (depth_climb Hd HU).
      constructor; [rewrite Htop; pose proof (wl_len W'); lia|].
      intros p (x & Hx & Hpx). destruct (unfolds_top HU) as (y & Hy & Hpy). congruence. }
    inversion Hc as [v Hv Hnp Ev Ek|v p k Hpp Hck Ev Ek]; subst v d; [exfalso; eapply Hnp; eauto|].
    assert (p = B) by (eapply parent_fun; eauto). subst p.
    assert (HnB : ~ leaf_at (nodes (fw_ct s)) B).
    { intros (q & Hq). apply (wl_kp W') in PB. destruct PB as (x & Hx & Hkk). rewrite Hq in Hx.
      inversion Hx; subst. simpl in Hkk. destruct Hkk; discriminate. }
    set (sr := fw_set s (fw_ct s) r' (fw_width s) (fw_sl s) (fw_cc s) (fw_hyper s)).
    assert (HIw : finv lg sr n (fun v => parent (nodes (fw_ct sr)) B v)).
    { eapply finv_weaken; [apply finv_rng; exact HI|]. intros v []. }
    destruct (@fw_loop_spec R lg f Hlog k (S k) sr n (ftot s) B HIw Hck HnB ltac:(lia) eq_refl) as [(_ & Hcr)|(s' & E & _)];
      [contradiction|].
    exists s'. split; auto. intros fuel Hf.
    destruct (@fw_loop_spec R lg f Hlog k fuel sr n (ftot s) B HIw Hck HnB ltac:(lia) eq_refl) as [(_ & Hcr)|(s2 & E2 & _)];
      [contradiction|].
    enough (s2 = s') by congruence. clear - E E2 Hf.
    assert (Hmono : forall f1 f2 (x : fw_state R) z B y, f1 <= f2 -> fw_loop lg f f1 x z B = Ok y -> fw_loop lg f f2 x z B = Ok y).
    { clear. induction f1 as [|f1 IH]; cbn [fw_loop]; intros f2 x z B y Hle H; [discriminate|].
      destruct f2 as [|f2]; [lia|]. cbn [fw_loop]. apply bind_ok in H. destruct H as ((x1 & nxt) & H1 & H2). rewrite H1. cbn [bind].
      destruct nxt as [(z' & B')|]; auto. apply (IH f2); auto. lia. }
    apply (Hmono _ fuel) in E; [congruence|auto].
  Qed.

  (** *** C17 *)
  Lemma f17_skip us s : all_shuffle us -> fw_run lg us s0 = Ok s ->
    disjoint (mem (fw_sl s)) (mem skip) /\ disjoint (mem (fw_min_sl s)) (mem skip).
  Proof.
    intros Hsh Hr. destruct built_inv as (HI & _ & _ & _ & _ & _ & _ & _ & Es0 & _ & Hdj0 & _ & Hmd & _).
    assert (G : forall st : fw_state R, fw_skip st = oskip skip -> disj st -> disjoint (mem (fw_sl st)) (mem skip)).
    { intros st E Hd x Hx Hy. specialize (Hd x Hx). rewrite E, omem_oskip in Hd. congruence. }
    destruct (built_run Hsh Hr) as (_ & _ & _ & _ & Es & _ & Hdj & _). split; [apply G; auto|].
    destruct (frun_min (fb_log HB) Hsh HI Hr) as
      (_ & [(_ & E2 & _)|(us1 & us2 & s1 & _ & _ & _ & HI1 & _ & _ & _ & S1 & P1 & Hd1 & _ & _ & E2 & _)]); rewrite E2; auto.
    apply G; auto. congruence.
  Qed.

  Lemma run_min_fits us s : fm_cm m = Simple \/ maxnew = 0 -> all_shuffle us -> fw_run lg us s0 = Ok s ->
    fitted lg s /\ min_fits lg s.
  Proof.
    intros Hk Hsh Hr. destruct built_inv as (HI & _ & Hf0 & Hmf & Ec & _ & Em & En & Es0 & _ & Hdj0 & _).
    assert (Hk0 : fits_kept s0) by (unfold fits_kept; rewrite Em, En; auto).
    destruct (built_run Hsh Hr) as (_ & _ & Ems & _ & Es & P & Hdj & Hf). split; auto.
    unfold min_fits in *. rewrite Ems, (moves_dims P). rewrite Ec, Em in Hmf.
    destruct (frun_min (fb_log HB) Hsh HI Hr) as
      (_ & [(E1 & E2 & _)|(us1 & us2 & s1 & _ & _ & _ & HI1 & _ & M1 & _ & S1 & P1 & Hd1 & Hf1 & E1 & E2 & _)]); rewrite E1, E2; auto.
    rewrite Ec in P1. rewrite <- (moves_dims P1). rewrite <- Em, <- M1. apply fitted_forall. auto.
  Qed.

  Lemma f17 us s : fm_cm m = Simple \/ maxnew = 0 -> all_shuffle us -> fw_run lg us s0 = Ok s ->
    all_fit lg (fm_cm m) (fm_max m) n (fw_ct s) (mem (fw_sl s)) /\
    all_fit lg (fm_cm m) (fm_max m) n (fw_min_ct s) (mem (fw_min_sl s)).
  Proof.
    intros Hk Hsh Hr. destruct (run_min_fits Hk Hsh Hr) as (Hf & Hmf).
    destruct (built_run Hsh Hr) as (HI & _ & Em & _ & _ & P & _).
    assert (G : forall (x : ctree) (k : bitset), length k = n -> (forall b, In b (inds x) -> length b = n) ->
      forallb (fits lg m (dims x) k) (inds x) = true -> all_fit lg (fm_cm m) (fm_max m) n x (mem k)).
    { intros x k Lk Lb H v Hv. rewrite forallb_forall in H.
      assert (Hin : In (nth v (inds x) []) (inds x)) by (apply nth_In; auto).
      specialize (H _ Hin). unfold fits in H. apply Z.leb_le in H. specialize (Lb _ Hin).
      rewrite (@width_spec lg m _ _ n) in H by (try apply (fb_model HB); rewrite bdiff_len; congruence).
      unfold node_fits. eapply Z.le_trans; [|exact H]. apply Z.eq_le_incl. apply set_width_ext. intros i _.
      change (mem (bdiff (nth v (inds x) []) k) i) with (btest (bdiff (nth v (inds x) []) k) i).
      rewrite bdiff_test by congruence. reflexivity. }
    apply fitted_forall in Hf. rewrite Em in Hf. split.
    - apply G; auto; [apply (fv_sl HI)|]. apply (finv_shaped HI).
    - destruct (min_shape Hsh Hr) as (G1 & G2 & G3 & G4 & G5). apply G; auto.
      unfold min_fits in Hmf. rewrite Em, (moves_dims P) in Hmf. rewrite G2. auto.
  Qed.

  (** *** C14 *)
  Lemma f14 us s : (exists out, exact_inds c out) \/ ds = true -> fm_cm m = Simple \/ maxnew = 0 ->
    all_shuffle us -> fw_run lg us s0 = Ok s -> fw_is_valid lg s = true.
  Proof.
    intros HX Hk Hsh Hr. destruct (run_min_fits Hk Hsh Hr) as (Hf & Hmf).
    destruct (built_run Hsh Hr) as (HI & D1 & _). destruct (f08_shared HX Hsh Hr) as (V1 & V2).
    apply (finv_is_valid HI (run_fmin Hsh Hr)); auto; rewrite D1; auto.
  Qed.

  (** *** C15 *)
  Lemma run_pos us s : all_shuffle us -> fw_run lg us s0 = Ok s -> (0 < ftot s)%Z /\ (0 < fw_min s)%Z.
  Proof.
    destruct built_inv as (HI & _ & _ & _ & Ec & _ & Em & _ & _ & _ & _ & _ & _ & _ & _ & T1 & T2 & _).
    assert (G : forall st : fw_state R, finv lg st n none -> fw_m st = m -> moves (fw_ds s0) (fw_ct s0) (fw_ct st) -> (0 < ftot st)%Z).
    { intros st H1 H2 HP. destruct (wfl_tree_of (co_wf (fv_core H1))) as (T & HT). rewrite (ftot_tree H1 HT).
      apply (fcode_cost_pos (n := n)); auto; [apply (fv_core H1)|apply (fv_dims H1)|rewrite H2; apply (fb_model HB)|apply (fv_sl H1)|].
      destruct (moves_keep (fv_core HI) HP) as (-> & _). apply (ftot_length HI T1). }
    intros Hsh Hr. destruct built_inv as (_ & _ & _ & _ & _ & Ed & _).
    destruct (built_run Hsh Hr) as (HI1 & _ & M1 & _ & _ & P & _). split; [apply G; auto; rewrite Ec, Ed; auto|].
    destruct (frun_min (fb_log HB) Hsh HI Hr) as
      (_ & [(_ & _ & E)|(us1 & us2 & s1 & _ & _ & _ & HI2 & _ & M2 & _ & _ & P2 & _ & _ & _ & _ & E)]); rewrite E; auto.
    apply G; auto. congruence.
  Qed.

  Lemma f15 us s f : (exists out, exact_inds c out) \/ ds = true -> maxnew = 0 ->
    all_shuffle us -> fw_run lg us s0 = Ok s -> fw_unpickle lg f (fw_pickle s) = Ok s.
  Proof.
    intros HX Hk Hsh Hr. destruct (run_min_fits (or_intror Hk) Hsh Hr) as (Hf & Hmf).
    destruct (built_run Hsh Hr) as (HI & D1 & D2 & D3 & D4 & P & Hdj & _). destruct (f08_shared HX Hsh Hr) as (V1 & V2).
    destruct (run_pos Hsh Hr) as (T1 & T2). destruct (f11 Hsh Hr) as (_ & _ & _ & _ & _ & _ & Hss).
    unfold fw_unpickle, fw_pickle, py_fw_make. rewrite Hss.
    replace (existsb _ _) with false.
    - fold (oskip skip). rewrite <- D4. rewrite Hk in D3. rewrite <- D3.
      apply (fw_make_ok f HI (run_fmin Hsh Hr)); auto; rewrite D1; auto.
    - symmetry. apply not_true_is_false. intros He. apply existsb_exists in He. destruct He as (xs & Hin & Hlt).
      apply Z.ltb_lt in Hlt. apply (In_nth _ _ []) in Hin. destruct Hin as (v & Hv & <-).
      pose proof (fitted_skip (fb_log HB) HI Hdj Hf Hv) as Hw. unfold skip_fit in Hw.
      pose proof (proj2 (finv_shaped HI) _ (nth_In (inds (fw_ct s)) [] Hv)) as Lv.
      destruct (fb_given HB) as (Lsk & _). fold n in Lsk.
      rewrite (@width_spec lg (fw_m s) _ _ n) in Hlt
        by first [solve [rewrite D2; apply (fb_model HB)]|rewrite band_len; [exact Lv|exact (eq_trans Lv (eq_sym Lsk))]].
      assert (E : set_width lg (fm_cm (fw_m s)) (dims (fw_ct s)) n (mem (band (nth v (inds (fw_ct s)) []) skip)) =
                  set_width lg (fm_cm (fw_m s)) (dims (fw_ct s)) n (fun x => carries (fw_ct s) v x && omem (fw_skip s) x)).
      { apply set_width_ext. intros i _. change (mem (band (nth v (inds (fw_ct s)) []) skip) i) with
          (btest (band (nth v (inds (fw_ct s)) []) skip) i). rewrite band_test by exact (eq_trans Lv (eq_sym Lsk)).
        rewrite D4, omem_oskip. reflexivity. }
      apply (Z.lt_irrefl (fm_max (fw_m s))). eapply Z.lt_le_trans; [exact Hlt|]. eapply Z.le_trans; [apply Z.eq_le_incl; exact E|exact Hw].
  Qed.

  (** *** C13 *)
  Lemma f13 us us' s s' t t' : all_shuffle us -> all_shuffle us' -> fw_run lg us s0 = Ok s ->
    Forall (fun u : frand R * bool => forall r delta tot r', accept (fr_base (fst u)) r delta tot = (true, r') -> (delta <= 0)%Z) us' ->
    fw_run lg us' s = Ok s' -> fw_total s = Ok t -> fw_total s' = Ok t' -> (t' <= t)%Z.
  Proof.
    intros Hsh Hsh' Hr Hg Hr' Ht Ht'. destruct (built_run Hsh Hr) as (HI & _).
    rewrite (fw_total_ok HI) in Ht. inversion Ht; subst t. pose proof (fb_log HB) as Hlog.
    assert (G : forall us st st', all_shuffle us ->
      Forall (fun u : frand R * bool => forall r delta tot r', accept (fr_base (fst u)) r delta tot = (true, r') -> (delta <= 0)%Z) us ->
      finv lg st n none -> fw_run lg us st = Ok st' -> finv lg st' n none /\ (ftot st' <= ftot st)%Z).
    { clear - Hlog. induction us as [|(f & b) us IH]; intros st st' Hs Hf HI Hr.
      - inversion Hr; subst. split; auto. lia.
      - inversion Hs as [|? ? Hs1 Hs2]; subst. inversion Hf as [|? ? Hf1 Hf2]; subst. simpl in Hs1, Hf1. cbn [fw_run] in Hr.
        destruct (fw_update_spec b Hlog Hs1 HI) as [(E1 & _)|(s1 & z & E1 & HI1 & _ & _ & _ & _ & P1 & Hz & _)];
          rewrite E1 in Hr; cbn [bind] in Hr; [discriminate|].
        destruct (IH s1 st' Hs2 Hf2 HI1 Hr) as (HI2 & Hle). split; auto.
        assert ((z <= ftot st)%Z); [|lia].
        clear - P1 Hf1. induction P1 as [|c z c1 z1 c2 z2 Hm Ha Hp IH]; [lia|].
        destruct Ha as (r & r' & Ha). apply Hf1 in Ha. lia. }
    destruct (G us' s s' Hsh' Hg HI Hr') as (HI' & Hle). rewrite (fw_total_ok HI') in Ht'. inversion Ht'; subst. auto.
  Qed.
End Built.

(** ** C16 *)
Lemma f16 (R : Type) lg m (fr : frand R) c n skip r : cmodel_ok (fm_cm m) n -> log_like lg -> dims_positive (dims c) ->
  shuffles fr -> well_formed (nodes c) -> shaped c n -> (forall k, skip = Some k -> length k = n) ->
  skips_fit lg (fm_cm m) (fm_max m) n c (omem skip) ->
  exists sl r', get_slices lg m fr c skip r (width_cache_make lg m c) = Ok (sl, r') /\ length sl = n /\
    disjoint (mem sl) (omem skip) /\
    all_fit lg (fm_cm m) (fm_max m) n c (mem sl) /\
    (forall x, mem sl x = true -> exists v, v < length (inds c) /\ carries c v x = true /\
       ~ node_fits lg (fm_cm m) (fm_max m) n c no_slices v).
Proof.
  intros Hm Hl Hd Hs W Hsh Hsk0 Hf. assert (Hsk : skip_len skip n) by (destruct skip; simpl; auto).
  destruct (@get_slices_ok R lg m fr c n skip Hm Hl Hd Hs W Hsh Hsk r) as (sl & r' & E & (L & G1 & G2) & G3).
  exists sl, r'. split; auto. split; auto. split.
  { intros x Hx Hy. rewrite (G1 x Hx) in Hy. discriminate. }
  assert (Lv : forall v, v < length (inds c) -> length (ix (inds c) v) = n) by (intros v Hv; apply Hsh; apply nth_In; auto).
  split.
  - intros v Hv. specialize (G3 v Hv (Hf v Hv)). specialize (Lv v Hv).
    rewrite (@width_spec lg m _ _ n) in G3 by (auto; rewrite bdiff_len; congruence).
    unfold node_fits. eapply Z.le_trans; [|exact G3]. apply Z.eq_le_incl. apply set_width_ext. intros i _.
    change (mem (bdiff (ix (inds c) v) sl) i) with (btest (bdiff (ix (inds c) v) sl) i).
    rewrite bdiff_test by congruence. reflexivity.
  - intros x Hx. destruct (G2 x Hx) as (v & (Hv & Hw) & Hb). exists v. split; auto. split; auto.
    unfold node_fits. intros Hle. rewrite (@width_spec lg m _ _ n) in Hw by auto.
    assert (E2 : set_width lg (fm_cm m) (dims c) n (fun x => carries c v x && negb (no_slices x)) =
      set_width lg (fm_cm m) (dims c) n (mem (ix (inds c) v))).
    { apply set_width_ext. intros i _. unfold no_slices. simpl. rewrite andb_true_r. reflexivity. }
    lia.
Qed.

(** The constructor accepts every valid tree whose non-sliceable parts fit. *)
Lemma f16_make (R : Type) lg m (fr : frand R) c maxnew r ds skip : cmodel_ok (fm_cm m) (n_inds c) -> log_like lg ->
  shuffles fr -> well_formed (nodes c) -> 1 < length (nodes c) -> ctree_is_valid c (negb ds) = true ->
  length skip = n_inds c -> skips_fit lg (fm_cm m) (fm_max m) (n_inds c) c (mem skip) ->
  exists s0, py_fw_make (R := R) lg fr c m maxnew r ds skip None None None = Ok s0 /\
    fw_built lg fr c m maxnew r ds skip None None None s0.
Proof.
  intros Hm Hl Hs W HL V Lsk Hf. pose proof W as W'. apply wf_iff in W'.
  destruct (valid_core W' V) as (HC & HD & _). pose proof (dims_ok_positive HD) as Hdp.
  assert (Hshp : shaped c (n_inds c)).
  { split; [apply (co_len HC)|]. intros b Hb. apply (In_nth _ _ []) in Hb. destruct Hb as (v & Hv & <-).
    apply (co_sz HC (v := v)). rewrite <- (co_len HC). auto. }
  assert (Hskl : skip_len (oskip skip) (n_inds c)) by (unfold oskip; destruct (bany skip); simpl; auto).
  assert (Ex : existsb (fun xs => (fm_max m <? width_of lg m (band xs skip) (dims c))%Z) (inds c) = false).
  { apply not_true_is_false. intros He. apply existsb_exists in He. destruct He as (xs & Hin & Hlt).
    apply Z.ltb_lt in Hlt. apply (In_nth _ _ []) in Hin. destruct Hin as (v & Hv & <-). specialize (Hf v Hv).
    pose proof (proj2 Hshp _ (nth_In (inds c) [] Hv)) as Lv.
    rewrite (@width_spec lg m _ _ (n_inds c)) in Hlt by first [exact Hm|rewrite band_len; [exact Lv|exact (eq_trans Lv (eq_sym Lsk))]].
    assert (E : set_width lg (fm_cm m) (dims c) (n_inds c) (mem (band (nth v (inds c) []) skip)) =
                set_width lg (fm_cm m) (dims c) (n_inds c) (fun x => carries c v x && mem skip x)).
    { apply set_width_ext. intros i _. change (mem (band (nth v (inds c) []) skip) i) with
        (btest (band (nth v (inds c) []) skip) i). rewrite band_test by exact (eq_trans Lv (eq_sym Lsk)). reflexivity. }
    apply (Z.lt_irrefl (fm_max m)). eapply Z.lt_le_trans; [exact Hlt|]. eapply Z.le_trans; [apply Z.eq_le_incl; exact E|exact Hf]. }
  destruct (@get_slices_ok R lg m fr c (n_inds c) (oskip skip) Hm Hl Hdp Hs W Hshp Hskl r) as (sl & r1 & Esl & (L & _) & Hfit).
  assert (Hfit' : forall v, v < length (inds c) -> (width_of lg m (bdiff (ix (inds c) v) sl) (dims c) <= fm_max m)%Z).
  { intros v Hv. apply Hfit; auto. unfold skip_fit. eapply Z.le_trans; [|apply (Hf v Hv)]. apply Z.eq_le_incl.
    apply set_width_ext. intros i _. rewrite omem_oskip. auto. }
  destruct (@cache_ex m (dims c) sl c (n_inds c) HC) as (k & Ek & HK & HP).
  destruct (hyper_exists HC) as (hs & HH). destruct (wfl_tree_of W') as (T & HT).
  set (st := mkFW c ds r1 c m maxnew (width_cache_make lg m c) (oskip skip) sl sl k hs (fcode_cost m c sl T)).
  assert (HI : finv lg st (n_inds c) none) by (constructor; auto).
  assert (Hmn : the_fmin st) by apply (fget_cost_tree m sl HC HT).
  pose proof (fcode_cost_pos HC HT Hdp Hm L HL) as Hp.
  assert (Ht : ftot st = fcode_cost m c sl T) by (apply (ftot_tree HI HT)).
  assert (HE : py_fw_make lg fr c m maxnew r ds skip None None None = Ok st).
  { unfold py_fw_make. rewrite Ex. fold (oskip skip). unfold fw_make, base_is_valid. rewrite V. cbn [andb negb].
    rewrite Esl. cbn [bind]. rewrite Ek. cbn [bind]. rewrite (hyper_fold HC HH eq_refl). cbn [bind].
    unfold the_fmin in Hmn. simpl in Hmn. rewrite Hmn. cbn [bind]. fold st. rewrite (fw_total_ok HI). cbn [bind].
    rewrite Ht. rewrite (proj2 (Z.leb_gt _ _) Hp). cbn [orb].
    assert (Hv : fitted lg st) by (intros v Hv; apply Hfit'; auto).
    rewrite (@finv_is_valid R lg st (n_inds c)); auto. apply fitted_forall in Hv. exact Hv. }
  exists st. split; auto. constructor; auto. split; auto. split; intros ? [?|?] || intros ? ?; discriminate.
Qed.

(** ** C19 *)
Lemma f19 lg m b d n x : cmodel_ok (fm_cm m) n -> log_like lg -> dims_positive d -> length b = n -> x < n ->
  width_of lg m b d = set_width lg (fm_cm m) d n (mem b) /\
  set_width lg (fm_cm m) d n (fun i => xorb (i =? x) (mem b i)) = (width_of lg m b d + delta_width_of lg m b d x)%Z.
Proof.
  intros Hm Hl Hd Lb Hx. split; [apply width_spec; auto|]. rewrite <- (dw_exact Hm Hl Hd Lb Hx).
  rewrite (@width_spec lg m _ d n) by (auto; rewrite bflip_len; auto). apply set_width_ext. intros i Hi.
  symmetry. rewrite Nat.eqb_sym. apply bflip_test. lia.
Qed.

Lemma f13_greedy (R : Type) lg (fr : frand R) c m maxnew r ds skip mc sl msl s0 :
  fw_built lg fr c m maxnew r ds skip mc sl msl s0 ->
  forall us us' s s' t t', all_shuffle us -> all_shuffle us' -> fw_run lg us s0 = Ok s ->
  Forall (fun u : frand R * bool => exists prng uniform, fr_base (fst u) = q_rand prng uniform greedy_prob /\
            forall r, (0 < fst (uniform r))%Q) us' ->
  fw_run lg us' s = Ok s' -> fw_total s = Ok t -> fw_total s' = Ok t' -> (t' <= t)%Z.
Proof.
  intros HB us us' s s' t t' H1 H2 H3 Hg. apply (f13 HB H1 H2 H3). eapply Forall_impl; [|exact Hg].
  intros u (prng & uniform & -> & Hu). apply greedy_accept; auto.
Qed.
