(** Rounded costs and widths: the lemmas in the form of the properties. *)
From Coq Require Import Permutation Relations Psatz.
From Verif Require Import M_Base M_Bitset M_Tree M_CTree M_Cost M_Opt M_InfMem M_FinWidth M_Float M_FinFloat S_Tree S_Opt S_Float S_FinWidth S_FinFloat
  P_Base P_Bitset P_Tree P_Shape P_TreeProps P_TreeValid P_Opt P_OptCost P_InfMem P_Canon P_Cost P_InfMemMain P_InfMemFinal
  P_Approx P_FinWidth P_FinWidthOpt P_FinWidthMain P_FinWidthFinal P_FloatCost P_FinFloat P_FinFloatRun P_FinFloatWidth.
From Verif Require P_FloatRun P_FloatMain.
Set Implicit Arguments.
Unset Strict Implicit.
Local Open Scope nat_scope.

Arguments rb_shuf {R ar wa fr c m maxnew r ds skip mc sl msl s0}.
Arguments rb_tree {R ar wa fr c m maxnew r ds skip mc sl msl s0}.
Arguments rb_model {R ar wa fr c m maxnew r ds skip mc sl msl s0}.
Arguments rb_given {R ar wa fr c m maxnew r ds skip mc sl msl s0}.
Arguments rb_make {R ar wa fr c m maxnew r ds skip mc sl msl s0}.

(** Monotone rounding makes rounded widths monotone. *)
Section Mono.
  Variables (rep : Z -> Prop) (wa : warith) (d : dims_t).
  Hypotheses (Hw : wmonotone rep wa) (Hd : dims_positive d).

  Lemma rsimple_rep xs : rep (rw_simple wa xs d).
  Proof.
    unfold rw_simple. destruct d as [x|l]; [apply (wm_repl Hw)|].
    assert (G : forall p w, rep w -> rep (fold_left (fun w pos => wacc wa w (wlog wa (nth pos l 1%N))) p w)).
    { induction p as [|x p IH]; simpl; auto. intros w _. apply IH. apply (wm_repa Hw). }
    apply G. apply (wm_rep0 Hw).
  Qed.

  Lemma bcount_mono a b : (forall i, btest a i = true -> btest b i = true) -> bcount a <= bcount b.
  Proof.
    assert (Z : forall l, (forall i, btest l i = false) -> length (filter (fun v : bool => v) l) = 0).
    { clear. induction l as [|x l IH]; intros H; auto. simpl. pose proof (H 0) as H0'. unfold btest in H0'. simpl in H0'. subst x.
      apply IH. intros i. apply (H (S i)). }
    unfold bcount. revert b. induction a as [|x a IH]; intros b H; [simpl; lia|]. destruct b as [|y b].
    - rewrite (Z (x :: a)); [simpl; lia|]. intros i. destruct (btest (x :: a) i) eqn:Hi; auto. specialize (H i Hi).
      unfold btest in H. rewrite nth_overflow in H; [discriminate|simpl; lia].
    - assert (Ht : forall i, btest a i = true -> btest b i = true) by (intros i Hi; apply (H (S i) Hi)).
      specialize (IH b Ht). specialize (H 0). unfold btest in H. simpl in H. destruct x, y; simpl; try lia; specialize (H eq_refl); discriminate.
  Qed.

  Lemma rsimple_mono a b : length a = length b -> (forall i, btest a i = true -> btest b i = true) ->
    (rw_simple wa a d <= rw_simple wa b d)%Z.
  Proof.
    intros Lab H. pose proof Hd as Hd'. unfold rw_simple. destruct d as [x|l].
    - apply (wm_logs Hw); [specialize (Hd' 0); simpl in Hd'; lia|apply bcount_mono; auto].
    - unfold bpositions. rewrite <- Lab.
      assert (G : forall p w w', rep w' -> (w <= w')%Z ->
        (fold_left (fun w pos => wacc wa w (wlog wa (nth pos l 1%N))) (filter (btest a) p) w <=
         fold_left (fun w pos => wacc wa w (wlog wa (nth pos l 1%N))) (filter (btest b) p) w')%Z).
      { induction p as [|x p IH]; simpl; intros w w' Hr Hle; auto.
        destruct (btest a x) eqn:Ea.
        - rewrite (H x Ea). simpl. apply IH; [apply (wm_repa Hw)|]. apply (wm_acc Hw); auto.
        - destruct (btest b x); simpl; [|auto]. apply IH; [apply (wm_repa Hw)|].
          eapply Z.le_trans; [exact Hle|]. apply (wm_up Hw); auto. apply (wm_log Hw). specialize (Hd' x). simpl in Hd'. lia. }
      apply G; [apply (wm_rep0 Hw)|lia].
  Qed.

  Lemma rwidth_mono m n a b : cmodel_ok (fm_cm m) n -> length a = n -> length b = n ->
    (forall i, btest a i = true -> btest b i = true) -> (rwidth_of wa m a d <= rwidth_of wa m b d)%Z.
  Proof.
    intros Hm La Lb H. unfold rwidth_of. destruct (fm_cm m) as [|sp np]; [apply rsimple_mono; auto; congruence|].
    destruct Hm as (Ls & _). unfold rw_sparse. apply (wm_add Hw).
    - apply rsimple_mono; [rewrite !bdiff_len; congruence|]. intros i. rewrite !bdiff_test by congruence.
      rewrite !andb_true_iff. intros (G1 & G2). auto.
    - assert (Hs : (rw_simple wa (band a sp) d <= rw_simple wa (band b sp) d)%Z).
      { apply rsimple_mono; [rewrite !band_len; congruence|]. intros i. rewrite !band_test by congruence.
        rewrite !andb_true_iff. intros (G1 & G2). auto. }
      unfold rwmin. destruct (Z.ltb_spec (rw_simple wa (band a sp) d) (wlog wa (Z.to_N np)));
        destruct (Z.ltb_spec (rw_simple wa (band b sp) d) (wlog wa (Z.to_N np))); try lia.
      apply (wm_cast Hw); [apply rsimple_rep|lia].
  Qed.
End Mono.

Section Built.
  Variables (ar : arith) (wa : warith) (R : Type) (fr : frand R) (c : ctree) (m : fmodel) (maxnew : nat) (r : R) (ds : bool)
    (skip : bitset) (mc : option ctree) (sl msl : option bitset) (s0 : fw_state R).
  Hypothesis HB : rfw_built ar wa fr c m maxnew r ds skip mc sl msl s0.
  Let n := n_inds c.

  Lemma rbuilt_wfl : wfl (nodes c).
  Proof. apply wf_iff. apply (rb_tree HB). Qed.

  Lemma rbuilt_inv : rfinv ar wa s0 n none /\ rthe_fmin ar s0 /\ rfitted wa s0 /\ rmin_fits wa s0 /\
    fw_ct s0 = c /\ fw_ds s0 = ds /\ fw_m s0 = m /\ fw_maxnew s0 = maxnew /\ fw_skip s0 = oskip skip /\
    fw_min_ct s0 = match mc with Some x => x | None => c end /\ disj s0 /\
    length (fw_min_sl s0) = n /\ disjoint (mem (fw_min_sl s0)) (mem skip) /\
    ctree_is_valid c (negb ds) = true /\ ctree_is_valid (fw_min_ct s0) (negb ds) = true /\
    (0 < rtot s0)%Z /\ (0 < fw_min s0)%Z /\ (msl = None -> fw_min_sl s0 = fw_sl s0).
  Proof.
    destruct (rb_given HB) as (Hsk & Hgiv & Hmc). pose proof (rb_make HB) as H. unfold rpy_fw_make in H.
    destruct (existsb _ _); [discriminate|]. fold (oskip skip) in H.
    assert (Hskl : skip_len (oskip skip) n) by (unfold oskip; destruct (bany skip); simpl; auto).
    destruct (rfw_make_inv rbuilt_wfl (rb_shuf HB) (rb_model HB) Hskl (fun k E => proj1 (Hgiv k (or_introl E))) H)
      as (HI & Hmin & Hf & Hmf & Ec & Ed & Em & En & Es & Emc & Hsl & Emsl & V1 & V2 & T1 & T2).
    assert (Hdj : disj s0).
    { intros x Hx. rewrite Es. destruct sl as [k|]; [|apply Hsl; auto]. subst k.
      destruct (Hgiv _ (or_introl eq_refl)) as (_ & Hd). rewrite omem_oskip. specialize (Hd x Hx).
      destruct (mem skip x); auto. exfalso. auto. }
    repeat (split; [assumption|]).
    assert (Lsl : length (fw_sl s0) = n) by apply (rv_sl HI).
    split; [|split; [|split; [|split; [|split; [|split]]]]]; auto.
    - rewrite Emsl. destruct msl as [k|]; auto. apply (Hgiv _ (or_intror eq_refl)).
    - rewrite Emsl. destruct msl as [k|]; [apply (Hgiv _ (or_intror eq_refl))|].
      intros x Hx Hy. specialize (Hdj x Hx). rewrite Es, omem_oskip in Hdj. congruence.
    - intros E. rewrite Emsl, E. auto.
  Qed.

  Lemma rbuilt_run us s : all_shuffle us -> rfw_run ar wa us s0 = Ok s -> kept ar wa s0 s n (no_reslice us).
  Proof.
    intros Hsh Hr. destruct rbuilt_inv as (HI & _).
    destruct (rfw_run_ok Hsh HI) as [(E & _)|(s' & E & K)]; rewrite E in Hr; [discriminate|]. inversion Hr; subst s'. auto.
  Qed.

  Lemma skip_width' lg : set_width lg (fm_cm (fw_m s0)) (dims (fw_ct s0)) n (omem (fw_skip s0)) = set_width lg (fm_cm m) (dims c) n (mem skip).
  Proof.
    destruct rbuilt_inv as (_ & _ & _ & _ & -> & _ & -> & _ & -> & _). apply set_width_ext. intros i _. apply omem_oskip.
  Qed.

  Lemma g49_runs us : all_shuffle us ->
    (exists s, rfw_run ar wa us s0 = Ok s) \/
    (rfw_run ar wa us s0 = Err Crash /\ 0 < maxnew /\
     forall e B lg, log_like lg -> waccurate e B lg wa -> widths_upto e B lg (fm_cm m) (dims c) n -> (0 <= fm_max m)%Z ->
       (fm_max m < set_width lg (fm_cm m) (dims c) n (mem skip) + width_err (fm_cm m) (Z.of_nat n) * e)%Z).
  Proof.
    intros Hsh. destruct rbuilt_inv as (HI & _ & _ & _ & Ec & _ & Em & En & _).
    destruct (rfw_run_ok Hsh HI) as [(E & H1 & H2)|(s' & E & _)]; [right|left; eauto].
    rewrite En in H1. split; auto. split; auto. intros e B lg Hl Ha Hu Hm.
    rewrite <- skip_width', <- Em. apply H2; auto; rewrite ?Em, ?Ec; auto.
    apply (waccurate_good Ha Hl); auto; [|apply (rb_model HB)]. rewrite <- Ec. apply (rv_dims HI).
  Qed.

  (** Where the best tree comes from. *)
  Lemma rbest us s : all_shuffle us -> rfw_run ar wa us s0 = Ok s ->
    (fw_min_ct s = fw_min_ct s0 /\ fw_min_sl s = fw_min_sl s0 /\ fw_min s = fw_min s0) \/
    exists us1 us2 s1, us = us1 ++ us2 /\ us1 <> [] /\ rfw_run ar wa us1 s0 = Ok s1 /\ kept ar wa s0 s1 n (no_reslice us1) /\
       fw_min_ct s = fw_ct s1 /\ fw_min_sl s = fw_sl s1 /\ fw_min s = rtot s1.
  Proof. intros Hsh Hr. destruct rbuilt_inv as (HI & _). apply (rfw_run_min Hsh HI Hr). Qed.

  Lemma g49_trees us s out : all_shuffle us -> rfw_run ar wa us s0 = Ok s -> exact_inds c out ->
    exact_inds (fw_ct s) out /\ same_problem c (fw_ct s) /\
    ctree_is_valid (fw_ct s) (negb ds) = true /\ ctree_is_valid (fw_min_ct s) (negb ds) = true /\
    (mc = None -> exact_inds (fw_min_ct s) out /\ same_problem c (fw_min_ct s)) /\
    fw_m s = m /\ fw_ds s = ds /\ fw_maxnew s = maxnew /\ fw_skip_set s = skip.
  Proof.
    intros Hsh Hr HX. destruct rbuilt_inv as (HI & _ & _ & _ & Ec & Ed & Em & En & Es & Emc & _ & _ & _ & V1 & V2 & _).
    pose proof (rv_core HI) as HC. rewrite Ec in HC.
    destruct (rbuilt_run Hsh Hr) as (HI' & D1 & D2 & D3 & D4 & P & _). rewrite Ec, Ed in P.
    split; [eapply moves_exact; eauto|]. split; [eapply moves_same; eauto|]. split; [eapply moves_valid_shared; eauto|].
    assert (Hss : fw_skip_set s = skip).
    { unfold fw_skip_set. rewrite D4, Es. unfold oskip.
      destruct (bany skip) eqn:Hb; auto. symmetry. apply bempty_none; auto.
      rewrite (core_n_inds (rv_core HI')). destruct (rb_given HB) as (Lsk & _). exact Lsk. }
    assert (Hfin : fw_m s = m /\ fw_ds s = ds /\ fw_maxnew s = maxnew /\ fw_skip_set s = skip) by (repeat split; congruence).
    destruct (rbest Hsh Hr) as [(E1 & _)|(us1 & us2 & s1 & _ & _ & _ & K1 & E1 & _)]; rewrite E1.
    - split; auto. split; auto. intros ->. rewrite Emc. split; auto. eapply same_refl; eauto.
    - destruct K1 as (_ & _ & _ & _ & _ & P1 & _). rewrite Ec, Ed in P1.
      split; [eapply moves_valid_shared; eauto|]. split; auto. intros _. split; [eapply moves_exact; eauto|eapply moves_same; eauto].
  Qed.

  Lemma g49_valid_any us s : all_shuffle us -> rfw_run ar wa us s0 = Ok s ->
    ctree_is_valid (fw_ct s) false = true /\ ctree_is_valid (fw_min_ct s) false = true.
  Proof.
    intros Hsh Hr. destruct rbuilt_inv as (HI & _ & _ & _ & Ec & Ed & _ & _ & _ & Emc & _ & _ & _ & V1 & V2 & _).
    apply valid_weaken in V1. apply valid_weaken in V2. pose proof rbuilt_wfl as W.
    destruct (rbuilt_run Hsh Hr) as (_ & _ & _ & _ & _ & P & _). rewrite Ec, Ed in P. split; [eapply moves_valid; eauto|].
    destruct (rbest Hsh Hr) as [(E1 & _)|(us1 & us2 & s1 & _ & _ & _ & K1 & E1 & _)]; rewrite E1; auto.
    destruct K1 as (_ & _ & _ & _ & _ & P1 & _). rewrite Ec in P1. eapply moves_valid; eauto.
  Qed.
  Lemma g49_valid us s : (exists out, exact_inds c out) \/ ds = true -> all_shuffle us -> rfw_run ar wa us s0 = Ok s ->
    ctree_is_valid (fw_ct s) (negb ds) = true /\ ctree_is_valid (fw_min_ct s) (negb ds) = true.
  Proof.
    intros [(out & HX)|E] Hsh Hr.
    - destruct (g49_trees Hsh Hr HX) as (_ & _ & G1 & G2 & _). auto.
    - pose proof (g49_valid_any Hsh Hr) as H. rewrite E. exact H.
  Qed.

  Lemma rmin_shape us s : all_shuffle us -> rfw_run ar wa us s0 = Ok s ->
    n_inds (fw_min_ct s) = n /\ dims (fw_min_ct s) = dims c /\ length (fw_min_sl s) = n /\ well_formed (nodes (fw_min_ct s)) /\
    (forall b, In b (inds (fw_min_ct s)) -> length b = n).
  Proof.
    intros Hsh Hr. destruct rbuilt_inv as (HI & _ & _ & _ & Ec & Ed & _ & _ & _ & Emc & _ & Lm & _ & V1 & V2 & _).
    destruct (g49_valid_any Hsh Hr) as (_ & V).
    assert (G : n_inds (fw_min_ct s) = n /\ dims (fw_min_ct s) = dims c /\ length (fw_min_sl s) = n /\ well_formed (nodes (fw_min_ct s))).
    { destruct (rbest Hsh Hr) as [(E1 & E2 & _)|(us1 & us2 & s1 & _ & _ & Hr1 & K1 & E1 & E2 & _)]; rewrite E1, E2.
      - rewrite Emc. destruct (rb_given HB) as (_ & _ & Hmc). destruct mc as [x|].
        + destruct (Hmc x eq_refl) as (W & En & Ed'). auto.
        + repeat (split; [auto|]). apply (rb_tree HB).
      - destruct K1 as (HI1 & _ & _ & _ & _ & P1 & _).
        split; [apply (core_n_inds (rv_core HI1))|]. split; [rewrite Ec in P1; apply (moves_dims P1)|].
        split; [apply (rv_sl HI1)|apply wf_iff; apply (rv_core HI1)]. }
    destruct G as (G1 & G2 & G3 & G4). repeat (split; [assumption|]).
    intros b Hb. apply wf_iff in G4. destruct (valid_core G4 V) as (HC & _). rewrite G1 in HC.
    apply (In_nth _ _ []) in Hb. destruct Hb as (v & Hv & <-). apply (co_sz HC (v := v)). rewrite <- (co_len HC). auto.
  Qed.

  Lemma g49_skip us s : all_shuffle us -> rfw_run ar wa us s0 = Ok s ->
    disjoint (mem (fw_sl s)) (mem skip) /\ disjoint (mem (fw_min_sl s)) (mem skip).
  Proof.
    intros Hsh Hr. destruct rbuilt_inv as (HI & _ & _ & _ & _ & _ & _ & _ & Es0 & _ & Hdj0 & _ & Hmd & _).
    assert (G : forall st : fw_state R, fw_skip st = fw_skip s0 -> disj st -> disjoint (mem (fw_sl st)) (mem skip)).
    { intros st E Hd x Hx Hy. specialize (Hd x Hx). rewrite E, Es0, omem_oskip in Hd. congruence. }
    destruct (rbuilt_run Hsh Hr) as (_ & _ & _ & _ & Es & _ & Hdj & _). split; [apply G; auto|].
    destruct (rbest Hsh Hr) as [(_ & E2 & _)|(us1 & us2 & s1 & _ & _ & _ & K1 & _ & E2 & _)]; rewrite E2; auto.
    destruct K1 as (_ & _ & _ & _ & S1 & _ & Hd1 & _). apply G; auto.
  Qed.

  (** *** Widths *)
  Lemma fit_of_width lg mx (x : ctree) (k : bitset) : length k = n -> (forall b, In b (inds x) -> length b = n) ->
    (forall v, v < length (inds x) -> (width_of lg m (bdiff (ix (inds x) v) k) (dims x) <= mx)%Z) -> all_fit lg (fm_cm m) mx n x (mem k).
  Proof.
    intros Lk Lb H v Hv. specialize (H v Hv). specialize (Lb _ (nth_In (inds x) [] Hv)).
    rewrite (@width_spec lg m _ _ n) in H by (try apply (rb_model HB); unfold ix; rewrite bdiff_len; congruence).
    unfold node_fits. eapply Z.le_trans; [|exact H]. apply Z.eq_le_incl. apply set_width_ext. intros i _.
    change (mem (bdiff (ix (inds x) v) k) i) with (btest (bdiff (ix (inds x) v) k) i).
    unfold ix. rewrite bdiff_test by congruence. reflexivity.
  Qed.

  Lemma g49_fit us s e B lg : log_like lg -> waccurate e B lg wa -> widths_upto e B lg (fm_cm m) (dims c) n -> (0 <= fm_max m)%Z ->
    fm_cm m = Simple \/ maxnew = 0 -> all_shuffle us -> rfw_run ar wa us s0 = Ok s ->
    all_fit lg (fm_cm m) (fm_max m + width_err (fm_cm m) (Z.of_nat n) * e) n (fw_ct s) (mem (fw_sl s)) /\
    all_fit lg (fm_cm m) (fm_max m + width_err (fm_cm m) (Z.of_nat n) * e) n (fw_min_ct s) (mem (fw_min_sl s)).
  Proof.
    intros Hl Ha Hu Hm0 Hk Hsh Hr. destruct rbuilt_inv as (HI & _ & Hf & Hmf & Ec & Ed & Em & En & _ & _ & Hdj & _).
    assert (Hdp : dims_positive (dims c)) by (rewrite <- Ec; apply (rv_dims HI)).
    pose proof (waccurate_good Ha Hl Hdp (rb_model HB) Hu) as Hg. set (K := (width_err (fm_cm m) (Z.of_nat n) * e)%Z) in *.
    assert (Hk0 : fits_kept s0) by (unfold fits_kept; rewrite Em, En; auto).
    assert (Hf0 : tfitted lg (fm_max m + K) s0).
    { intros v Hv. pose proof (proj2 (rfinv_shaped HI) _ (nth_In (inds (fw_ct s0)) [] Hv)) as Lv.
      specialize (Hf v Hv). rewrite Em, Ec in *. apply (wgood_width Hg); auto.
      unfold ix. rewrite bdiff_len; [exact Lv|]. rewrite (rv_sl HI). exact Lv. }
    assert (Hget : forall (us : list (frand R * bool)) s, kept ar wa s0 s n (no_reslice us) -> all_fit lg (fm_cm m) (fm_max m + K) n (fw_ct s) (mem (fw_sl s))).
    { intros us1 s1 (HI1 & _ & M1 & _ & _ & P1 & _ & _ & F1). rewrite Em, Ec in F1.
      specialize (F1 lg K Hl Hm0 Hg Hdj Hk0 Hf0). apply fit_of_width; [apply (rv_sl HI1)|apply (rfinv_shaped HI1)|].
      intros v Hv. specialize (F1 v Hv). rewrite M1, Em in F1. auto. }
    split; [apply (Hget us); apply (rbuilt_run Hsh Hr)|].
    destruct (rmin_shape Hsh Hr) as (G1 & G2 & G3 & G4 & G5).
    destruct (rbest Hsh Hr) as [(E1 & E2 & _)|(us1 & us2 & s1 & _ & _ & _ & K1 & E1 & E2 & _)]; [|rewrite E1, E2; apply (Hget us1); auto].
    apply fit_of_width; auto. intros v Hv. unfold rmin_fits in Hmf. rewrite forallb_forall in Hmf.
    rewrite E1, E2 in *. specialize (Hmf _ (nth_In (inds (fw_min_ct s0)) [] Hv)). unfold rfits in Hmf. apply Z.leb_le in Hmf.
    specialize (G5 _ (nth_In (inds (fw_min_ct s0)) [] Hv)). rewrite G2. rewrite Em, Ec in Hmf.
    apply (wgood_width Hg); auto. unfold ix. rewrite bdiff_len; [exact G5|exact (eq_trans G5 (eq_sym G3))].
  Qed.

  Lemma run_rmin_fits us s : maxnew = 0 -> no_reslice us -> all_shuffle us -> rfw_run ar wa us s0 = Ok s -> rfitted wa s /\ rmin_fits wa s.
  Proof.
    intros Hk Hnr Hsh Hr. destruct rbuilt_inv as (HI & _ & Hf0 & Hmf & Ec & _ & Em & En & Es0 & _ & Hdj0 & _).
    pose proof (rbuilt_run Hsh Hr) as (_ & _ & D2 & _ & _ & P & _ & HZ & _). rewrite En in HZ. destruct (HZ Hk Hnr) as (_ & Hf).
    split; auto. unfold rmin_fits in *. rewrite D2, (moves_dims P).
    destruct (rbest Hsh Hr) as [(E1 & E2 & _)|(us1 & us2 & s1 & E0 & _ & _ & K1 & E1 & E2 & _)]; rewrite E1, E2; auto.
    destruct K1 as (_ & _ & M1 & _ & _ & P1 & _ & Z1 & _). rewrite En in Z1.
    assert (Hn1 : no_reslice us1) by (unfold no_reslice in *; rewrite E0 in Hnr; apply Forall_app in Hnr; tauto).
    destruct (Z1 Hk Hn1) as (_ & Hf1). rewrite <- M1, <- (moves_dims P1). apply rfitted_forall. auto.
  Qed.

  Lemma g49_rfit us s : maxnew = 0 -> no_reslice us -> all_shuffle us -> rfw_run ar wa us s0 = Ok s ->
    all_fit_rounded wa m (fw_ct s) (fw_sl s) /\ all_fit_rounded wa m (fw_min_ct s) (fw_min_sl s) /\ fw_sl s = fw_sl s0.
  Proof.
    intros Hk Hnr Hsh Hr. destruct (run_rmin_fits Hk Hnr Hsh Hr) as (Hf & Hmf).
    destruct rbuilt_inv as (_ & _ & _ & _ & Ec & _ & Em & En & _). rewrite <- En in Hk.
    pose proof (rbuilt_run Hsh Hr) as (HI & _ & D2 & _ & _ & P & _ & HZ & _). destruct (HZ Hk Hnr) as (Esl & _).
    destruct (rmin_shape Hsh Hr) as (_ & G2 & _).
    split; [|split; auto].
    - apply rfitted_forall in Hf. rewrite forallb_forall in Hf. intros xs Hx. specialize (Hf xs Hx). unfold rfits in Hf.
      apply Z.leb_le in Hf. rewrite D2, Em in Hf. auto.
    - unfold rmin_fits in Hmf. rewrite forallb_forall in Hmf. intros xs Hx. specialize (Hmf xs Hx). unfold rfits in Hmf.
      apply Z.leb_le in Hmf. rewrite D2, Em, (moves_dims P), Ec in Hmf. rewrite G2. auto.
  Qed.

  (** *** Costs *)
  Lemma rlength : 1 < length (nodes c).
  Proof.
    destruct rbuilt_inv as (HI & _ & _ & _ & Ec & _ & _ & _ & _ & _ & _ & _ & _ & _ & _ & T1 & _). rewrite <- Ec.
    pose proof (rv_core HI) as HC. pose proof (co_wf HC) as W0. pose proof (wl_len W0).
    destruct (Nat.eq_dec (length (nodes (fw_ct s0))) 1) as [E|]; [|lia]. exfalso.
    destruct (rv_pc HI) as (_ & _ & HPl). unfold rtot in T1. rewrite E in T1. simpl in T1.
    destruct (kids2_or_leaf W0 (v := 0) ltac:(lia)) as [Hlf|(a & b & p & Hn)].
    - rewrite HPl in T1 by auto. lia.
    - assert (K : kids2 (nodes (fw_ct s0)) 0 a b) by (exists p; auto).
      destruct (kids2_lt W0 K) as (L1 & L2 & L3).
      destruct (wl_two W0 Hn) as [(E0 & _)|(a' & b' & E0 & E3 & Hne')]; simpl in *; [discriminate|].
      inversion E0; inversion E3; subst. lia.
  Qed.

  Lemma g49_best us s : all_shuffle us -> rfw_run ar wa us s0 = Ok s ->
    (forall us1 us2 s1, us = us1 ++ us2 -> rfw_run ar wa us1 s0 = Ok s1 ->
       (fw_min s <= fw_min s1)%Z /\
       (us1 <> [] -> forall t1, fw_total s1 = Ok t1 -> (fw_min s <= t1)%Z)) /\
    (fw_min_ct s = fw_min_ct s0 /\ fw_min_sl s = fw_min_sl s0 /\ fw_min s = fw_min s0 \/
     exists us1 us2 s1, us = us1 ++ us2 /\ us1 <> [] /\ rfw_run ar wa us1 s0 = Ok s1 /\
       fw_min_ct s = fw_ct s1 /\ fw_min_sl s = fw_sl s1 /\ fw_total s1 = Ok (fw_min s)).
  Proof.
    intros Hsh Hr. destruct rbuilt_inv as (HI & _ & _ & _ & Ec & _). pose proof rlength as HL. split.
    - intros us1 us2 s1 E1 Hr1. subst us. unfold all_shuffle in Hsh. apply Forall_app in Hsh. destruct Hsh as (Hs1 & Hs2).
      destruct (rbuilt_run Hs1 Hr1) as (HI1 & _). rewrite (rfw_run_app _ Hr1) in Hr.
      destruct (rfw_run_min Hs2 HI1 Hr) as (Hle & _). split; auto.
      intros Hne t1 Ht. rewrite (rtotal_ok HI1) in Ht. inversion Ht; subst t1.
      rewrite <- Ec in HL. pose proof (rfw_run_below Hs1 HI HL Hne Hr1). lia.
    - destruct (rbest Hsh Hr) as [G|(us1 & us2 & s1 & F1 & F2 & F3 & (HI1 & _) & G1 & G2 & G3)]; auto.
      right. exists us1, us2, s1. repeat (split; [assumption|]). rewrite (rtotal_ok HI1). congruence.
  Qed.

  Section Close.
    Variables (q kp : nat).
    Hypothesis Hq : 1 <= q.
    Hypothesis Hac : accurate q kp ar.
    Let err := 2 * (n + kp + 1).

    Lemma rsteps_close c2 k : core (nodes c2) (inds c2) n -> length k = n ->
      forall v a b p, nth_error (nodes c2) v = Some (mkNode (Some a) (Some b) p) ->
      approx q err (rfw_ccost ar m (dims c2) k (ix (inds c2) v) (ix (inds c2) a) (ix (inds c2) b))
        (fw_ccost m (dims c2) k (nth v (inds c2) []) (nth a (inds c2) []) (nth b (inds c2) [])) /\
      (0 <= fw_ccost m (dims c2) k (nth v (inds c2) []) (nth a (inds c2) []) (nth b (inds c2) []))%Z.
    Proof.
      intros HC Lk v a b p Hn. assert (K : kids2 (nodes c2) v a b) by (exists p; auto).
      destruct (kids2_lt (co_wf HC) K) as (L1 & L2 & L3).
      change (rfw_ccost ar m (dims c2) k (ix (inds c2) v) (ix (inds c2) a) (ix (inds c2) b)) with
        (fccost_of ar (fm_cm m) (bor (ix (inds c2) v) (ix (inds c2) a)) k (ix (inds c2) b) (dims c2)).
      change (fw_ccost m (dims c2) k (nth v (inds c2) []) (nth a (inds c2) []) (nth b (inds c2) [])) with
        (ccost_of (fm_cm m) (bor (ix (inds c2) v) (ix (inds c2) a)) k (ix (inds c2) b) (dims c2)).
      apply (fccost_approx Hq Hac _ _ (rb_model HB)); auto.
      rewrite bor_len; [exact (co_sz HC L1)|exact (eq_trans (co_sz HC L1) (eq_sym (co_sz HC L2)))].
    Qed.

    Lemma rtotal_close (s : fw_state R) T : rfinv ar wa s n none -> fw_m s = m -> tree_of (nodes (fw_ct s)) T ->
      approx q (err + length (nodes (fw_ct s))) (rtot s) (tree_cost (fm_cm m) (fw_ct s) n (mem (fw_sl s)) T).
    Proof.
      intros HI Em HT. pose proof (rv_core HI) as HC. rewrite <- (fcode_cost_spec HC HT (rb_model HB) (rv_sl HI)). unfold fcode_cost.
      pose proof HT as (HU & _ & Htop & _). pose proof (rv_cc HI) as (LK & HKk & HKl).
      destruct (@pcost_approx ar q kp Hq Hac _ _ _ _ err
        (fun p a b => fw_ccost m (dims (fw_ct s)) (fw_sl s) (nth p (inds (fw_ct s)) []) (nth a (inds (fw_ct s)) []) (nth b (inds (fw_ct s)) []))
        (rv_pc HI) (fun v H => H) T None HU) as (Ha & H0).
      { intros v a b p Hn. rewrite (HKk v a b) by (exists p; auto). rewrite Em. apply (rsteps_close HC (rv_sl HI) Hn). }
      pose proof (P_FloatMain.bt_size_bound (co_wf HC) HU).
      unfold rtot. rewrite <- Htop. apply approx_mono with (k := err + 2 * bt_size T); auto. lia.
    Qed.

    Lemma rget_cost_close c2 k T : core (nodes c2) (inds c2) n -> length k = n -> tree_of (nodes c2) T ->
      exists z, fget_cost ar (rfw_ccost ar m (dims c2) k) c2 = Ok z /\
        approx q (err + length (nodes c2)) z (tree_cost (fm_cm m) c2 n (mem k) T).
    Proof.
      intros HC Lk HT. rewrite <- (fcode_cost_spec HC HT (rb_model HB) Lk). unfold fcode_cost.
      pose proof HT as (HU & _). unfold fget_cost. rewrite (traverse_ok HT). cbn [bind].
      destruct (@fget_cost_fold ar q kp Hq Hac (rfw_ccost ar m (dims c2) k)
         (fun p a b => fw_ccost m (dims c2) k (nth p (inds c2) []) (nth a (inds c2) []) (nth b (inds c2) []))
         err c2 n HC T None 0%Z 0%Z err HU) as (z & E & Ha & H0); auto; try lia.
      { apply (rsteps_close HC Lk). }
      { apply approx_mono with (k := 0); auto; try lia. apply (approx_refl Hq). }
      exists z. split; auto. pose proof (P_FloatMain.bt_size_bound (co_wf HC) HU).
      eapply approx_mono; [exact Hq|exact H0| |exact Ha]. lia.
    Qed.

    Lemma g49_total us s : all_shuffle us -> rfw_run ar wa us s0 = Ok s ->
      exists T t, tree_of (nodes (fw_ct s)) T /\ fw_total s = Ok t /\
        approx q (err + length (nodes c)) t (tree_cost (fm_cm m) (fw_ct s) n (mem (fw_sl s)) T).
    Proof.
      intros Hsh Hr. destruct rbuilt_inv as (HI & _ & _ & _ & Ec & Ed & Em & _). pose proof (rv_core HI) as HC.
      destruct (rbuilt_run Hsh Hr) as (HI' & _ & D2 & _ & _ & P & _). rewrite Em in D2.
      destruct (wfl_tree_of (co_wf (rv_core HI'))) as (T & HT). exists T, (rtot s). split; auto.
      split; [apply (rtotal_ok HI')|]. destruct (moves_keep HC P) as (EL & _). rewrite Ec in EL. rewrite <- EL. apply rtotal_close; auto.
    Qed.

    Lemma g49_min us s : all_shuffle us -> rfw_run ar wa us s0 = Ok s ->
      forall T, tree_of (nodes (fw_min_ct s)) T ->
        approx q (err + length (nodes (fw_min_ct s))) (fw_min s) (tree_cost (fm_cm m) (fw_min_ct s) n (mem (fw_min_sl s)) T).
    Proof.
      intros Hsh Hr T HT. destruct rbuilt_inv as (HI & Hmin & _ & _ & Ec & Ed & Em & _).
      destruct (rmin_shape Hsh Hr) as (G1 & G2 & G3 & G4 & G5). destruct (g49_valid_any Hsh Hr) as (_ & V).
      destruct (rbest Hsh Hr) as [(E1 & E2 & E3)|(us1 & us2 & s1 & _ & _ & _ & (HI1 & _ & M1 & _) & E1 & E2 & E3)].
      - apply wf_iff in G4. destruct (valid_core G4 V) as (HC & _). rewrite G1 in HC.
        destruct (rget_cost_close HC G3 HT) as (z & Ez & Ha). unfold rthe_fmin in Hmin. rewrite Em in Hmin. rewrite E1, E2 in Ez.
        rewrite Hmin in Ez. inversion Ez; subst z. rewrite E3. auto.
      - rewrite E1, E2, E3 in *. apply rtotal_close; auto. rewrite M1. exact Em.
    Qed.

    (** *** Pickling *)
    Lemma rtree_pos c2 k T : moves ds c c2 -> core (nodes c2) (inds c2) n -> length k = n -> tree_of (nodes c2) T ->
      (0 < tree_cost (fm_cm m) c2 n (mem k) T)%Z.
    Proof.
      intros P HC2 Lk HT. destruct rbuilt_inv as (HI & _ & _ & _ & Ec & _). pose proof (rv_core HI) as HC. rewrite Ec in HC.
      rewrite <- (fcode_cost_spec HC2 HT (rb_model HB) Lk). apply (fcode_cost_pos (n := n)); auto; try apply (rb_model HB).
      - rewrite (moves_dims P), <- Ec. apply (rv_dims HI).
      - destruct (moves_keep HC P) as (-> & _). apply rlength.
    Qed.

    Lemma rnonneg c2 k ks ps : core (nodes c2) (inds c2) n -> length k = n ->
      ccost_ok (rfw_ccost ar m (dims c2) k) (nodes c2) (inds c2) ks -> P_FloatRun.fpcost_ok ar (nodes c2) ks ps none ->
      (forall v, v < length ks -> (0 <= zx ks v)%Z) /\ (forall v, v < length ps -> (0 <= zx ps v)%Z).
    Proof.
      intros HC2 Lk HK HP. pose proof HK as (LK & HKk & HKl). pose proof HP as (LP & _).
      set (f := fun p a b => fw_ccost m (dims c2) k (nth p (inds c2) []) (nth a (inds c2) []) (nth b (inds c2) [])).
      assert (Hf : forall v a b p', nth_error (nodes c2) v = Some (mkNode (Some a) (Some b) p') ->
        approx q err (zx ks v) (f v a b) /\ (0 <= f v a b)%Z).
      { intros v a b p' Hn. rewrite (HKk v a b) by (exists p'; auto). apply (rsteps_close HC2 Lk Hn). }
      split.
      - intros v Hv. rewrite LK in Hv. destruct (kids2_or_leaf (co_wf HC2) Hv) as [Hlf|(a & b & p & Hn)]; [rewrite HKl; auto; lia|].
        destruct (Hf _ _ _ _ Hn) as (Ha & H0). eapply approx_nonneg; eauto.
      - intros v Hv. rewrite LP in Hv. destruct (nth_error (nodes c2) v) as [nd|] eqn:En; [|apply nth_error_None in En; lia].
        destruct (build_bt (co_wf HC2) En) as (T & HU & <-).
        destruct (pcost_approx Hq Hac HP (fun v H => H) HU Hf) as (A1 & A0). eapply approx_nonneg; eauto.
    Qed.

    Lemma g49_pickle rep us s f : wmonotone rep wa -> (forall z, (0 <= z)%Z -> rclose ar z z = true) -> (forall z, wclose wa z z = true) ->
      (exists out, exact_inds c out) \/ ds = true -> maxnew = 0 -> no_reslice us ->
      all_shuffle us -> rfw_run ar wa us s0 = Ok s ->
      exists s', rfw_unpickle ar wa f (fw_pickle s) = Ok s' /\ fw_pickle s' = fw_pickle s.
    Proof.
      intros Hmono Hrc Hwc HX Hk Hnr Hsh Hr. destruct (run_rmin_fits Hk Hnr Hsh Hr) as (Hf & Hmf).
      destruct rbuilt_inv as (HI & Hmin & _ & _ & Ec & Ed & Em & En & Es & Emc & _ & _ & _ & _ & _ & _ & T2 & _).
      pose proof (rbuilt_run Hsh Hr) as (HI' & D1 & D2 & D3 & D4 & P & Hdj & _).
      destruct (g49_valid HX Hsh Hr) as (V1 & V2).
      pose proof (rv_core HI) as HC. rewrite Ec in HC. pose proof (rv_core HI') as HC'.
      rewrite Ec, Ed in P. rewrite Em in D2. rewrite Ed in D1.
      assert (Hss : fw_skip_set s = skip).
      { unfold fw_skip_set. rewrite D4, Es. unfold oskip. destruct (bany skip) eqn:Hb; auto. symmetry. apply bempty_none; auto.
        rewrite (core_n_inds HC'). destruct (rb_given HB) as (Lsk & _). exact Lsk. }
      destruct (rmin_shape Hsh Hr) as (G1 & G2 & G3 & G4 & G5).
      assert (Hz : exists z, fget_cost ar (rfw_ccost ar m (dims (fw_min_ct s)) (fw_min_sl s)) (fw_min_ct s) = Ok z /\ (0 < z)%Z).
      { destruct (rbest Hsh Hr) as [(E1 & E2 & E3)|(us1 & us2 & s1 & _ & _ & _ & (HI1 & _ & M1 & _ & _ & P1 & _) & E1 & E2 & E3)]; rewrite E1, E2.
        - exists (fw_min s0). split; auto. rewrite <- Em. exact Hmin.
        - rewrite Ec, Ed in P1. pose proof (rv_core HI1) as HC1. destruct (wfl_tree_of (co_wf HC1)) as (T & HT).
          destruct (rget_cost_close HC1 (rv_sl HI1) HT) as (z & Ez & Ha). exists z. split; auto.
          eapply approx_pos; [exact Hq| |exact Ha]. apply rtree_pos; auto. apply (rv_sl HI1). }
      destruct Hz as (z & Ez & Pz).
      unfold fw_pickle at 1. unfold rfw_unpickle, rpy_fw_make. rewrite Hss, D2.
      replace (existsb _ _) with false.
      2:{ symmetry. apply not_true_is_false. intros He. apply existsb_exists in He. destruct He as (xs & Hin & Hlt).
          apply Z.ltb_lt in Hlt. apply (In_nth _ _ []) in Hin. destruct Hin as (v & Hv & <-).
          specialize (Hf v Hv). rewrite D2 in Hf.
          pose proof (proj2 (rfinv_shaped HI') _ (nth_In (inds (fw_ct s)) [] Hv)) as Lv.
          destruct (rb_given HB) as (Lsk & _). fold n in Lsk.
          assert (Hle : (rwidth_of wa m (band (nth v (inds (fw_ct s)) []) skip) (dims (fw_ct s)) <=
                         rwidth_of wa m (bdiff (ix (inds (fw_ct s)) v) (fw_sl s)) (dims (fw_ct s)))%Z).
          { pose proof (rv_sl HI') as Lsl. apply (rwidth_mono Hmono (rv_dims HI') (n := n) (rb_model HB)).
            - rewrite band_len; [exact Lv|exact (eq_trans Lv (eq_sym Lsk))].
            - unfold ix. rewrite bdiff_len; [exact Lv|exact (eq_trans Lv (eq_sym Lsl))].
            - intros i. unfold ix. rewrite band_test by exact (eq_trans Lv (eq_sym Lsk)). rewrite bdiff_test by exact (eq_trans Lv (eq_sym Lsl)).
              rewrite !andb_true_iff, negb_true_iff. intros (H1 & H2). split; auto.
              destruct (btest (fw_sl s) i) eqn:Hb; auto. exfalso.
              destruct rbuilt_inv as (_ & _ & _ & _ & _ & _ & _ & _ & _ & _ & Hdj0 & _).
              specialize (Hdj Hdj0 i Hb). rewrite D4, Es, omem_oskip in Hdj. unfold mem in Hdj. unfold btest in H2. congruence. }
          apply (Z.lt_irrefl (fm_max m)). eapply Z.lt_le_trans; [exact Hlt|]. eapply Z.le_trans; [exact Hle|exact Hf]. }
      fold (oskip skip). unfold rfw_make.
      assert (Hb : base_is_valid (fw_ct s) (fw_min_ct s) (fw_ds s) = true) by (unfold base_is_valid; rewrite D1, V1, V2; auto).
      rewrite Hb. cbn [negb bind].
      destruct (ccost_exists (rfw_ucost ar m (dims (fw_ct s)) (fw_sl s)) HC') as (ks & HK).
      destruct (opcost_exists ar ks (co_wf HC')) as (ps & HP). destruct (hyper_exists HC') as (hs & HH).
      pose proof (fcost_cache_ok HC' HK HP) as Ek. rewrite Ek. cbn [bind].
      pose proof (hyper_fold HC' HH (core_n_inds HC')) as Eh. rewrite Eh. cbn [bind]. rewrite Ez. cbn [bind].
      set (s' := mkFW (fw_ct s) (fw_ds s) (fw_rng s) (fw_min_ct s) m 0 (rwidth_cache_make wa m (fw_ct s)) (oskip skip) (fw_sl s) (fw_min_sl s)
        (mkCC ps ks) hs z).
      assert (HIs : rfinv ar wa s' n none).
      { constructor; simpl; auto; try apply opcost_fp; auto; try apply HI'.
        - destruct (rb_given HB) as (Lsk & _). unfold oskip. destruct (bany skip); simpl; auto.
        - apply (rb_model HB). }
      rewrite (rtotal_ok HIs). cbn [bind].
      destruct (wfl_tree_of (co_wf HC')) as (T & HT).
      assert (Hp : (0 < rtot s')%Z).
      { pose proof (rtotal_close (s := s') HIs eq_refl HT) as Hc. eapply approx_pos; [exact Hq| |exact Hc].
        apply rtree_pos; auto. apply (rv_sl HI'). }
      destruct (Z.leb_spec (rtot s') 0); [lia|]. destruct (Z.leb_spec z 0); [lia|]. simpl orb. cbn iota.
      assert (Ev : rfw_is_valid ar wa s' = true).
      { unfold rfw_is_valid, s'. simpl fw_ct. simpl fw_min_ct. simpl fw_ds. simpl fw_m. simpl fw_cc. simpl fw_hyper. simpl fw_min.
        simpl fw_sl. simpl fw_min_sl. simpl fw_width.
        rewrite Hb, Ek, Ez, Eh, Hrc by lia. apply rfitted_forall in Hf. rewrite D2 in Hf. rewrite Hf. unfold rmin_fits in Hmf. rewrite D2 in Hmf. rewrite Hmf.
        destruct (rnonneg HC' (rv_sl HI') HK (opcost_fp none HP)) as (N1 & N2). simpl pcost. simpl ccost.
        rewrite !(P_FloatMain.list_eqb_nonneg Hrc), (list_eqb_refl _ beqb_refl), (list_eqb_refl _ Hwc) by auto. auto. }
      rewrite Ev. exists s'. split; auto. unfold fw_pickle, fw_skip_set, s'. simpl. rewrite D2, D4, Es. auto.
    Qed.

    Lemma g49_is_valid us s : tolerates q (err + length (nodes c)) ar -> (forall z, wclose wa z z = true) ->
      (exists out, exact_inds c out) \/ ds = true -> maxnew = 0 -> no_reslice us ->
      all_shuffle us -> rfw_run ar wa us s0 = Ok s -> rfw_is_valid ar wa s = true.
    Proof.
      intros Htol Hwc HX Hk Hnr Hsh Hr. destruct (run_rmin_fits Hk Hnr Hsh Hr) as (Hf & Hmf).
      assert (Hrc : forall z, (0 <= z)%Z -> rclose ar z z = true).
      { intros z Hz. apply (Htol z z z Hz); (eapply approx_mono; [exact Hq|exact Hz| |apply (approx_refl Hq)]); lia. }
      destruct rbuilt_inv as (HI & Hmin & _ & _ & Ec & Ed & Em & En & Es & Emc & _ & _ & _ & _ & _ & _ & T2 & _).
      pose proof (rbuilt_run Hsh Hr) as (HI' & D1 & D2 & D3 & D4 & P & Hdj & _).
      destruct (g49_valid HX Hsh Hr) as (V1 & V2).
      pose proof (rv_core HI) as HC. rewrite Ec in HC. pose proof (rv_core HI') as HC'.
      rewrite Ec, Ed in P. rewrite Em in D2. rewrite Ed in D1. pose proof (moves_keep HC P) as (EL & _).
      unfold rfw_is_valid. rewrite D1, D2.
      assert (Hb : base_is_valid (fw_ct s) (fw_min_ct s) ds = true) by (unfold base_is_valid; rewrite V1, V2; auto).
      rewrite Hb.
      assert (Hz : exists z, fget_cost ar (rfw_ccost ar m (dims (fw_min_ct s)) (fw_min_sl s)) (fw_min_ct s) = Ok z /\ rclose ar z (fw_min s) = true).
      { destruct (rbest Hsh Hr) as [(E1 & E2 & E3)|(us1 & us2 & s1 & _ & _ & _ & (HI1 & _ & M1 & _ & _ & P1 & _) & E1 & E2 & E3)]; rewrite E1, E2, E3.
        - exists (fw_min s0). split; [rewrite <- Em; exact Hmin|]. apply Hrc. lia.
        - rewrite Ec, Ed in P1. pose proof (rv_core HI1) as HC1. destruct (wfl_tree_of (co_wf HC1)) as (T & HT).
          destruct (rget_cost_close HC1 (rv_sl HI1) HT) as (z & Ez & Ha). exists z. split; auto.
          destruct (moves_keep HC P1) as (EL1 & _). rewrite EL1 in Ha.
          pose proof (rtotal_close HI1 (eq_trans M1 Em) HT) as Hb1. rewrite EL1 in Hb1.
          apply (Htol _ _ (tree_cost (fm_cm m) (fw_ct s1) n (mem (fw_sl s1)) T)); auto.
          apply Z.lt_le_incl. apply rtree_pos; auto. apply (rv_sl HI1). }
      destruct Hz as (z & -> & ->).
      apply rfitted_forall in Hf. rewrite D2 in Hf. rewrite Hf. unfold rmin_fits in Hmf. rewrite D2 in Hmf. rewrite Hmf.
      pose proof (rv_cc HI') as HK. rewrite D2 in HK. set (ks := ccost (fw_cc s)) in *.
      destruct (opcost_exists ar ks (co_wf HC')) as (ps & HP).
      rewrite (fcost_cache_ok HC' HK HP). rewrite (hyper_fold HC' (rv_hyper HI') (core_n_inds HC')).
      rewrite (list_eqb_refl _ beqb_refl). simpl pcost. simpl ccost.
      destruct (rnonneg HC' (rv_sl HI') HK (opcost_fp none HP)) as (N1 & _). rewrite (@P_FloatMain.list_eqb_nonneg _ ks Hrc N1).
      assert (El : list_eqb (rclose ar) (pcost (fw_cc s)) ps = true).
      { pose proof (rv_pc HI') as HPs. fold ks in HPs. pose proof (opcost_fp none HP) as HPo.
        pose proof HPs as (L1 & _). pose proof HPo as (L2 & _).
        apply P_FloatMain.list_eqb_zx; [congruence|]. rewrite L1. intros v Hv.
        destruct (nth_error (nodes (fw_ct s)) v) as [nd|] eqn:Env; [|apply nth_error_None in Env; lia].
        destruct (build_bt (co_wf HC') Env) as (T & HU & <-).
        set (f := fun p a b => fw_ccost m (dims (fw_ct s)) (fw_sl s) (nth p (inds (fw_ct s)) []) (nth a (inds (fw_ct s)) []) (nth b (inds (fw_ct s)) [])).
        assert (Hff : forall v a b p', nth_error (nodes (fw_ct s)) v = Some (mkNode (Some a) (Some b) p') ->
          approx q err (zx ks v) (f v a b) /\ (0 <= f v a b)%Z).
        { intros x a b p' Hn. destruct HK as (_ & HKk & _). rewrite (HKk x a b) by (exists p'; auto). apply (rsteps_close HC' (rv_sl HI') Hn). }
        pose proof (P_FloatMain.bt_size_bound (co_wf HC') HU).
        destruct (pcost_approx Hq Hac HPs (fun v H => H) HU Hff) as (A1 & A0).
        destruct (pcost_approx Hq Hac HPo (fun v H => H) HU Hff) as (A2 & _).
        apply (Htol _ _ (bt_cost f T)); auto; (eapply approx_mono; [exact Hq|exact A0| |eassumption]); rewrite <- EL; lia. }
      rewrite El. simpl. pose proof (rv_width HI') as Ew. rewrite D2 in Ew. rewrite Ew. apply (list_eqb_refl _ Hwc).
    Qed.
  End Close.
End Built.
