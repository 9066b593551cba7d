(** Sweeps of the finite-width optimizer: scripted dice drive it along every sweep. *)
From Coq Require Import Permutation QArith Reals Qreals.
From Verif Require Import M_Base M_Bitset M_Tree M_CTree M_Cost M_Opt M_InfMem M_FinWidth M_Prob S_Tree S_Opt S_FinWidth S_Reach
  S_ReachFin P_Base P_Bitset P_Tree P_Shape P_TreeProps P_Opt P_OptCost P_InfMem P_Canon P_Cost P_InfMemMain P_InfMemFinal
  P_FinWidth P_FinWidthOpt P_FinWidthMain P_FinWidthFinal P_Reach P_ReachSim P_ReachFinal.
Set Implicit Arguments.
Unset Strict Implicit.
Local Open Scope nat_scope.

(** ** New slices: zeros are good enough dice *)
Section Add.
  Variables (lg : BinNums.N -> Z) (prob : Z -> Z -> R) (m : fmodel) (d : dims_t) (n : nat) (skip : option bitset) (nb : bitset).
  Hypotheses (Hm : cmodel_ok (fm_cm m) n) (Hl : log_like lg) (Hd : dims_positive d) (Lnb : length nb = n).
  Hypothesis Hskip : (set_width lg (fm_cm m) d n (omem skip) <= fm_max m)%Z.

  Lemma all_sliced sl w : length sl = n -> (w <= wide lg m d nb sl)%Z ->
    (forall x, ~ (btest nb x = true /\ btest sl x = false /\ omem skip x = false)) -> (w <= fm_max m)%Z.
  Proof.
    intros Ls Hw H. eapply Z.le_trans; [exact Hw|]. eapply Z.le_trans; [|exact Hskip]. unfold wide.
    rewrite (@width_spec lg m _ d n) by (auto; rewrite bdiff_len; congruence).
    apply set_width_mono; auto. intros i Hi Hb. unfold mem in Hb. fold (btest (bdiff nb sl) i) in Hb.
    rewrite bdiff_test in Hb by congruence. apply andb_true_iff in Hb. destruct Hb as (Hb1 & Hb2).
    destruct (omem skip i) eqn:Hk; auto. exfalso. apply (H i). apply negb_true_iff in Hb2. auto.
  Qed.

  Lemma add_script : forall k pos np sl w, np <= k -> np <= length pos -> NoDup (firstn np pos) -> length sl = n ->
    (forall x, In x (firstn np pos) <-> btest nb x = true /\ btest sl x = false /\ omem skip x = false) ->
    (w <= wide lg m d nb sl)%Z ->
    exists pre sl' w', (w' <= fm_max m)%Z /\
      forall ir ur, add_slices lg (dice_rand prob) d (fm_max m) k pos np sl w (pre ++ ir, ur) = Ok (sl', w', (ir, ur)).
  Proof.
    induction k as [|k IH]; intros pos np sl w Hk Hnp Hnd Ls Hlive Hw; cbn [add_slices].
    - exists [], sl, w. split; [|reflexivity]. apply (all_sliced Ls Hw). intros x Hx. apply Hlive in Hx.
      replace np with 0 in Hx by lia. exact Hx.
    - destruct (Z.ltb_spec (fm_max m) w) as [Hgt|Hle].
      2:{ exists [], sl, w. split; auto. }
      destruct (Nat.eqb_spec np 0) as [E0|E0].
      { exfalso. subst np. enough (w <= fm_max m)%Z by lia. apply (all_sliced Ls Hw). intros x Hx. apply Hlive in Hx. exact Hx. }
      assert (Hi : 0 < np) by lia.
      destruct (@get_lt _ pos 0 ltac:(lia)) as (a & Ea & Na). destruct (@get_lt _ pos (np - 1) ltac:(lia)) as (b & Eb & Nb).
      pose proof (swap_live (np := np) (i := 0) ltac:(lia) Hi Na Nb) as HP.
      set (pos2 := upd (upd pos 0 b) (np - 1) a) in *.
      assert (Hnd2 : NoDup (a :: firstn (np - 1) pos2)).
      { eapply Permutation_NoDup; [apply Permutation_sym; exact HP|auto]. }
      assert (Ha : btest nb a = true /\ btest sl a = false /\ omem skip a = false).
      { apply Hlive. apply (Permutation_in a HP). simpl. auto. }
      destruct Ha as (Ha1 & Ha2 & Ha3). assert (Han : a < n) by (rewrite <- Lnb; apply btest_lt; auto).
      destruct (wide_set Hm Hl Hd Lnb Ls Han Ha1 Ha2) as (Hle1 & _).
      assert (Lb : length (bset sl a) = n) by (unfold bset; rewrite upd_length; auto).
      inversion Hnd2 as [|? ? Hni Hnd3]; subst x l.
      destruct (IH pos2 (np - 1) (bset sl a) (w - lg_at lg d a)%Z) as (pre & sl' & w' & Hw' & Hrun); auto.
      + lia.
      + unfold pos2. rewrite !upd_length. lia.
      + intros y. rewrite bset_test by lia. rewrite orb_false_iff. split.
        * intros Hy. assert (In y (firstn np pos)) as Hy' by (apply (Permutation_in y HP); simpl; auto).
          apply Hlive in Hy'. destruct Hy' as (G1 & G2 & G3). repeat split; auto.
          apply Nat.eqb_neq. intros ->. contradiction.
        * intros (G1 & (G2 & G3) & G4). assert (In y (firstn np pos)) as Hy' by (apply Hlive; auto).
          apply (Permutation_in y (Permutation_sym HP)) in Hy'. destruct Hy' as [->|Hy']; auto.
          rewrite Nat.eqb_refl in G2. discriminate.
      + lia.
      + exists (0 :: pre), sl', w'. split; auto. intros ir ur.
        cbn [draw dice_rand r_rand next_int fst snd app]. rewrite Nat.mod_0_l by lia.
        rewrite Ea. cbn [bind]. rewrite Eb. cbn [bind].
        rewrite set_ok by lia. cbn [bind]. rewrite set_ok by (rewrite upd_length; lia). cbn [bind]. apply Hrun.
  Qed.
End Add.

(** ** One iteration, scripted *)
Section Run.
Variables (lg : BinNums.N -> Z) (c0 : ctree) (n : nat) (out : nat -> Prop) (ds : bool).
Hypothesis Hlog : log_like lg.
Hypothesis HC0 : core (nodes c0) (inds c0) n.
Hypothesis HX0 : exact_inds c0 out.
Let ad := adj c0 ds.

Definition fgood (s : fw_state dice) (w : nat -> Prop) : Prop :=
  finv lg s n w /\ fw_ds s = ds /\ moves ds c0 (fw_ct s) /\ n <= fw_maxnew s /\
  (set_width lg (fm_cm (fw_m s)) (dims (fw_ct s)) n (omem (fw_skip s)) <= fm_max (fw_m s))%Z /\ disj s.

Lemma fgood_exact s w : fgood s w -> exact_inds (fw_ct s) out.
Proof. intros (_ & _ & H & _). eapply moves_exact; eauto. Qed.

Lemma finv_env (s : fw_state dice) w r : finv lg (fset_rng s r) n w -> finv lg s n w.
Proof. intros []. constructor; auto. Qed.

Variable sh1 : list nat -> list nat.
Hypothesis Hsh1 : forall l, Permutation (sh1 l) l.

Lemma fiter_step prob sA A C k sb B x y s total :
  (forall d t, (0 < prob d t)%R) ->
  fgood s (fun v => parent (nodes (fw_ct s)) B v) -> total = ftot s ->
  tree_of (nodes (fw_ct s)) (plug ((sA, A, C) :: k) (slot sb B x y)) ->
  sh ad (er x) (er C) = true ->
  exists pre eps (s1 : fw_state dice) total1, (0 < eps)%R /\
    (forall ir u ur, (Q2R u <= eps)%R ->
       fw_iter lg (fdice_rand prob sh1) (fset_rng s (pre ++ ir, u :: ur)) total B =
         Ok (fset_rng s1 (ir, ur), Some (total1, A))) /\
    fgood s1 (fun v => parent (nodes (fw_ct s1)) A v) /\ total1 = ftot s1 /\ same_fenv s s1 /\
    tree_of (nodes (fw_ct s1)) (plug k (slot sA A (slot sb B x C) y)).
Proof.
  intros Hp HG Ht HT Hs. pose proof (fgood_exact HG) as HX. destruct HG as (HI & Eds & Hmv & Hmax & Hsk & Hdj).
  pose proof HI as [HC HH HK HP HW Lsl Lsk Hcm Hd].
  pose proof (co_len HC) as LX. pose proof HH as (LH & _). pose proof HK as (LK & _). pose proof HP as (LP & _).
  assert (LW : length (fw_width s) = length (nodes (fw_ct s))) by (rewrite HW; unfold width_cache_make; rewrite map_length; auto).
  assert (Hs' : sh (adj (fw_ct s) ds) (er x) (er C) = true).
  { rewrite <- Hs. apply sh_ext. intros p q Hi Hj. rewrite er_lv in Hi, Hj. eapply (moves_adj HC0 HX0); eauto; cbn [plug].
    - eapply leaves_sub; [|exact Hi]. eapply subtree_trans; [|apply plug_subtree].
      eapply subtree_trans; [|apply slot_sub1]. apply slot_sub1.
    - eapply leaves_sub; [|exact Hj]. eapply subtree_trans; [|apply plug_subtree]. apply slot_sub2. }
  destruct (@nn_script _ _ _ _ prob _ _ _ _ _ _ _ _ HC HX HT Hs') as (pre & Hnn).
  assert (Hex : exchange (top y) (plug ((sA, A, C) :: k) (slot sb B x y)) (plug k (slot sA A (slot sb B x C) y))).
  { cbn [plug]. apply plug_exchange. pose proof (exchange_slot sA (negb sb) A B x y C) as H.
    rewrite !slot_negb in H. exact H. }
  destruct (swap_to HT Hex) as (t' & Hsw & HT').
  set (T := plug ((sA, A, C) :: k) (slot sb B x y)) in *.
  assert (S0 : subtree (slot sA A (slot sb B x y) C) T) by (unfold T; cbn [plug]; apply plug_subtree).
  assert (S1 : subtree (slot sb B x y) T) by (eapply subtree_trans; [apply slot_sub1|exact S0]).
  assert (LA : A < length (nodes (fw_ct s))) by (pose proof (sub_lt HT S0) as H; rewrite slot_top in H; auto).
  assert (LB : B < length (nodes (fw_ct s))) by (pose proof (sub_lt HT S1) as H; rewrite slot_top in H; auto).
  assert (LC : top C < length (nodes (fw_ct s))) by (apply (sub_lt HT); eapply subtree_trans; [apply slot_sub2|exact S0]).
  assert (Lx : top x < length (nodes (fw_ct s))) by (apply (sub_lt HT); eapply subtree_trans; [apply slot_sub1|exact S1]).
  assert (Ly : top y < length (nodes (fw_ct s))) by (apply (sub_lt HT); eapply subtree_trans; [apply slot_sub2|exact S1]).
  cut (exists pre2 dl (s1 : fw_state dice) total1, nodes (fw_ct s1) = t' /\
     forall ir u ur, (Q2R u <= prob dl total)%R ->
       fw_iter lg (fdice_rand prob sh1) (fset_rng s (pre2 ++ ir, u :: ur)) total B =
         Ok (fset_rng s1 (ir, ur), Some (total1, A))).
  { intros (pre2 & dl & s1 & total1 & En & Hrun). exists pre2, (prob dl total), s1, total1. split; auto. split; auto.
    assert (Hz : (Q2R 0 <= prob dl total)%R).
    { unfold Q2R. simpl. rewrite Rmult_0_l. apply Rlt_le. auto. }
    pose proof (Hrun [] 0%Q [] Hz) as E1.
    destruct (@fw_iter_spec _ lg (fdice_rand prob sh1) (fset_rng s (pre2 ++ [], 0%Q :: [])) n total B Hlog) as
      [(r & E & _)|[(E & _)|(s' & tot' & A' & E & PB & PB' & HI' & (F1 & F2 & F3 & F4 & F5 & F6 & F7) & Ht' & Hcl & Hdj' & _ & Hm)]]; auto.
    - apply finv_rng; auto.
    - rewrite E1 in E. discriminate.
    - rewrite E1 in E. discriminate.
    - rewrite E1 in E. injection E as G1 G2 G3. rewrite <- G2 in Ht', Hm. clear G2. subst s' A'.
      simpl in F1, F2, F3, F4, F5, F6, F7, Hm.
      assert (Hmv1 : moves ds c0 (fw_ct s1)).
      { destruct Hm as [(Ec & _)|(Hm & _)].
        - assert (Ec' : fw_ct s1 = fw_ct s) by exact Ec. rewrite Ec'. exact Hmv.
        - eapply moves_trans; [exact Hmv|]. rewrite <- Eds. econstructor; [exact Hm|constructor]. }
      assert (Ed : dims (fw_ct s1) = dims (fw_ct s)) by (rewrite (moves_dims Hmv1), (moves_dims Hmv); auto).
      split; [|split; [exact Ht'|split]].
      + split; [apply (finv_env HI')|]. split; [congruence|]. split; [exact Hmv1|].
        split; [congruence|]. split; [congruence|]. exact (Hdj' Hdj).
      + repeat split; auto.
      + rewrite En. exact HT'. }
  (* the computation *)
  set (XA := nth A (inds (fw_ct s)) []). set (XB := nth B (inds (fw_ct s)) []). set (XC := nth (top C) (inds (fw_ct s)) []).
  set (XD := nth (top x) (inds (fw_ct s)) []). set (XE := nth (top y) (inds (fw_ct s)) []).
  set (nb := bor (bor (bxor XD XC) (nth A (fw_hyper s) [])) (nth B (fw_hyper s) [])).
  set (snb := bdiff nb (fw_sl s)). set (sw := width_of lg (fw_m s) snb (dims (fw_ct s))).
  destruct (Z.leb_spec sw (fm_max (fw_m s))) as [Hle|Hgt].
  - set (kA := fcost_of (fw_m s) XA nb XE (dims (fw_ct s)) (fw_sl s)).
    set (kB := fcost_of (fw_m s) nb XD XC (dims (fw_ct s)) (fw_sl s)).
    set (dl := (kB - nth B (ccost (fw_cc s)) 0 + (kA - nth A (ccost (fw_cc s)) 0))%Z).
    set (ks' := upd (upd (ccost (fw_cc s)) B kB) A kA).
    assert (Lk' : length ks' = length (nodes (fw_ct s))) by (unfold ks'; rewrite !upd_length; auto).
    exists pre, dl. do 2 eexists. split; cycle 1.
    + intros ir u ur Hu. unfold fw_iter. cbn [fset_rng fw_set fw_ct fw_ds fw_rng fw_hyper fw_cc fw_m fw_width fw_sl fw_maxnew fw_skip].
      unfold fdice_rand at 1. cbn [fr_base]. rewrite Eds, Hnn. cbv beta iota zeta. unfold bind at 1.
      rewrite (@get_nth _ (inds (fw_ct s)) A []), (@get_nth _ (inds (fw_ct s)) B []), (@get_nth _ (inds (fw_ct s)) (top C) []),
        (@get_nth _ (inds (fw_ct s)) (top x) []), (@get_nth _ (inds (fw_ct s)) (top y) []) by lia.
      rewrite (@get_nth _ (fw_hyper s) A []), (@get_nth _ (fw_hyper s) B []) by lia.
      rewrite (@get_nth _ (fw_width s) B 0%Z) by lia.
      rewrite (@get_nth _ (ccost (fw_cc s)) A 0%Z), (@get_nth _ (ccost (fw_cc s)) B 0%Z) by lia. cbn [bind].
      fold XA XB XC XD XE. fold nb. fold snb. fold sw. rewrite (proj2 (Z.leb_le _ _) Hle). fold kA kB. fold dl.
      assert (Hacc : accept (dice_rand prob) (ir, u :: ur) dl total = (true, (ir, ur))).
      { simpl. destruct (Rle_dec (Q2R u) (prob dl total)); [reflexivity|contradiction]. }
      unfold fdice_rand at 1. cbn [fr_base]. rewrite Hacc, Hsw. cbn [bind].
      repeat (rewrite !set_ok by (rewrite ?upd_length; lia); cbn [bind]). fold ks'.
      rewrite (@propagate_ok (nodes (fw_ct s)) (pcost (fw_cc s)) ks' A B (top y) (top x) (top C)) by auto. cbn [bind].
      match goal with |- Ok (fw_set _ ?c _ ?w ?sl ?k ?h, _) = _ =>
        instantiate (1 := (total + dl)%Z); instantiate (1 := fw_set s c ([], []) w sl k h) end.
      reflexivity.
    + reflexivity.
  - (* new slices *)
    assert (Lnb : length nb = n).
    { pose proof (fun v H => co_sz HC (v := v) H) as Sz. pose proof (proj2 HH) as Hh.
      destruct HH as (_ & HHk & HHl).
      assert (KA : exists a b, kids2 (nodes (fw_ct s)) A a b).
      { pose proof HT as (HU & _). destruct (subtree_unfolds S0 HU) as (pA & U0). apply slot_unfolds in U0.
        destruct U0 as (NA & _). destruct sA; eexists _, _; exists pA; left; exact NA. }
      assert (KB : exists a b, kids2 (nodes (fw_ct s)) B a b).
      { pose proof HT as (HU & _). destruct (subtree_unfolds S1 HU) as (pA & U0). apply slot_unfolds in U0.
        destruct U0 as (NA & _). destruct sb; eexists _, _; exists pA; left; exact NA. }
      destruct KA as (a1 & a2 & KA). destruct KB as (b1 & b2 & KB).
      destruct (kids2_lt (co_wf HC) KA) as (_ & La1 & La2). destruct (kids2_lt (co_wf HC) KB) as (_ & Lb1 & Lb2).
      assert (E1 : length (nth A (fw_hyper s) []) = n).
      { change (nth A (fw_hyper s) []) with (ix (fw_hyper s) A). rewrite (HHk _ _ _ KA), !band_len; rewrite ?band_len; rewrite ?Sz; auto. }
      assert (E2 : length (nth B (fw_hyper s) []) = n).
      { change (nth B (fw_hyper s) []) with (ix (fw_hyper s) B). rewrite (HHk _ _ _ KB), !band_len; rewrite ?band_len; rewrite ?Sz; auto. }
      pose proof (Sz (top x) Lx) as E3. pose proof (Sz (top C) LC) as E4.
      assert (E5 : length (bxor XD XC) = n) by (rewrite bxor_len; unfold XD, XC, ix in *; congruence).
      unfold nb. rewrite !bor_len; rewrite ?bor_len; congruence. }
    set (pos := bpositions (minus_skip snb (fw_skip s))).
    assert (Lsnb : length snb = n) by (unfold snb; rewrite bdiff_len; congruence).
    assert (Hlive : forall z, In z pos <-> btest nb z = true /\ btest (fw_sl s) z = false /\ omem (fw_skip s) z = false).
    { intros z. unfold pos. rewrite bpositions_in. rewrite (minus_skip_test (n := n) Lsk z Lsnb).
      unfold snb. rewrite bdiff_test by congruence. rewrite !andb_true_iff, !negb_true_iff. tauto. }
    assert (Lpos : length pos <= n).
    { rewrite <- (seq_length n 0). apply NoDup_incl_length; [apply bpositions_nodup|].
      intros z Hz. apply Hlive in Hz. apply in_seq. destruct Hz as (Hz & _). apply btest_lt in Hz. lia. }
    destruct (@add_script lg prob (fw_m s) (dims (fw_ct s)) n (fw_skip s) nb Hcm Hlog Hd Lnb Hsk (fw_maxnew s) pos (length pos) (fw_sl s) sw)
      as (pre2 & sl' & w' & Hw' & Hadd); auto.
    { lia. }
    { rewrite firstn_all. apply bpositions_nodup. }
    { intros z. rewrite firstn_all. apply Hlive. }
    { unfold wide. fold snb sw. lia. }
    assert (HC' : core t' (upd (inds (fw_ct s)) B nb) n).
    { destruct (nn_spec (dice_rand prob) ds (pre ++ [], []) HC LB)
        as [(r' & E0 & Hb)|(r' & zA & zE & A' & C' & D' & E' & pA & nC & nD & nE & E0 & H & Hs2)];
        rewrite Hnn in E0; inversion E0; subst A' C' D' E'.
      pose proof (rot_core' H HC) as HC'. pose proof (swap_nbh H) as Esw. rewrite Hsw in Esw. inversion Esw as [Et].
      destruct HH as (_ & HHk & HHl).
      replace nb with (newB (ix (inds (fw_ct s)) A) (ix (inds (fw_ct s)) B) (ix (inds (fw_ct s)) (top C))
                         (ix (inds (fw_ct s)) (top x)) (ix (inds (fw_ct s)) (top y))); [exact HC'|].
      unfold nb. change (nth A (fw_hyper s) []) with (ix (fw_hyper s) A). change (nth B (fw_hyper s) []) with (ix (fw_hyper s) B).
      rewrite (HHk _ _ _ (nbh_kids2A H)), (HHk _ _ _ (nbh_kids2B H)). reflexivity. }
    set (c' := mkCT t' (upd (inds (fw_ct s)) B nb) (dims (fw_ct s))).
    destruct (@cache_ex (fw_m s) (dims (fw_ct s)) sl' c' n HC') as (k0 & Ek & HK2 & HP2).
    pose proof (@back_total _ _ _ _ _ _ HC' HK2 HP2) as Eb.
    exists (pre ++ pre2), (sumZ (ccost k0) - total)%Z. do 2 eexists. split; cycle 1.
    + intros ir u ur Hu. unfold fw_iter. cbn [fset_rng fw_set fw_ct fw_ds fw_rng fw_hyper fw_cc fw_m fw_width fw_sl fw_maxnew fw_skip].
      unfold fdice_rand at 1. cbn [fr_base]. rewrite Eds, <- app_assoc, Hnn. cbv beta iota zeta. unfold bind at 1.
      rewrite (@get_nth _ (inds (fw_ct s)) A []), (@get_nth _ (inds (fw_ct s)) B []), (@get_nth _ (inds (fw_ct s)) (top C) []),
        (@get_nth _ (inds (fw_ct s)) (top x) []), (@get_nth _ (inds (fw_ct s)) (top y) []) by lia.
      rewrite (@get_nth _ (fw_hyper s) A []), (@get_nth _ (fw_hyper s) B []) by lia.
      rewrite (@get_nth _ (fw_width s) B 0%Z) by lia.
      rewrite (@get_nth _ (ccost (fw_cc s)) A 0%Z), (@get_nth _ (ccost (fw_cc s)) B 0%Z) by lia. cbn [bind].
      fold XA XB XC XD XE. fold nb. fold snb. fold sw. rewrite (proj2 (Z.leb_gt _ _) Hgt).
      assert (H0 : (0 <? fw_maxnew s) = true).
      { apply Nat.ltb_lt. destruct (fw_maxnew s) eqn:E0; [|lia]. exfalso.
        assert (n = 0) by lia. enough (sw <= fm_max (fw_m s))%Z by lia.
        apply (@all_sliced lg (fw_m s) (dims (fw_ct s)) n (fw_skip s) nb Hcm Hlog Hd Lnb Hsk (fw_sl s) sw Lsl).
        - unfold wide. fold snb sw. lia.
        - intros z (Hz & _). apply btest_lt in Hz. lia. }
      rewrite H0. fold pos. unfold fdice_rand at 1. cbn [fr_base]. rewrite Hadd. cbn [bind]. rewrite (proj2 (Z.leb_le _ _) Hw').
      rewrite set_ok by lia. cbn [bind]. rewrite Hsw. cbn [bind]. fold c'. rewrite Ek. cbn [bind]. rewrite Eb. cbn [bind].
      assert (Hacc : accept (dice_rand prob) (ir, u :: ur) (sumZ (ccost k0) - total) total = (true, (ir, ur))).
      { simpl. destruct (Rle_dec (Q2R u) (prob (sumZ (ccost k0) - total)%Z total)); [reflexivity|contradiction]. }
      unfold fdice_rand at 1. cbn [fr_base]. rewrite Hacc.
      repeat (rewrite !set_ok by (rewrite ?upd_length; lia); cbn [bind]).
      match goal with |- Ok (fw_set _ ?c _ ?w ?sl ?k ?h, Some (?tt, _)) = _ =>
        instantiate (1 := tt); instantiate (1 := fw_set s c ([], []) w sl k h) end.
      reflexivity.
    + reflexivity.
Qed.

Lemma fsweep_loop prob : (forall d t, (0 < prob d t)%R) ->
  forall ux uy us a b, sweep ad ux uy us a b ->
  forall k sb B x y s total fuel,
  like (er x) ux -> like (er y) uy -> Forall2 like (map er (sibs k)) us ->
  tree_of (nodes (fw_ct s)) (plug k (slot sb B x y)) ->
  fgood s (fun v => parent (nodes (fw_ct s)) B v) -> total = ftot s -> length k < fuel ->
  exists pre eps m (s' : fw_state dice), (0 < eps)%R /\
    (forall ir us ur, length us = m -> small eps us ->
       fw_loop lg (fdice_rand prob sh1) fuel (fset_rng s (pre ++ ir, us ++ ur)) total B = Ok (fset_rng s' (ir, ur))) /\
    fgood s' none /\ same_fenv s s' /\
    exists T', tree_of (nodes (fw_ct s')) T' /\ like (er T') (N a b).
Proof.
  intros Hp ux uy us a b Hsw.
  induction Hsw as [ux uy|ux uy Cu us a b Hs Hsw IH|ux uy Cu us a b Hs Hsw IH];
    intros k sb B x y s total fuel Lx Ly HF HT HG Ht Hf.
  - destruct k as [|? k]; [|inversion HF]. destruct fuel as [|f]; [lia|].
    exists [], 1%R, 0, s. split; [apply Rlt_0_1|].
    cbn [plug] in HT. pose proof HT as (HU & _). apply slot_unfolds in HU. destruct HU as (HB & _).
    split.
    { intros ir us ur Lu _. destruct us; [|discriminate]. simpl. unfold fw_iter, get_ctree_nn. simpl.
      rewrite (get_some HB). simpl. reflexivity. }
    split.
    { destruct HG as (HI & HG). split; auto. destruct HI as [H1 H2 H3 (L4 & H4 & H5) H6 H7 H8 H9 H10]. constructor; auto.
      split; auto. split; [|auto]. intros v a b K _. apply H4; auto.
      intros (m & Hm & Hpm). rewrite HB in Hm. inversion Hm; subst. simpl in Hpm. discriminate. }
    split; [repeat split; auto|].
    exists (slot sb B x y). split; auto. eapply like_trans; [apply er_slot|]. apply lk_node; auto.
  - destruct k as [|((sA & A) & C) k]; [inversion HF|]. simpl in HF. inversion HF as [|? ? ? ? HC1 HF']; subst.
    assert (Hs1 : sh ad (er x) (er C) = true) by (eapply sh_like; [| |exact Hs]; apply like_sym; auto).
    destruct (@fiter_step prob sA A C k sb B x y s _ Hp HG eq_refl HT Hs1)
      as (pre & eps & s1 & tot1 & He & Hrun & HG1 & Ht1 & Henv & HT1).
    destruct fuel as [|f]; [lia|]. simpl in Hf.
    destruct (IH k sA A (slot sb B x C) y s1 tot1 f) as (pre2 & eps2 & m2 & s2 & He2 & Hrun2 & HG2 & Henv2 & HT2); auto; try lia.
    { eapply like_trans; [apply er_slot|]. apply lk_node; auto. }
    exists (pre ++ pre2), (Rmin eps eps2), (S m2), s2. split; [apply Rmin_pos; auto|]. split.
    { intros ir us0 ur Lu Hu. destruct us0 as [|u us0]; [discriminate|]. inversion Hu as [|? ? Hu1 Hu2]; subst.
      cbn [fw_loop]. rewrite <- app_assoc. cbn [app]. rewrite Hrun.
      - cbn [bind]. apply Hrun2; [simpl in Lu; lia|]. eapply small_weaken; [|exact Hu2]. apply Rmin_r.
      - eapply Rle_trans; [exact Hu1|]. apply Rmin_l. }
    split; auto. split; auto.
    destruct Henv as (D1 & D2 & D3 & D4 & D5 & D6 & D7). destruct Henv2 as (F1 & F2 & F3 & F4 & F5 & F6 & F7). repeat split; congruence.
  - destruct k as [|((sA & A) & C) k]; [inversion HF|]. simpl in HF. inversion HF as [|? ? ? ? HC1 HF']; subst.
    assert (Hs1 : sh ad (er y) (er C) = true) by (eapply sh_like; [| |exact Hs]; apply like_sym; auto).
    rewrite <- (negb_involutive sb), slot_negb in HT.
    destruct (@fiter_step prob sA A C k (negb sb) B y x s _ Hp HG eq_refl HT Hs1)
      as (pre & eps & s1 & tot1 & He & Hrun & HG1 & Ht1 & Henv & HT1).
    destruct fuel as [|f]; [lia|]. simpl in Hf.
    rewrite <- (slot_negb sA A x) in HT1.
    destruct (IH k (negb sA) A x (slot (negb sb) B y C) s1 tot1 f) as (pre2 & eps2 & m2 & s2 & He2 & Hrun2 & HG2 & Henv2 & HT2); auto; try lia.
    { eapply like_trans; [apply er_slot|]. apply lk_node; auto. }
    exists (pre ++ pre2), (Rmin eps eps2), (S m2), s2. split; [apply Rmin_pos; auto|]. split.
    { intros ir us0 ur Lu Hu. destruct us0 as [|u us0]; [discriminate|]. inversion Hu as [|? ? Hu1 Hu2]; subst.
      cbn [fw_loop]. rewrite <- app_assoc. cbn [app]. rewrite Hrun.
      - cbn [bind]. apply Hrun2; [simpl in Lu; lia|]. eapply small_weaken; [|exact Hu2]. apply Rmin_r.
      - eapply Rle_trans; [exact Hu1|]. apply Rmin_l. }
    split; auto. split; auto.
    destruct Henv as (D1 & D2 & D3 & D4 & D5 & D6 & D7). destruct Henv2 as (F1 & F2 & F3 & F4 & F5 & F6 & F7). repeat split; congruence.
Qed.

(** ** New slices at the end of an update take nothing from the dice *)
Lemma slice_visit_dice prob m c skip wd sl r tp sl' r' :
  slice_visit lg m (fdice_rand prob sh1) c skip wd (sl, r) tp = Ok (sl', r') ->
  forall r2, slice_visit lg m (fdice_rand prob sh1) c skip wd (sl, r2) tp = Ok (sl', r2).
Proof.
  unfold slice_visit. intros H r2. apply bind_ok in H. destruct H as (w & -> & H). cbn [bind].
  destruct (fm_max m <? w)%Z; [|congruence]. apply bind_ok in H. destruct H as (xs & -> & H). cbn [bind].
  destruct (fm_max m <? width_of lg m (bdiff xs sl) (dims c))%Z; simpl in *; congruence.
Qed.
Lemma fold_dice prob m c skip wd : forall order sl r sl' r',
  fold_res (slice_visit lg m (fdice_rand prob sh1) c skip wd) order (sl, r) = Ok (sl', r') ->
  forall r2, fold_res (slice_visit lg m (fdice_rand prob sh1) c skip wd) order (sl, r2) = Ok (sl', r2).
Proof.
  induction order as [|t order IH]; cbn [fold_res]; intros sl r sl' r' H r2; [congruence|].
  apply bind_ok in H. destruct H as ((sl1 & r1) & H1 & H2).
  rewrite (slice_visit_dice H1 r2). cbn [bind]. eapply IH; eauto.
Qed.
Lemma get_slices_dice prob m c skip wd r sl r' :
  get_slices lg m (fdice_rand prob sh1) c skip r wd = Ok (sl, r') ->
  forall r2, get_slices lg m (fdice_rand prob sh1) c skip r2 wd = Ok (sl, r2).
Proof.
  unfold get_slices. intros H r2. apply bind_ok in H. destruct H as (o & -> & H). cbn [bind]. eapply fold_dice; eauto.
Qed.

Lemma fdice_shuffles prob : shuffles (fdice_rand prob sh1).
Proof. intros r l. simpl. apply Hsh1. Qed.

Lemma freslice_step prob b s : fgood s none ->
  exists s', (forall r, fw_reslice lg (fdice_rand prob sh1) b (fset_rng s r) = Ok (fset_rng s' r)) /\
    fgood s' none /\ fw_ct s' = fw_ct s /\ fw_m s' = fw_m s.
Proof.
  intros (HI & Eds & Hmv & Hmax & Hsk & Hdj).
  destruct (@fw_reslice_spec dice lg (fdice_rand prob sh1) b (fset_rng s ([], [])) n Hlog (fdice_shuffles prob) (finv_rng ([], []) HI))
    as (s' & E & HI' & (F1 & F2 & F3 & F4 & F5 & F6 & F7) & Ec & _ & Hdj' & _).
  exists s'. split; [|split; [|auto]].
  - intros r. clear - E HI Hlog Hsh1. unfold fw_reslice in *. cbn [fset_rng fw_set fw_ct fw_ds fw_rng fw_hyper fw_cc fw_m fw_width fw_sl fw_maxnew fw_skip fw_min_ct fw_min_sl fw_min] in *.
    destruct (b && bany (fw_sl s)); [|inversion E; reflexivity].
    apply bind_ok in E. destruct E as ((sl & r1) & E1 & E). rewrite (get_slices_dice E1 r). cbn [bind].
    apply bind_ok in E. destruct E as (k & -> & E). cbn [bind].
    apply bind_ok in E. destruct E as (nt & -> & E). cbn [bind].
    apply bind_ok in E. destruct E as (t & E2 & E).
    change (fw_total (fset_rng s r)) with (fw_total (fset_rng s ([], []))).
    rewrite E2. cbn [bind]. destruct (nt <? t)%Z; inversion E; reflexivity.
  - cbn in F1, F3, F4, F5, Ec. split; [exact HI'|]. split; [congruence|]. split; [rewrite Ec; exact Hmv|]. split; [congruence|].
    split; [rewrite F3, F5, Ec; exact Hsk|]. apply Hdj'. exact Hdj.
Qed.

(** ** One update, scripted *)
Lemma fupdate_step prob b s T v : (forall d t, (0 < prob d t)%R) -> fgood s none -> tree_of (nodes (fw_ct s)) T ->
  step ad (er T) v ->
  exists pre eps m (s' : fw_state dice), (0 < eps)%R /\
    (forall ir us ur, length us = m -> small eps us ->
       fw_update lg (fdice_rand prob sh1) b (fset_rng s (pre ++ ir, us ++ ur)) = Ok (fset_rng s' (ir, ur))) /\
    fgood s' none /\ fw_m s' = fw_m s /\
    exists T', tree_of (nodes (fw_ct s')) T' /\ like (er T') v.
Proof.
  intros Hp HG HT (w & u1 & us & a & b0 & H1 & H2 & H3).
  assert (Hw : In w (leaves T)).
  { rewrite <- er_lv. eapply Permutation_in; [apply Permutation_sym, like_lv; exact H1|]. rewrite lv_cat. simpl. auto. }
  destruct (leaf_plug Hw) as (k & ->).
  destruct (tree_of_in HT) as (ND & Hin).
  pose proof (leaves_nodup ND) as NDl.
  assert (HF : Forall2 like (map er (sibs k)) (u1 :: us)).
  { apply (@spine_unique w).
    - eapply like_trans; [|exact H1]. apply like_sym. apply (er_plug k (Lf w)).
    - eapply Permutation_NoDup; [|exact NDl]. rewrite <- er_lv. apply like_lv. apply (er_plug k (Lf w)). }
  destruct k as [|((sb & B) & y) k]; [inversion HF|]. simpl in HF. inversion HF as [|? ? ? ? Hy HF']; subst.
  cbn [plug] in HT, ND, NDl, Hin. pose proof HG as (HI & HG').
  pose proof HT as (HU & _ & _ & Hlv).
  assert (S0 : subtree (slot sb B (Lf w) y) (plug k (slot sb B (Lf w) y))) by apply plug_subtree.
  destruct (subtree_unfolds S0 HU) as (q & U0). apply slot_unfolds in U0. destruct U0 as (NB & Uw & _). simpl in Uw.
  assert (Lw : w < n_leaves (nodes (fw_ct s))) by (apply Hlv; exact Hw).
  assert (HGB : fgood s (fun v => parent (nodes (fw_ct s)) B v)).
  { split; [|exact HG']. apply (finv_weaken HI). intros z []. }
  assert (Hfuel : length k < length (nodes (fw_ct s))).
  { pose proof (plug_len k (slot sb B (Lf w) y)) as H. pose proof (pos_pos (slot sb B (Lf w) y)).
    destruct HT as (_ & HP & _). apply Permutation_length in HP. rewrite seq_length in HP. lia. }
  destruct (@fsweep_loop prob Hp _ _ _ _ _ H2 k sb B (Lf w) y s _ (length (nodes (fw_ct s))) (like_refl _) Hy HF' HT HGB eq_refl Hfuel)
    as (pre & eps & m & s1 & He & Hrun & HG1 & (F1 & F2 & F3 & F4 & F5 & F6 & F7) & T' & HT' & Hl).
  destruct (freslice_step prob b HG1) as (s2 & Hre & HG2 & Ec2 & Em2).
  set (s3 := if (ftot s2 <? fw_min s2)%Z
             then mkFW (fw_ct s2) (fw_ds s2) (fw_rng s2) (fw_ct s2) (fw_m s2) (fw_maxnew s2) (fw_width s2) (fw_skip s2)
                    (fw_sl s2) (fw_sl s2) (fw_cc s2) (fw_hyper s2) (ftot s2) else s2).
  exists (w :: pre), eps, m, s3. split; auto. split; [|split; [|split]].
  - intros ir us0 ur Lu Hu. unfold fw_update.
    cbn [fdice_rand fr_base draw dice_rand r_rand next_int fst snd fset_rng fw_set fw_rng fw_ct app].
    rewrite Nat.mod_small by auto. rewrite (get_some Uw). cbn [bind par].
    match goal with |- context [fw_total ?z] => change z with (fset_rng s (pre ++ ir, us0 ++ ur)) end.
    change (fw_total (fset_rng s (pre ++ ir, us0 ++ ur))) with (fw_total s). rewrite (fw_total_ok HI). cbn [bind].
    match goal with |- context [fw_loop _ _ _ ?z _ _] => change z with (fset_rng s (pre ++ ir, us0 ++ ur)) end.
    change (mkFR (r_rand next_int next_uniform prob) (fun (r : dice) l => (sh1 l, r))) with (fdice_rand prob sh1).
    rewrite (Hrun ir us0 ur Lu Hu). cbn [bind]. rewrite Hre. cbn [bind]. unfold fw_update_min.
    change (fw_total (fset_rng s2 (ir, ur))) with (fw_total s2). rewrite (fw_total_ok (proj1 HG2)). cbn [bind].
    unfold s3. change (fw_min (fset_rng s2 (ir, ur))) with (fw_min s2).
    destruct (ftot s2 <? fw_min s2)%Z; reflexivity.
  - destruct HG2 as (HI2 & E2). unfold s3, fgood. destruct (ftot s2 <? fw_min s2)%Z; [|auto].
    split; [|exact E2]. destruct HI2. constructor; auto.
  - unfold s3. destruct (ftot s2 <? fw_min s2)%Z; simpl; congruence.
  - exists T'. split; [unfold s3; destruct (ftot s2 <? fw_min s2)%Z; simpl; rewrite Ec2; auto|]. eapply like_trans; eauto.
Qed.
End Run.

(** ** A run, scripted *)
Section Runs.
Variables (lg : BinNums.N -> Z) (c0 : ctree) (n : nat) (out : nat -> Prop) (ds : bool).
Hypothesis Hlog : log_like lg.
Hypothesis HC0 : core (nodes c0) (inds c0) n.
Hypothesis HX0 : exact_inds c0 out.
Variables (prob : nat -> Z -> Z -> R) (shf : nat -> list nat -> list nat) (upd_sl : nat -> bool).
Hypothesis Hprob : forall i d t, (0 < prob i d t)%R.
Hypothesis Hshf : forall i l, Permutation (shf i l) l.
Let ad := adj c0 ds.

Lemma freach_run : forall u v, reach ad u v -> forall s T,
  fgood lg c0 n ds s none -> tree_of (nodes (fw_ct s)) T -> like (er T) u ->
  forall i0,
  exists K ints eps m (s' : fw_state dice), (0 < eps)%R /\
    (forall ir us ur, length us = m -> small eps us ->
       fw_run lg (map (fun i => (fdice_rand (prob i) (shf i), upd_sl i)) (seq i0 K)) (fset_rng s (ints ++ ir, us ++ ur)) =
         Ok (fset_rng s' (ir, ur))) /\
    fgood lg c0 n ds s' none /\ fw_m s' = fw_m s /\
    exists T', tree_of (nodes (fw_ct s')) T' /\ like (er T') v.
Proof.
  induction 1 as [u v H|u v x H1 H2 IH]; intros s T HG HT HL i0.
  - exists 0, [], 1%R, 0, s. split; [apply Rlt_0_1|]. split.
    { intros ir us ur Lu _. destruct us; [|discriminate]. reflexivity. }
    split; auto. split; auto. exists T. split; auto. eapply like_trans; eauto.
  - destruct (@fupdate_step lg c0 n out ds Hlog HC0 HX0 (shf i0) (Hshf i0) (prob i0) (upd_sl i0) s T v (Hprob i0) HG HT (step_left HL H1))
      as (pre & eps & m & s1 & He & Hrun & HG1 & Ecm & T1 & HT1 & HL1).
    destruct (IH s1 T1 HG1 HT1 HL1 (S i0)) as (K & ints & eps2 & m2 & s2 & He2 & Hrun2 & HG2 & Ecm2 & T2 & HT2 & HL2).
    exists (S K), (pre ++ ints), (Rmin eps eps2), (m + m2), s2. split; [apply Rmin_pos; auto|]. split.
    { intros ir us ur Lu Hu. cbn [seq map fw_run].
      rewrite <- (firstn_skipn m us) in Hu |- *. apply Forall_app in Hu. destruct Hu as (Hu1 & Hu2).
      rewrite <- !app_assoc. rewrite Hrun; [|rewrite firstn_length; lia|].
      - cbn [bind]. apply Hrun2; [rewrite skipn_length; lia|]. eapply small_weaken; [|exact Hu2]. apply Rmin_r.
      - eapply small_weaken; [|exact Hu1]. apply Rmin_l. }
    split; auto. split; [rewrite Ecm2; exact Ecm|]. exists T2. auto.
Qed.
End Runs.
