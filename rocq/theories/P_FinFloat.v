(** Rounded widths: errors, get_slices, new random slices. *)
From Coq Require Import Permutation Relations Psatz.
From Verif Require Import M_Base M_Bitset M_Tree M_CTree M_Cost M_Opt M_InfMem M_FinWidth M_Float M_FinFloat S_Tree S_Opt S_FinWidth S_FinFloat
  P_Base P_Bitset P_Tree P_Shape P_TreeProps P_TreeValid P_Opt P_OptCost P_InfMem P_Canon P_Cost P_InfMemMain P_FinWidth P_FinWidthOpt.
Set Implicit Arguments.
Unset Strict Implicit.
Local Open Scope Z_scope.

(** What the proofs use of an accurate arithmetic: widths are off by [Ew], deltas by
    [Ed], sums by [e]. *)
Record wint (lg : N -> Z) (wa : warith) (m : fmodel) (d : dims_t) (n : nat) (e Ew Ed Bd : Z) : Prop := {
  wi_e   : 0 <= e /\ 0 <= Ew /\ 0 <= Ed;
  wi_w   : forall xs, length xs = n -> Z.abs (rwidth_of wa m xs d - width_of lg m xs d) <= Ew;
  wi_d   : forall xs x, length xs = n -> (x < n)%nat -> Z.abs (rdelta_width_of wa m xs d x - delta_width_of lg m xs d x) <= Ed;
  wi_lg  : forall x, (x < n)%nat -> Z.abs (rlg_at wa d x - lg_at lg d x) <= Ed;
  wi_add : forall w y, Z.abs (w + y) <= Bd -> Z.abs (wadd wa w y - (w + y)) <= e;
  wi_bd  : forall xs, length xs = n -> width_of lg m xs d + Ew + Z.of_nat n * (Ed + e) <= Bd;
  wi_lb  : forall x, (x < n)%nat -> lg_at lg d x + Ed <= Bd
}.
Definition wgood (lg : N -> Z) (wa : warith) (m : fmodel) (d : dims_t) (n : nat) (K : Z) : Prop :=
  exists e Ew Ed Bd, wint lg wa m d n e Ew Ed Bd /\ K = Ew + Z.of_nat n * (Ed + e).

Lemma wgood_width lg wa m d n K xs : wgood lg wa m d n K -> length xs = n ->
  rwidth_of wa m xs d <= fm_max m -> width_of lg m xs d <= fm_max m + K.
Proof.
  intros (e & Ew & Ed & Bd & W & ->) Lx H. pose proof (wi_w W Lx). destruct (wi_e W) as (? & ? & ?). nia.
Qed.

Lemma width_nonneg lg m d n xs : cmodel_ok (fm_cm m) n -> log_like lg -> dims_positive d -> length xs = n -> 0 <= width_of lg m xs d.
Proof.
  intros Hm Hl Hd Lx. rewrite (@width_spec _ _ _ _ n) by auto.
  rewrite <- (@set_width_empty lg (fm_cm m) d n (fun _ => false)) by auto.
  apply set_width_mono; auto. discriminate.
Qed.

(** ** Sections as in P_FinWidth, with errors *)
Section Slices.
  Variables (wa : warith) (m : fmodel) (d : dims_t) (n : nat).
  Hypotheses (Hm : cmodel_ok (fm_cm m) n) (Hd : dims_positive d).

  Definition sfit lg K (w : Z) (j : nat) (xs : bitset) : Prop :=
    exists e Ew Ed Bd, wint lg wa m d n e Ew Ed Bd /\ K = Ew + Z.of_nat n * (Ed + e) /\
      Z.abs (w - width_of lg m xs d) <= Ew + Z.of_nat j * (Ed + e).

  Lemma rslice_loop_ok : forall pos slices xs w, NoDup pos ->
    (forall x, In x pos -> (x < n)%nat /\ btest xs x = true) ->
    length slices = n -> length xs = n ->
    let sl := rslice_loop wa m d pos slices xs w in
    length sl = n /\
    (forall i, btest sl i = true -> btest slices i = true \/ In i pos) /\
    (forall i, btest slices i = true -> btest sl i = true) /\
    (forall lg K j, log_like lg -> sfit lg K w j xs -> (j + length pos <= n)%nat ->
      (forall x, In x pos -> btest sl x = true) \/
      forall ys, length ys = n -> (forall i, btest ys i = true -> btest xs i = true /\ btest sl i = false) ->
       width_of lg m ys d <= fm_max m + K).
  Proof.
    induction pos as [|x pos IH]; intros slices xs w Hnd Hpos Ls Lx; cbn [rslice_loop]; cbv zeta.
    - split; [auto|]. split; [auto|]. split; [auto|]. intros lg K j _ _ _. left. intros x [].
    - inversion Hnd as [|? ? Hni Hnd']; subst x0 l.
      destruct (Hpos x (or_introl eq_refl)) as (Hx & Hxs).
      assert (Lb : length (bset slices x) = n) by (unfold bset; rewrite upd_length; auto).
      assert (Lr : length (breset xs x) = n) by (unfold breset; rewrite upd_length; auto).
      set (w' := wadd wa w (rdelta_width_of wa m xs d x)).
      assert (Hw' : forall lg K j, log_like lg -> sfit lg K w j xs -> (j < n)%nat -> sfit lg K w' (S j) (breset xs x)).
      { intros lg K j Hl (e & Ew & Ed & Bd & W & HK & Hj) Hjn. exists e, Ew, Ed, Bd. split; auto. split; auto.
        pose proof (dw_exact Hm Hl Hd Lx Hx) as E. rewrite <- (breset_flip Hxs) in E.
        destruct (wi_e W) as (? & ? & ?). pose proof (wi_d W Lx Hx) as Hdx.
        pose proof (wi_bd W Lr) as Hb. pose proof (width_nonneg Hm Hl Hd Lr) as Hnn.
        assert (Hle : Z.of_nat j * (Ed + e) + (Ed + e) <= Z.of_nat n * (Ed + e)) by nia.
        pose proof (wi_add W (w := w) (y := rdelta_width_of wa m xs d x)) as Ha. unfold w'.
        replace (Z.of_nat (S j) * (Ed + e)) with (Z.of_nat j * (Ed + e) + (Ed + e)) by lia.
        lia. }
      destruct (Z.leb_spec w' (fm_max m)) as [Hle|Hgt].
      + split; auto. split; [|split].
        * intros i. rewrite bset_test by lia. rewrite orb_true_iff, Nat.eqb_eq. simpl. tauto.
        * intros i Hi. rewrite bset_test by lia. rewrite Hi. apply orb_true_r.
        * intros lg K j Hl Hs Hj. simpl in Hj. right. intros ys Ly Hy.
          destruct (Hw' lg K j Hl Hs ltac:(lia)) as (e & Ew & Ed & Bd & W & -> & Hj'). destruct (wi_e W) as (? & ? & ?).
          apply Z.le_trans with (width_of lg m (breset xs x) d).
          -- apply (width_mono Hm Hl Hd Ly Lr). intros i Hi. destruct (Hy i Hi) as (H3 & H4). rewrite bset_test in H4 by lia. apply orb_false_iff in H4.
             rewrite breset_test, H3. destruct H4 as (-> & _). auto.
          -- assert (Z.of_nat (S j) * (Ed + e) <= Z.of_nat n * (Ed + e)) by nia. lia.
      + destruct (IH (bset slices x) (breset xs x) w' Hnd') as (H1 & H2 & H3 & H4); auto.
        { intros y Hy. destruct (Hpos y (or_intror Hy)) as (Hy1 & Hy2). split; auto.
          rewrite breset_test, Hy2. destruct (Nat.eqb_spec x y) as [->|]; auto; contradiction. }
        assert (Hset : forall i, btest slices i = true \/ i = x -> btest (bset slices x) i = true).
        { intros i Hi. rewrite bset_test by lia. rewrite orb_true_iff, Nat.eqb_eq. intuition. }
        split; auto. split; [|split].
        * intros i Hi. destruct (H2 i Hi) as [Hb|Hb]; [|simpl; auto]. rewrite bset_test in Hb by lia.
          rewrite orb_true_iff, Nat.eqb_eq in Hb. simpl. tauto.
        * intros i Hi. apply H3. auto.
        * intros lg K j Hl Hs Hj. simpl in Hj. destruct (H4 lg K (S j) Hl (Hw' lg K j Hl Hs ltac:(lia)) ltac:(lia)) as [H5|H5].
          -- left. intros y [->|Hy]; auto.
          -- right. intros ys Ly Hy. apply H5; auto. intros i Hi. destruct (Hy i Hi) as (G1 & G2). split; auto.
             rewrite breset_test, G1. destruct (Nat.eqb_spec x i) as [->|]; auto. rewrite H3 in G2 by auto. discriminate.
  Qed.
End Slices.

Section GetSlices.
  Variables (wa : warith) (R : Type) (m : fmodel) (fr : frand R) (c : ctree) (n : nat).
  Variables (skip : option bitset).
  Hypotheses (Hm : cmodel_ok (fm_cm m) n) (Hd : dims_positive (dims c)) (Hsh : shuffles fr).
  Hypotheses (W : well_formed (nodes c)) (Hs : shaped c n) (Hsk : match skip with Some k => length k = n | None => True end).
  Let wc := rwidth_cache_make wa m c.

  Lemma rwc_len : length wc = length (inds c).
  Proof. apply map_length. Qed.
  Lemma rwc_nth v : (v < length (inds c))%nat -> nth v wc 0 = rwidth_of wa m (ix (inds c) v) (dims c).
  Proof.
    intros Hv. unfold wc, rwidth_cache_make. rewrite (nth_indep _ 0 (rwidth_of wa m [] (dims c))) by (rewrite map_length; auto).
    rewrite (map_nth (fun xs => rwidth_of wa m xs (dims c))). auto.
  Qed.
  Lemma rix_len v : (v < length (inds c))%nat -> length (ix (inds c) v) = n.
  Proof. intros Hv. apply Hs. apply nth_In. auto. Qed.

  Definition rgood (sl : bitset) : Prop := length sl = n /\ (forall x, btest sl x = true -> omem skip x = false).
  (** The part of tensor [v] that may not be sliced is at most [mx] wide. *)
  Definition rskip_fit (lg : N -> Z) (mx : Z) (v : nat) : Prop :=
    set_width lg (fm_cm m) (dims c) n (fun x => carries c v x && omem skip x) <= mx.

  Lemma bcount_len (xs : bitset) : (length (bpositions xs) <= length xs)%nat.
  Proof. unfold bpositions. generalize 0%nat (length xs). intros a k. revert a. induction k as [|k IH]; intros a; simpl; auto.
    specialize (IH (S a)). destruct (btest xs a); simpl; lia. Qed.

  Lemma rvisit_ok sl r v : rgood sl -> (v < length (inds c))%nat ->
    exists sl' r', rslice_visit wa m fr c skip wc (sl, r) v = Ok (sl', r') /\ rgood sl' /\
      (forall i, btest sl i = true -> btest sl' i = true) /\
      (forall lg K, log_like lg -> wgood lg wa m (dims c) n K -> rskip_fit lg (fm_max m + K) v ->
         width_of lg m (bdiff (ix (inds c) v) sl') (dims c) <= fm_max m + K).
  Proof.
    intros (Lsl & Gsk) Hv. unfold rslice_visit.
    pose proof (rix_len Hv) as Lx.
    rewrite (@get_nth _ wc v 0) by (rewrite rwc_len; auto). cbn [bind]. rewrite (rwc_nth Hv).
    destruct (Z.ltb_spec (fm_max m) (rwidth_of wa m (ix (inds c) v) (dims c))) as [Hbig|Hsmall].
    2:{ exists sl, r. split; auto. split; [split; auto|]. split; auto. intros lg K Hl Hw _.
        apply Z.le_trans with (width_of lg m (ix (inds c) v) (dims c)).
        - apply (width_mono Hm Hl Hd); auto. rewrite bdiff_len; congruence.
          intros i. rewrite bdiff_test by congruence. intros Hi. apply andb_true_iff in Hi. tauto.
        - apply (wgood_width Hw Lx Hsmall). }
    rewrite (@get_nth _ (inds c) v []) by auto. cbn [bind]. change (nth v (inds c) []) with (ix (inds c) v).
    set (xs := bdiff (ix (inds c) v) sl).
    assert (Lxs : length xs = n) by (unfold xs; rewrite bdiff_len; congruence).
    destruct (Z.ltb_spec (fm_max m) (rwidth_of wa m xs (dims c))) as [Hbig2|Hsmall2].
    2:{ exists sl, r. split; auto. split; [split; auto|]. split; auto. intros lg K Hl Hw _. apply (wgood_width Hw Lxs Hsmall2). }
    pose proof (Hsh r (bpositions (minus_skip xs skip))) as Hp.
    destruct (shuffle fr r (bpositions (minus_skip xs skip))) as (p & r'). simpl in Hp.
    set (q := stable_sort (slice_greater (fun x => wcast wa (wlog wa x)) c wc (fm_max m)) p).
    assert (Hq : Permutation q (bpositions (minus_skip xs skip))).
    { eapply perm_trans; [apply stable_sort_perm|exact Hp]. }
    assert (Hin : forall x, In x q <-> btest xs x = true /\ omem skip x = false).
    { intros x. split.
      - intros Hx. apply (Permutation_in x Hq) in Hx. apply bpositions_in in Hx. rewrite (minus_skip_test Hsk x Lxs) in Hx.
        apply andb_true_iff in Hx. rewrite negb_true_iff in Hx. auto.
      - intros (H1 & H2). apply (Permutation_in x (Permutation_sym Hq)). apply bpositions_in.
        rewrite (minus_skip_test Hsk x Lxs), H1, H2. auto. }
    assert (Lq : (length q <= n)%nat).
    { rewrite (Permutation_length Hq). eapply Nat.le_trans; [apply bcount_len|]. unfold minus_skip. destruct skip as [k|]; [|lia].
      rewrite bdiff_len; [lia|congruence]. }
    destruct (rslice_loop_ok wa Hm Hd (pos := q) (slices := sl) (xs := xs) (rwidth_of wa m xs (dims c))) as (H1 & H2 & H3 & H4); auto.
    { eapply Permutation_NoDup; [apply Permutation_sym; exact Hq|apply bpositions_nodup]. }
    { intros x Hx. apply Hin in Hx. destruct Hx as (Hx & _). split; auto. rewrite <- Lxs. apply btest_lt. auto. }
    eexists _, r'. split; [reflexivity|].
    set (sl' := rslice_loop wa m (dims c) q sl xs (rwidth_of wa m xs (dims c))) in *.
    split; [|split; [exact H3|]].
    - split; auto. intros x Hx. destruct (H2 x Hx) as [Hb|Hb]; auto. apply Hin in Hb. tauto.
    - intros lg K Hl Hw Hfit. destruct (H4 lg K 0%nat Hl) as [H5|H5]; [|lia| |].
      + destruct Hw as (e & Ew & Ed & Bd & Wi & HK). exists e, Ew, Ed, Bd. split; auto. split; auto. simpl Z.of_nat. rewrite Z.mul_0_l, Z.add_0_r.
        apply (wi_w Wi Lxs).
      + eapply Z.le_trans; [|exact Hfit]. rewrite (@width_spec _ _ _ _ n) by (auto; rewrite bdiff_len; congruence).
        apply set_width_mono; auto. intros i _ Hi. change (mem (bdiff (ix (inds c) v) sl') i) with (btest (bdiff (ix (inds c) v) sl') i) in Hi.
        rewrite bdiff_test in Hi by congruence. apply andb_true_iff in Hi. destruct Hi as (Hi1 & Hi2).
        rewrite carries_test, Hi1. simpl. destruct (omem skip i) eqn:Hk; auto.
        rewrite H5 in Hi2; [discriminate|]. apply Hin. split; auto. unfold xs.
        rewrite bdiff_test by congruence. rewrite Hi1. simpl. destruct (btest sl i) eqn:Hb; auto.
        rewrite H3 in Hi2 by auto. discriminate.
      + apply H5; [rewrite bdiff_len; congruence|]. intros i Hi. rewrite bdiff_test in Hi by congruence.
        apply andb_true_iff in Hi. destruct Hi as (Hi1 & Hi2). apply negb_true_iff in Hi2. split; auto.
        unfold xs. rewrite bdiff_test by congruence. rewrite Hi1. simpl. destruct (btest sl i) eqn:Hb; auto.
        rewrite H3 in Hi2 by auto. discriminate.
  Qed.

  Lemma rfold_slices order : forall sl r, rgood sl -> (forall v, In v order -> (v < length (inds c))%nat) ->
    exists sl' r', fold_res (rslice_visit wa m fr c skip wc) order (sl, r) = Ok (sl', r') /\ rgood sl' /\
      (forall i, btest sl i = true -> btest sl' i = true) /\
      (forall lg K, log_like lg -> wgood lg wa m (dims c) n K -> forall v, In v order -> rskip_fit lg (fm_max m + K) v ->
         width_of lg m (bdiff (ix (inds c) v) sl') (dims c) <= fm_max m + K).
  Proof.
    induction order as [|v order IH]; intros sl r Hg Hv; cbn [fold_res].
    - exists sl, r. split; auto. split; auto. split; auto. intros lg K _ _ v [].
    - destruct (rvisit_ok r Hg (Hv v (or_introl eq_refl))) as (sl1 & r1 & E1 & G1 & M1 & F1). rewrite E1. cbn [bind].
      destruct (IH sl1 r1 G1) as (sl2 & r2 & E2 & G2 & M2 & F2); [intros; apply Hv; right; auto|].
      exists sl2, r2. split; auto. split; auto. split; [auto|].
      intros lg K Hl Hw u [->|Hu] Hf; [|eapply F2; eauto]. specialize (F1 lg K Hl Hw Hf). eapply Z.le_trans; [|exact F1].
      pose proof (rix_len (Hv u (or_introl eq_refl))) as Lx. destruct G1 as (L1 & _). destruct G2 as (L2 & _).
      apply (width_mono Hm Hl Hd); try (rewrite bdiff_len; congruence).
      intros i. rewrite !bdiff_test by congruence. rewrite !andb_true_iff, !negb_true_iff. intros (A & B). split; auto.
      destruct (btest sl1 i) eqn:Hb; auto. rewrite M2 in B by auto. discriminate.
  Qed.

  Lemma rget_slices_ok r : exists sl r', rget_slices wa m fr c skip r wc = Ok (sl, r') /\ rgood sl /\
    (forall lg K, log_like lg -> wgood lg wa m (dims c) n K -> forall v, (v < length (inds c))%nat -> rskip_fit lg (fm_max m + K) v ->
       width_of lg m (bdiff (ix (inds c) v) sl) (dims c) <= fm_max m + K).
  Proof.
    destruct W as (T & HT). unfold rget_slices. rewrite (traverse_ok HT). cbn [bind].
    destruct (tree_of_in HT) as (Hnd & Hin). pose proof Hs as (HL & Hsz).
    assert (Hpos : (0 < length (nodes c))%nat).
    { destruct (nodes c) as [|x t] eqn:E; [|simpl; lia]. exfalso.
      assert (In (top T) (positions T)) by apply top_in. apply Hin in H. simpl in H. lia. }
    assert (En : n_inds c = n).
    { unfold n_inds. apply (rix_len (v := 0%nat)). lia. }
    assert (Hord : forall v, In v (postorder T) <-> (v < length (inds c))%nat).
    { intros v. rewrite HL, <- Hin. split; intros Hv; [apply (Permutation_in v (postorder_perm T))|
        apply (Permutation_in v (Permutation_sym (postorder_perm T)))]; auto. }
    destruct (@rfold_slices (postorder T) (bempty (n_inds c)) r) as (sl & r' & E & G & _ & F).
    - split; [rewrite bempty_len; auto|]. intros x Hx; rewrite bempty_test in Hx; discriminate.
    - intros v Hv. apply Hord. auto.
    - exists sl, r'. split; auto. split; auto. intros lg K Hl Hw v Hv. apply (F lg K Hl Hw). apply Hord. auto.
  Qed.
End GetSlices.

Local Open Scope nat_scope.
Section AddSlices.
  Variables (wa : warith) (R : Type) (rd : rand R) (m : fmodel) (d : dims_t) (n : nat) (skip : option bitset) (nb : bitset).
  Hypotheses (Hm : cmodel_ok (fm_cm m) n) (Hd : dims_positive d) (Lnb : length nb = n).

  (** The width [w] kept while slices are added is above the exact one by at most
      the errors of [j] steps; for the simple model also not below. *)
  Definition afit lg K (w : Z) (j : nat) (sl : bitset) : Prop :=
    exists e Ew Ed Bd, wint lg wa m d n e Ew Ed Bd /\ K = (Ew + Z.of_nat n * (Ed + e))%Z /\
      (w <= wide lg m d nb sl + Ew + Z.of_nat j * (Ed + e))%Z /\
      (fm_cm m = Simple -> (wide lg m d nb sl <= w + Ew + Z.of_nat j * (Ed + e))%Z).

  Lemma radd_slices_ok : forall k pos np sl w (r : R), np <= length pos -> NoDup (firstn np pos) -> length sl = n ->
    (forall x, In x (firstn np pos) <-> btest nb x = true /\ btest sl x = false /\ omem skip x = false) ->
    (radd_slices wa rd d (fm_max m) k pos np sl w r = Err Crash /\ 0 < k /\
       forall lg K j, log_like lg -> (0 <= fm_max m)%Z -> afit lg K w j sl -> j + np <= n ->
       (fm_max m < set_width lg (fm_cm m) d n (fun x => mem nb x && omem skip x) + K)%Z) \/
    exists sl' w' r', radd_slices wa rd d (fm_max m) k pos np sl w r = Ok (sl', w', r') /\ length sl' = n /\
      (forall x, btest sl x = true -> btest sl' x = true) /\
      (forall x, btest sl' x = true -> btest sl x = true \/ omem skip x = false) /\
      (forall lg K j, log_like lg -> (0 <= fm_max m)%Z -> afit lg K w j sl -> j + np <= n ->
         fm_cm m = Simple -> (wide lg m d nb sl' <= w' + K)%Z).
  Proof.
    induction k as [|k IH]; intros pos np sl w r Hnp Hnd Ls Hlive; cbn [radd_slices].
    - right. exists sl, w, r. split; auto. split; auto. split; auto. split; auto.
      intros lg K j Hl _ (e & Ew & Ed & Bd & W & -> & Hw & Hw') Hj Hsi. specialize (Hw' Hsi). destruct (wi_e W) as (? & ? & ?).
      assert (Z.of_nat j * (Ed + e) <= Z.of_nat n * (Ed + e))%Z by nia. lia.
    - destruct (Z.ltb_spec (fm_max m) w) as [Hgt|Hle].
      2:{ right. exists sl, w, r. split; auto. split; auto. split; auto. split; auto.
          intros lg K j Hl _ (e & Ew & Ed & Bd & W & -> & Hw & Hw') Hj Hsi. specialize (Hw' Hsi). destruct (wi_e W) as (? & ? & ?).
          assert (Z.of_nat j * (Ed + e) <= Z.of_nat n * (Ed + e))%Z by nia. lia. }
      destruct (Nat.eqb_spec np 0) as [E0|E0].
      + left. split; auto. split; [lia|]. intros lg K j Hl _ (e & Ew & Ed & Bd & W & -> & Hw & _) Hj.
        subst np. simpl in Hlive. destruct (wi_e W) as (? & ? & ?).
        assert (Z.of_nat j * (Ed + e) <= Z.of_nat n * (Ed + e))%Z by nia.
        assert (wide lg m d nb sl <= set_width lg (fm_cm m) d n (fun x => mem nb x && omem skip x))%Z; [|lia].
        unfold wide. rewrite (@width_spec lg m _ d n) by (auto; rewrite bdiff_len; congruence).
        apply set_width_mono; auto. intros i Hi Hb. unfold mem in Hb. fold (btest (bdiff nb sl) i) in Hb.
        rewrite bdiff_test in Hb by congruence. apply andb_true_iff in Hb. destruct Hb as (Hb1 & Hb2).
        change (mem nb i) with (btest nb i). rewrite Hb1. simpl. destruct (omem skip i) eqn:Hk; auto. exfalso.
        apply (Hlive i). apply negb_true_iff in Hb2. auto.
      + destruct (draw rd r) as (x & r').
        assert (Hi : x mod np < np) by (apply Nat.mod_upper_bound; lia). set (i := x mod np) in *.
        destruct (@get_lt _ pos i ltac:(lia)) as (a & Ea & Na). destruct (@get_lt _ pos (np - 1) ltac:(lia)) as (b & Eb & Nb).
        rewrite Ea. cbn [bind]. rewrite Eb. cbn [bind].
        rewrite set_ok by lia. cbn [bind]. rewrite set_ok by (rewrite upd_length; lia). cbn [bind].
        pose proof (swap_live (np := np) (i := i) ltac:(lia) Hi Na Nb) as HP.
        set (pos2 := upd (upd pos i b) (np - 1) a) in *.
        assert (Hnd2 : NoDup (a :: firstn (np - 1) pos2)).
        { eapply Permutation_NoDup; [apply Permutation_sym; exact HP|auto]. }
        assert (Ha : btest nb a = true /\ btest sl a = false /\ omem skip a = false).
        { apply Hlive. apply (Permutation_in a HP). simpl. auto. }
        destruct Ha as (Ha1 & Ha2 & Ha3). assert (Han : a < n) by (rewrite <- Lnb; apply btest_lt; auto).
        assert (Lb : length (bset sl a) = n) by (unfold bset; rewrite upd_length; auto).
        set (w2 := wadd wa w (- rlg_at wa d a)).
        assert (Hnext : forall lg K j, log_like lg -> (0 <= fm_max m)%Z -> afit lg K w j sl -> j + np <= n -> afit lg K w2 (S j) (bset sl a)).
        { intros lg K j Hl Hmx (e & Ew & Ed & Bd & W & HK & H1 & H3) Hj. exists e, Ew, Ed, Bd. split; auto. split; auto.
          destruct (wide_set Hm Hl Hd Lnb Ls Han Ha1 Ha2) as (Hle1 & Heq1).
          destruct (wi_e W) as (? & ? & ?). pose proof (wi_lg W Han) as Hlg.
          assert (Hle2 : (Z.of_nat j * (Ed + e) + (Ed + e) <= Z.of_nat n * (Ed + e))%Z) by nia.
          assert (Lw : length (bdiff nb sl) = n) by (rewrite bdiff_len; congruence).
          pose proof (wi_bd W Lw) as Hbd. change (width_of lg m (bdiff nb sl) d) with (wide lg m d nb sl) in Hbd.
          assert (Lw2 : length (bdiff nb (bset sl a)) = n) by (rewrite bdiff_len; congruence).
          pose proof (wi_bd W Lw2) as Hbd2. change (width_of lg m (bdiff nb (bset sl a)) d) with (wide lg m d nb (bset sl a)) in Hbd2.
          pose proof (width_nonneg Hm Hl Hd Lw2) as Hnn. change (width_of lg m (bdiff nb (bset sl a)) d) with (wide lg m d nb (bset sl a)) in Hnn.
          assert (Hlgn : (0 <= lg_at lg d a)%Z) by apply (log_dim_nonneg Hl Hd).
          pose proof (wi_lb W Han) as Hlb. pose proof (wi_add W (w := w) (y := (- rlg_at wa d a)%Z)) as Hadd. fold w2 in Hadd.
          assert (Hab : (Z.abs (w + - rlg_at wa d a) <= Bd)%Z) by lia. specialize (Hadd Hab).
          replace (Z.of_nat (S j) * (Ed + e))%Z with (Z.of_nat j * (Ed + e) + (Ed + e))%Z by lia.
          split; [lia|]. intros Hsi. specialize (H3 Hsi). specialize (Heq1 Hsi). lia. }
        inversion Hnd2 as [|? ? Hni Hnd3]; subst x0 l.
        destruct (IH pos2 (np - 1) (bset sl a) w2 r') as [(E & Hk & Hc)|(sl' & w' & r2 & E & L' & H1 & H2 & H3)].
        * unfold pos2. rewrite !upd_length. lia.
        * exact Hnd3.
        * exact Lb.
        * intros y. rewrite bset_test by lia. rewrite orb_false_iff. split.
          -- intros Hy. assert (In y (firstn np pos)) as Hy' by (apply (Permutation_in y HP); simpl; auto).
             apply Hlive in Hy'. destruct Hy' as (G1 & G2 & G3). repeat split; auto.
             apply Nat.eqb_neq. intros ->. contradiction.
          -- intros (G1 & (G2 & G3) & G4). assert (In y (firstn np pos)) as Hy' by (apply Hlive; auto).
             apply (Permutation_in y (Permutation_sym HP)) in Hy'. destruct Hy' as [->|Hy']; auto.
             rewrite Nat.eqb_refl in G2. discriminate.
        * left. split; [exact E|]. split; [lia|]. intros lg K j Hl Hmx Hf Hj. apply (Hc lg K (S j)); auto. lia.
        * right. exists sl', w', r2. split; auto. split; auto. split; [|split]; auto.
          -- intros y Hy. apply H1. rewrite bset_test by lia. rewrite Hy. apply orb_true_r.
          -- intros y Hy. destruct (H2 y Hy) as [Hb|Hb]; auto. rewrite bset_test in Hb by lia.
             rewrite orb_true_iff, Nat.eqb_eq in Hb. destruct Hb as [->|Hb]; auto.
          -- intros lg K j Hl Hmx Hf Hj. apply (H3 lg K (S j)); auto. lia.
  Qed.
End AddSlices.
