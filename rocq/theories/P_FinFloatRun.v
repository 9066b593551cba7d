(** The finite-width optimizer with rounded costs and widths: iterations, updates, sessions. *)
From Coq Require Import Permutation Relations.
From Verif Require Import M_Base M_Bitset M_Tree M_CTree M_Cost M_Opt M_InfMem M_FinWidth M_Float M_FinFloat S_Tree S_Opt S_FinWidth S_FinFloat
  P_Base P_Bitset P_Tree P_Shape P_TreeProps P_TreeValid P_Opt P_OptCost P_InfMem P_Canon P_Cost P_InfMemMain P_InfMemFinal
  P_FinWidth P_FinWidthOpt P_FinWidthMain P_FloatCost P_FinFloat.
From Verif Require P_FloatRun.
Set Implicit Arguments.
Unset Strict Implicit.
Local Open Scope nat_scope.

Section Run.
  Variables (ar : arith) (wa : warith).
  Local Notation fpcost_ok := (P_FloatRun.fpcost_ok ar).

  Lemma rfw_ucost m d sl : ucost (rfw_ccost ar m d sl).
  Proof. intros a b c a' b' c' H. unfold rfw_ccost, rfcost_of. destruct (fm_cm m); rewrite H; auto. Qed.

  Lemma rcache_ex m d sl c n : core (nodes c) (inds c) n ->
    exists k, fcost_cache_make ar (rfw_ccost ar m d sl) c = Ok k /\
      ccost_ok (rfw_ccost ar m d sl) (nodes c) (inds c) (ccost k) /\ fpcost_ok (nodes c) (ccost k) (pcost k) none.
  Proof.
    intros HC. destruct (ccost_exists (rfw_ucost m d sl) HC) as (ks & HK). destruct (opcost_exists ar ks (co_wf HC)) as (ps & HP).
    exists (mkCC ps ks). split; [apply (fcost_cache_ok HC HK HP)|]. split; auto. apply opcost_fp. auto.
  Qed.

  Lemma rpropagate_ok (t : tree) p ks A B C D E : length p = length t -> length ks = length t ->
    A < length t -> B < length t -> C < length t -> D < length t -> E < length t ->
    let p1 := upd p B (fadd ar (fadd ar (zx p D) (zx p E)) (zx ks B)) in
    rpropagate ar p ks A B C D E = Ok (upd p1 A (fadd ar (fadd ar (zx p1 B) (zx p1 C)) (zx ks A))).
  Proof.
    intros Lp Lk LA LB LC LD LE p1. unfold rpropagate.
    rewrite (@get_nth _ p D 0%Z), (@get_nth _ p E 0%Z) by lia. cbn [bind].
    rewrite (@get_nth _ ks B 0%Z) by lia. cbn [bind].
    rewrite set_ok by lia. cbn [bind]. rewrite !zx_nth. fold p1.
    assert (L1 : length p1 = length t) by (unfold p1; rewrite upd_length; auto).
    rewrite (@get_nth _ p1 B 0%Z), (@get_nth _ p1 C 0%Z), (@get_nth _ ks A 0%Z) by lia. cbn [bind].
    rewrite set_ok by lia. rewrite !zx_nth. auto.
  Qed.

  Record rfinv (R : Type) (s : fw_state R) (n : nat) (w : nat -> Prop) : Prop := {
    rv_core  : core (nodes (fw_ct s)) (inds (fw_ct s)) n;
    rv_hyper : hyper_ok (nodes (fw_ct s)) (inds (fw_ct s)) (fw_hyper s) n;
    rv_cc    : ccost_ok (rfw_ccost ar (fw_m s) (dims (fw_ct s)) (fw_sl s)) (nodes (fw_ct s)) (inds (fw_ct s)) (ccost (fw_cc s));
    rv_pc    : fpcost_ok (nodes (fw_ct s)) (ccost (fw_cc s)) (pcost (fw_cc s)) w;
    rv_width : fw_width s = rwidth_cache_make wa (fw_m s) (fw_ct s);
    rv_sl    : length (fw_sl s) = n;
    rv_skip  : skip_len (fw_skip s) n;
    rv_m     : cmodel_ok (fm_cm (fw_m s)) n;
    rv_dims  : dims_positive (dims (fw_ct s))
  }.

  (** Sliced tensors fit: in the arithmetic of the code; exactly, up to [mx]. *)
  Definition rfitted (R : Type) (s : fw_state R) : Prop := forall v, v < length (inds (fw_ct s)) ->
    (rwidth_of wa (fw_m s) (bdiff (ix (inds (fw_ct s)) v) (fw_sl s)) (dims (fw_ct s)) <= fm_max (fw_m s))%Z.
  Definition tfitted (R : Type) (lg : N -> Z) (mx : Z) (s : fw_state R) : Prop := forall v, v < length (inds (fw_ct s)) ->
    (width_of lg (fw_m s) (bdiff (ix (inds (fw_ct s)) v) (fw_sl s)) (dims (fw_ct s)) <= mx)%Z.
  Definition rmay_crash (R : Type) (s : fw_state R) (n : nat) : Prop :=
    0 < fw_maxnew s /\ forall lg K, log_like lg -> (0 <= fm_max (fw_m s))%Z -> wgood lg wa (fw_m s) (dims (fw_ct s)) n K ->
      (fm_max (fw_m s) < set_width lg (fm_cm (fw_m s)) (dims (fw_ct s)) n (omem (fw_skip s)) + K)%Z.
  Definition rtot (R : Type) (s : fw_state R) : Z := zx (pcost (fw_cc s)) (length (nodes (fw_ct s)) - 1).

  Lemma rfinv_rng (R : Type) (s : fw_state R) n w r :
    rfinv s n w -> rfinv (fw_set s (fw_ct s) r (fw_width s) (fw_sl s) (fw_cc s) (fw_hyper s)) n w.
  Proof. intros []. constructor; auto. Qed.
  Lemma rfinv_weaken (R : Type) (s : fw_state R) n (w w' : nat -> Prop) : rfinv s n w -> (forall v, w v -> w' v) -> rfinv s n w'.
  Proof. intros [H1 H2 H3 (L & H4 & H5)] Hw. constructor; auto. split; [auto|split; auto]. Qed.

  Lemma back_nth (t : tree) (ps : list Z) : length ps = length t -> 0 < length t -> back ps = Ok (zx ps (length t - 1)).
  Proof. intros L H. unfold back. rewrite (@get_nth _ _ _ 0%Z) by lia. rewrite zx_nth, L. auto. Qed.

  Lemma rtotal_ok (R : Type) (s : fw_state R) n w : rfinv s n w -> fw_total s = Ok (rtot s).
  Proof. intros HI. destruct (rv_pc HI) as (LP & _). apply back_nth; auto. apply (wl_len (co_wf (rv_core HI))). Qed.

  Lemma rfw_iter_spec (R : Type) (fr : frand R) (s : fw_state R) n total B :
    rfinv s n (fun v => parent (nodes (fw_ct s)) B v) -> B < length (nodes (fw_ct s)) ->
    (exists r, rfw_iter ar wa fr s total B = Ok (fw_set s (fw_ct s) r (fw_width s) (fw_sl s) (fw_cc s) (fw_hyper s), None) /\
       (leaf_at (nodes (fw_ct s)) B \/ forall p, ~ parent (nodes (fw_ct s)) B p)) \/
    (rfw_iter ar wa fr s total B = Err Crash /\ rmay_crash s n) \/
    (exists s' total' A, rfw_iter ar wa fr s total B = Ok (s', Some (total', A)) /\
       parent (nodes (fw_ct s)) B A /\ parent (nodes (fw_ct s')) B A /\
       rfinv s' n (fun v => parent (nodes (fw_ct s')) A v) /\ same_fenv s s' /\
       (forall k, climb (nodes (fw_ct s)) A k -> climb (nodes (fw_ct s')) A k) /\
       (disj s -> disj s') /\
       (fw_maxnew s = 0 -> fw_sl s' = fw_sl s /\ (rfitted s -> rfitted s')) /\
       (forall lg K, log_like lg -> (0 <= fm_max (fw_m s))%Z -> wgood lg wa (fw_m s) (dims (fw_ct s)) n K -> fits_kept s ->
          tfitted lg (fm_max (fw_m s) + K) s -> tfitted lg (fm_max (fw_m s) + K) s') /\
       (fw_ct s' = fw_ct s \/ move (fw_ds s) (fw_ct s) (fw_ct s'))).
  Proof.
    intros [HC HH HK HP HW Lsl Lsk Hcm Hd] LB. pose proof (co_wf HC) as W. pose proof (co_len HC) as LX.
    pose proof HH as (LH & HHk & HHl). pose proof HK as (LK & HKk & HKl). pose proof HP as (LP & HPk & HPl).
    assert (LW : length (fw_width s) = length (nodes (fw_ct s))) by (rewrite HW; unfold rwidth_cache_make; rewrite map_length; auto).
    destruct (nn_spec (fr_base fr) (fw_ds s) (fw_rng s) HC LB)
      as [(r' & E0 & Hb)|(r' & sA & sE & A & C & D & E & pA & nC & nD & nE & E0 & H & Hs)].
    { left. unfold rfw_iter. rewrite E0. simpl. eauto. }
    right. destruct (nbh_lt H) as (LA & _ & LC & LD & LE).
    destruct (nbh_neq H) as (n1&n2&n3&n4&n5&n6&n7&n8&n9&n10).
    unfold rfw_iter. rewrite E0. cbv beta iota zeta. cbn [bind].
    rewrite (@get_nth _ (inds (fw_ct s)) A []), (@get_nth _ (inds (fw_ct s)) B []), (@get_nth _ (inds (fw_ct s)) C []),
      (@get_nth _ (inds (fw_ct s)) D []), (@get_nth _ (inds (fw_ct s)) E []) by lia.
    rewrite (@get_nth _ (fw_hyper s) A []), (@get_nth _ (fw_hyper s) B []) by lia.
    rewrite (@get_nth _ (fw_width s) B 0%Z) by lia.
    rewrite (@get_nth _ (ccost (fw_cc s)) A 0%Z), (@get_nth _ (ccost (fw_cc s)) B 0%Z) by lia.
    rewrite !ix_nth, !zx_nth. cbn [bind].
    rewrite (HHk _ _ _ (nbh_kids2A H)), (HHk _ _ _ (nbh_kids2B H)).
    set (XA := ix (inds (fw_ct s)) A). set (XB := ix (inds (fw_ct s)) B). set (XC := ix (inds (fw_ct s)) C).
    set (XD := ix (inds (fw_ct s)) D). set (XE := ix (inds (fw_ct s)) E).
    fold (newB XA XB XC XD XE). set (nb := newB XA XB XC XD XE).
    set (nw := rwidth_of wa (fw_m s) nb (dims (fw_ct s))).
    set (snb := bdiff nb (fw_sl s)). set (sw := rwidth_of wa (fw_m s) snb (dims (fw_ct s))).
    set (kA' := rfcost_of ar (fw_m s) XA nb XE (dims (fw_ct s)) (fw_sl s)).
    set (kB' := rfcost_of ar (fw_m s) nb XD XC (dims (fw_ct s)) (fw_sl s)).
    set (delta := fadd ar (fsub ar kB' (zx (ccost (fw_cc s)) B)) (fsub ar kA' (zx (ccost (fw_cc s)) A))).
    assert (PB : parent (nodes (fw_ct s)) B A).
    { apply (wl_kp W). apply (nbh_kidA H). auto. }
    assert (Hw : forall v, v <> A -> ~ parent (nodes (fw_ct s)) B v).
    { intros v Hv Hp. apply Hv. eapply parent_fun; eauto. }
    pose proof (rot_core' H HC) as HC'. pose proof (rot_hyper H HC HH) as HH'.
    fold XA XB XC XD XE in HC', HH'. fold nb in HC', HH'.
    set (t' := rot (nodes (fw_ct s)) sA sE A B C D E pA nC nE) in *.
    assert (Lt' : length t' = length (nodes (fw_ct s))) by (unfold t'; apply rot_length).
    assert (Lnb : length nb = n).
    { pose proof (co_sz HC' (v := B)) as Hsz. unfold ix in Hsz. rewrite upd_nth_d in Hsz by lia. rewrite Nat.eqb_refl in Hsz.
      apply Hsz. rewrite Lt'. auto. }
    assert (Lsnb : length snb = n) by (unfold snb; rewrite bdiff_len; congruence).
    pose proof (rot_nbh H) as H'. fold t' in H'.
    assert (PB' : parent t' B A). { apply (wl_kp (co_wf HC')). apply (nbh_kidA H'). auto. }
    assert (Hcl : forall k, climb (nodes (fw_ct s)) A k -> climb t' A k) by (intros k Hk; apply (climb_rot W H Hk)).
    assert (Hmove : move (fw_ds s) (fw_ct s) (mkCT t' (upd (inds (fw_ct s)) B nb) (dims (fw_ct s)))).
    { exists sA, sE, A, B, C, D, E, pA, nC, nD, nE. auto. }
    (* nothing accepted *)
    assert (Hstay : forall r, exists p,
      rpropagate ar (pcost (fw_cc s)) (ccost (fw_cc s)) A B C D E = Ok p /\
      rfinv (fw_set s (fw_ct s) r (fw_width s) (fw_sl s) (mkCC p (ccost (fw_cc s))) (fw_hyper s)) n
        (fun v => parent (nodes (fw_ct s)) A v)).
    { intros r. eexists. split; [apply (rpropagate_ok LP LK); auto|].
      constructor; simpl; auto. apply (P_FloatRun.fpcost_step H W); auto. }
    assert (Hwd : upd (fw_width s) B nw =
      rwidth_cache_make wa (fw_m s) (mkCT t' (upd (inds (fw_ct s)) B nb) (dims (fw_ct s)))).
    { unfold rwidth_cache_make. simpl. rewrite map_upd, HW. auto. }
    assert (Hfit : forall lg mx sl', log_like lg -> length sl' = n -> (forall x, btest (fw_sl s) x = true -> btest sl' x = true) ->
      tfitted lg mx s -> (width_of lg (fw_m s) (bdiff nb sl') (dims (fw_ct s)) <= mx)%Z ->
      forall v, v < length (upd (inds (fw_ct s)) B nb) ->
        (width_of lg (fw_m s) (bdiff (ix (upd (inds (fw_ct s)) B nb) v) sl') (dims (fw_ct s)) <= mx)%Z).
    { intros lg mx sl' Hlog Ls' Hin Hf Hnb v Hv. rewrite upd_length in Hv. unfold ix. rewrite upd_nth_d by lia.
      destruct (Nat.eqb_spec B v) as [<-|Hn]; auto. eapply Z.le_trans; [|apply (Hf v Hv)].
      pose proof (co_sz HC (v := v) ltac:(lia)) as Lv. unfold ix in Lv |- *. unfold bitset in *.
      apply (width_mono (n := n) Hcm Hlog Hd); try (rewrite bdiff_len; congruence).
      intros i. rewrite !bdiff_test by congruence. rewrite !andb_true_iff, !negb_true_iff. intros (G1 & G2). split; auto.
      destruct (btest (fw_sl s) i) eqn:Hb; auto. rewrite (Hin i Hb) in G2. discriminate. }
    destruct (Z.leb_spec sw (fm_max (fw_m s))) as [Hle|Hgt].
    - (* fits *)
      right. destruct (accept (fr_base fr) r' delta total) as (acc & r2) eqn:Eacc. destruct acc.
      2:{ destruct (Hstay r2) as (p & -> & HI'). cbn [bind]. eexists _, _, A. split; [reflexivity|].
          split; [exact PB|]. split; [exact PB|]. split; [exact HI'|]. split; [repeat split; auto|].
          simpl. do 4 (split; [auto|]). auto. }
      rewrite (swap_nbh H). fold t'. cbn [bind].
      repeat (rewrite !set_ok by (rewrite ?upd_length; lia); cbn [bind]).
      set (ks' := upd (upd (ccost (fw_cc s)) B kB') A kA').
      assert (Lk' : length ks' = length (nodes (fw_ct s))) by (unfold ks'; rewrite !upd_length; auto).
      rewrite (@rpropagate_ok (nodes (fw_ct s)) (pcost (fw_cc s)) ks' A B E D C) by auto. cbn [bind].
      eexists _, _, A. split; [reflexivity|]. split; [exact PB|]. split; [exact PB'|].
      pose proof (rot_ccost H HC (rfw_ucost (fw_m s) (dims (fw_ct s)) (fw_sl s)) HK) as HK'.
      fold t' XA XB XC XD XE in HK'. fold nb in HK'.
      split.
      { constructor; simpl; auto.
        apply (P_FloatRun.fpcost_step H' (co_wf HC')); try (rewrite Lt'; auto).
        - intros v a b K vA vB. apply (rot_kids2 a b H vA vB) in K.
          unfold ks'. rewrite !zx_upd_neq by auto. apply HPk; auto.
        - intros v Hv. apply (rot_leaf _ H) in Hv. auto. }
      split. { repeat split; auto. }
      split; [exact Hcl|]. split; [auto|]. split.
      { intros _. split; auto. intros Hf v Hv. simpl in Hv |- *. rewrite upd_length in Hv. unfold ix. rewrite upd_nth_d by lia.
        destruct (Nat.eqb_spec B v) as [<-|Hn]; [exact Hle|]. apply (Hf v Hv). }
      split.
      { intros lg K Hlog _ Hwg _ Hf. unfold tfitted. simpl. apply Hfit; auto. fold snb. apply (wgood_width Hwg Lsnb Hle). }
      right. exact Hmove.
    - destruct (Nat.ltb_spec 0 (fw_maxnew s)) as [Hn0|Hn0].
      2:{ right. destruct (Hstay r') as (p & -> & HI'). cbn [bind]. eexists _, _, A. split; [reflexivity|].
          split; [exact PB|]. split; [exact PB|]. split; [exact HI'|]. split; [repeat split; auto|].
          simpl. do 4 (split; [auto|]). auto. }
      (* new slices *)
      set (pos := bpositions (minus_skip snb (fw_skip s))).
      assert (Lpos : length pos <= n).
      { unfold pos. eapply Nat.le_trans; [apply bcount_len|]. unfold minus_skip, skip_len in *. destruct (fw_skip s) as [k|]; [|lia].
        rewrite bdiff_len; [lia|congruence]. }
      assert (Hafit : forall lg K, wgood lg wa (fw_m s) (dims (fw_ct s)) n K ->
        afit wa (fw_m s) (dims (fw_ct s)) n nb lg K sw 0 (fw_sl s)).
      { intros lg K (e & Ew & Ed & Bd & Wi & ->). exists e, Ew, Ed, Bd. split; auto. split; auto.
        pose proof (wi_w Wi Lsnb) as Hww. fold sw in Hww. unfold wide. fold snb. simpl Z.of_nat. split; [lia|intros _; lia]. }
      destruct (@radd_slices_ok wa R (fr_base fr) (fw_m s) (dims (fw_ct s)) n (fw_skip s) nb Hcm Hd Lnb
                  (fw_maxnew s) pos (length pos) (fw_sl s) sw r')
        as [(Ec & _ & Hc)|(sl' & w' & r2 & Ec & Ls' & Hin & Hout & Hwid)]; auto.
      { rewrite firstn_all. apply bpositions_nodup. }
      { intros x. rewrite firstn_all. unfold pos. rewrite bpositions_in. rewrite (minus_skip_test (n := n) Lsk x Lsnb).
        unfold snb. rewrite bdiff_test by congruence. rewrite !andb_true_iff, !negb_true_iff. tauto. }
      { left. rewrite Ec. split; auto. split; auto. intros lg K Hlog Hmx Hwg.
        specialize (Hc lg K 0 Hlog Hmx (Hafit lg K Hwg) Lpos). eapply Z.lt_le_trans; [exact Hc|]. apply Z.add_le_mono_r.
        apply set_width_mono; auto. intros i _ Hi. apply andb_true_iff in Hi. tauto. }
      right. rewrite Ec. cbn [bind].
      destruct (Z.leb_spec w' (fm_max (fw_m s))) as [Hle'|Hgt'].
      2:{ destruct (Hstay r2) as (p & -> & HI'). cbn [bind]. eexists _, _, A. split; [reflexivity|].
          split; [exact PB|]. split; [exact PB|]. split; [exact HI'|]. split; [repeat split; auto|].
          simpl. do 4 (split; [auto|]). auto. }
      rewrite set_ok by lia. cbn [bind]. rewrite (swap_nbh H). fold t'. cbn [bind].
      set (c' := mkCT t' (upd (inds (fw_ct s)) B nb) (dims (fw_ct s))).
      destruct (@rcache_ex (fw_m s) (dims (fw_ct s)) sl' c' n HC') as (k & -> & HK2 & HP2). cbn [bind].
      pose proof (@back_nth t' (pcost k) (proj1 HP2) ltac:(lia)) as Eb. rewrite Eb. cbn [bind].
      set (nt := zx (pcost k) (length t' - 1)).
      destruct (accept (fr_base fr) r2 (fsub ar nt total) total) as (acc & r3) eqn:Eacc. destruct acc.
      + repeat (rewrite !set_ok by (rewrite ?upd_length; lia); cbn [bind]).
        eexists _, _, A. split; [reflexivity|]. split; [exact PB|]. split; [exact PB'|]. split.
        { constructor; simpl; auto. destruct HP2 as (Q1 & Q2 & Q3). split; [exact Q1|]. split; [|exact Q3].
          intros v a b Kv _. apply Q2; auto. }
        split. { repeat split; auto. }
        split; [exact Hcl|]. split.
        { intros Hdj x Hx. simpl in *. destruct (Hout x Hx) as [Hx'|Hx']; auto. }
        split. { intros Hz. lia. }
        split.
        { intros lg K Hlog Hmx Hwg [Hsi|Hsi] Hf; [|lia]. unfold tfitted. simpl. apply Hfit; auto.
          specialize (Hwid lg K 0 Hlog Hmx (Hafit lg K Hwg) Lpos Hsi). unfold wide in Hwid. lia. }
        right. exact Hmove.
      + (* swapped back *)
        pose proof (rot_rot H) as Err. fold t' in Err. rewrite Err. cbn [bind].
        rewrite set_ok by (rewrite upd_length; lia). cbn [bind].
        rewrite upd_upd, (@upd_same _ (inds (fw_ct s)) B XB) by (unfold XB, ix; apply nth_error_nth'; lia).
        destruct (Hstay r3) as (p & -> & HI'). cbn [bind]. eexists _, _, A. split; [reflexivity|].
        replace (mkCT (nodes (fw_ct s)) (inds (fw_ct s)) (dims (fw_ct s))) with (fw_ct s) by (destruct (fw_ct s); auto).
        split; [exact PB|]. split; [exact PB|]. split; [exact HI'|]. split; [repeat split; auto|].
        simpl. do 4 (split; [auto|]). auto.
  Qed.

  Lemma rfw_loop_spec (R : Type) (fr : frand R) : forall k fuel (s : fw_state R) n total B,
    rfinv s n (fun v => parent (nodes (fw_ct s)) B v) ->
    climb (nodes (fw_ct s)) B k -> ~ leaf_at (nodes (fw_ct s)) B -> k < fuel ->
    (rfw_loop ar wa fr fuel s total B = Err Crash /\ rmay_crash s n) \/
    exists s', rfw_loop ar wa fr fuel s total B = Ok s' /\ rfinv s' n none /\ same_fenv s s' /\
      (disj s -> disj s') /\
      (fw_maxnew s = 0 -> fw_sl s' = fw_sl s /\ (rfitted s -> rfitted s')) /\
      (forall lg K, log_like lg -> (0 <= fm_max (fw_m s))%Z -> wgood lg wa (fw_m s) (dims (fw_ct s)) n K -> fits_kept s ->
          tfitted lg (fm_max (fw_m s) + K) s -> tfitted lg (fm_max (fw_m s) + K) s') /\
      moves (fw_ds s) (fw_ct s) (fw_ct s').
  Proof.
    induction k as [|k IH]; intros fuel s n total B HI Hc Hlf Hf; (destruct fuel as [|f]; [lia|]); cbn [rfw_loop];
      pose proof (climb_lt (co_wf (rv_core HI)) Hc) as LB;
      destruct (rfw_iter_spec fr total HI LB) as [(r & E & Hb)|[(E & Hcr)|(s' & tot' & A & E & PB & PB' & HI' & Henv & Hcl & Hdj & Hz & Hfi & Hm)]];
      rewrite E; cbn [bind].
    - right. eexists. split; [reflexivity|]. inversion Hc as [? ? Hnp|]; subst.
      split; [apply (rfinv_weaken (rfinv_rng r HI)); intros v Hv; eapply Hnp; eauto|].
      split; [repeat split; auto|]. split; [auto|]. split; [auto|]. split; [auto|]. simpl. constructor.
    - left. auto.
    - exfalso. inversion Hc as [? ? Hnp|]; subst. eapply Hnp; eauto.
    - exfalso. destruct Hb as [Hb|Hb]; [contradiction|]. inversion Hc; subst. eapply Hb; eauto.
    - left. auto.
    - inversion Hc as [|? p ? Hp Hc']; subst.
      assert (p = A) by (eapply parent_fun; eauto). subst p.
      assert (HnA : ~ leaf_at (nodes (fw_ct s')) A).
      { intros (q & Hq). apply (wl_kp (co_wf (rv_core HI'))) in PB'. destruct PB' as (m & Hm' & Hk). rewrite Hq in Hm'.
        inversion Hm'; subst. simpl in Hk. destruct Hk; discriminate. }
      destruct Henv as (D1 & D2 & D3 & D4 & D5 & D6 & D7).
      assert (Ed : dims (fw_ct s') = dims (fw_ct s)).
      { destruct Hm as [->|Hm]; auto. eapply move_dims1; eauto. }
      destruct (IH f s' n tot' A HI' (Hcl _ Hc') HnA ltac:(lia)) as [(E2 & Hcr)|(s2 & E2 & HI2 & Henv2 & Hdj2 & Hz2 & Hfi2 & HP2)].
      + left. split; auto. unfold rmay_crash in *. rewrite D3, D4, D5, Ed in Hcr. auto.
      + right. exists s2. split; [exact E2|]. split; [exact HI2|].
        destruct Henv2 as (F1 & F2 & F3 & F4 & F5 & F6 & F7).
        split; [repeat split; congruence|]. split; [auto|]. split.
        { intros H0. destruct (Hz H0) as (Q1 & Q2). rewrite D4 in Hz2. destruct (Hz2 H0) as (Q3 & Q4). split; [congruence|auto]. }
        split.
        { intros lg K Hlog Hmx Hwg Hk Hfit. rewrite D3, Ed in Hfi2. apply Hfi2; auto. unfold fits_kept in *. rewrite D3, D4. auto. }
        destruct Hm as [Ec|Hm].
        * rewrite <- Ec, <- D1. exact HP2.
        * rewrite D1 in HP2. econstructor; eauto.
  Qed.

  (** ** New slices for the current tree *)
  Lemma rfinv_shaped (R : Type) (s : fw_state R) n w : rfinv s n w -> shaped (fw_ct s) n.
  Proof.
    intros HI. pose proof (rv_core HI) as HC. split; [apply (co_len HC)|]. intros b Hb.
    apply (In_nth _ _ []) in Hb. destruct Hb as (v & Hv & <-). apply (co_sz HC (v := v)). rewrite <- (co_len HC). auto.
  Qed.

  Lemma tfitted_skip (R : Type) lg mx (s : fw_state R) n w : log_like lg -> rfinv s n w -> disj s -> tfitted lg mx s ->
    forall v, v < length (inds (fw_ct s)) -> rskip_fit (fw_m s) (fw_ct s) n (fw_skip s) lg mx v.
  Proof.
    intros Hlog HI Hdj Hf v Hv. specialize (Hf v Hv). unfold rskip_fit. eapply Z.le_trans; [|exact Hf].
    pose proof (co_sz (rv_core HI) (v := v) ltac:(rewrite <- (co_len (rv_core HI)); auto)) as Lv.
    pose proof (rv_sl HI) as Ls. rewrite (@width_spec lg _ _ _ n) by (try apply (rv_m HI); rewrite bdiff_len; congruence).
    apply set_width_mono; auto; [apply (rv_dims HI)|]. intros x Hx Hb. apply andb_true_iff in Hb. destruct Hb as (H1 & H2).
    change (mem (bdiff (ix (inds (fw_ct s)) v) (fw_sl s)) x) with (btest (bdiff (ix (inds (fw_ct s)) v) (fw_sl s)) x).
    rewrite bdiff_test by congruence.
    change (carries (fw_ct s) v x) with (btest (ix (inds (fw_ct s)) v) x) in H1. rewrite H1. simpl.
    destruct (btest (fw_sl s) x) eqn:Hb; auto. rewrite (Hdj x Hb) in H2. discriminate.
  Qed.

  Lemma rfw_reslice_spec (R : Type) (fr : frand R) b (s : fw_state R) n : shuffles fr -> rfinv s n none ->
    exists s', rfw_reslice ar wa fr b s = Ok s' /\ rfinv s' n none /\ same_fenv s s' /\ fw_ct s' = fw_ct s /\
      (rtot s' <= rtot s)%Z /\ (disj s -> disj s') /\ (b = false -> s' = s) /\
      (forall lg K, log_like lg -> wgood lg wa (fw_m s) (dims (fw_ct s)) n K -> disj s ->
         tfitted lg (fm_max (fw_m s) + K) s -> tfitted lg (fm_max (fw_m s) + K) s').
  Proof.
    intros Hsh HI. unfold rfw_reslice. destruct (b && bany (fw_sl s)) eqn:Eb.
    2:{ exists s. split; auto. split; auto. split; [repeat split; auto|]. split; auto. split; [lia|]. split; auto. }
    rewrite (rv_width HI).
    destruct (@rget_slices_ok wa R (fw_m s) fr (fw_ct s) n (fw_skip s) (rv_m HI) (rv_dims HI) Hsh
      (proj2 (wf_iff _) (co_wf (rv_core HI))) (rfinv_shaped HI) (rv_skip HI) (fw_rng s)) as (sl & r & -> & (G1 & G2) & Gf).
    cbn [bind]. destruct (@rcache_ex (fw_m s) (dims (fw_ct s)) sl (fw_ct s) n (rv_core HI)) as (k & -> & HK & HP). cbn [bind].
    rewrite (@back_nth (nodes (fw_ct s)) (pcost k) (proj1 HP) (wl_len (co_wf (rv_core HI)))). cbn [bind]. rewrite (rtotal_ok HI). cbn [bind].
    assert (Hb : b = true) by (destruct b; auto; discriminate).
    destruct (Z.ltb_spec (zx (pcost k) (length (nodes (fw_ct s)) - 1)) (rtot s)) as [Hlt|Hge]; (eexists; split; [reflexivity|]).
    - split. { destruct HI. constructor; auto. } split; [repeat split; auto|]. split; auto.
      split; [unfold rtot at 1; simpl; lia|]. split; [intros _ x Hx; apply G2; auto|]. split; [congruence|].
      intros lg K Hlog Hwg Hdj Hf v Hv. simpl in *. apply Gf; auto. eapply tfitted_skip; eauto.
    - rewrite <- (rv_width HI). split; [apply rfinv_rng; auto|]. split; [repeat split; auto|]. split; auto. split; [unfold rtot; simpl; lia|].
      split; [auto|]. split; [congruence|auto].
  Qed.

  (** ** One update *)
  Lemma rfw_update_spec (R : Type) (fr : frand R) b (s : fw_state R) n : shuffles fr -> rfinv s n none ->
    (rfw_update ar wa fr b s = Err Crash /\ rmay_crash s n) \/
    exists s', rfw_update ar wa fr b s = Ok s' /\ rfinv s' n none /\
      fw_ds s' = fw_ds s /\ fw_m s' = fw_m s /\ fw_maxnew s' = fw_maxnew s /\ fw_skip s' = fw_skip s /\
      moves (fw_ds s) (fw_ct s) (fw_ct s') /\
      (disj s -> disj s') /\
      (fw_maxnew s = 0 -> b = false -> fw_sl s' = fw_sl s /\ (rfitted s -> rfitted s')) /\
      (forall lg K, log_like lg -> (0 <= fm_max (fw_m s))%Z -> wgood lg wa (fw_m s) (dims (fw_ct s)) n K -> disj s -> fits_kept s ->
          tfitted lg (fm_max (fw_m s) + K) s -> tfitted lg (fm_max (fw_m s) + K) s') /\
      ((fw_min_ct s' = fw_min_ct s /\ fw_min_sl s' = fw_min_sl s /\ fw_min s' = fw_min s /\
          (1 < length (nodes (fw_ct s)) -> (fw_min s <= rtot s')%Z)) \/
       (fw_min_ct s' = fw_ct s' /\ fw_min_sl s' = fw_sl s' /\ fw_min s' = rtot s' /\ (rtot s' < fw_min s)%Z)).
  Proof.
    intros Hsh HI. unfold rfw_update. destruct (draw (fr_base fr) (fw_rng s)) as (x & r0).
    pose proof (rv_core HI) as HC. pose proof (co_wf HC) as W. destruct (n_leaves_pos W) as (N0 & N1).
    set (l := x mod n_leaves (nodes (fw_ct s))).
    assert (Ll : l < n_leaves (nodes (fw_ct s))) by (apply Nat.mod_upper_bound; lia).
    assert (Lx : l < length (nodes (fw_ct s))) by lia.
    destruct (get_lt Lx) as (nd & -> & Hn). cbn [bind].
    destruct (par nd) as [B|] eqn:Ep.
    2:{ right. eexists _. split; [reflexivity|]. split; [apply rfinv_rng; auto|]. simpl.
        do 4 (split; [auto|]). split; [constructor|]. split; [auto|]. split; [auto|]. split; [auto|].
        left. repeat split; auto. intros HL. exfalso.
        assert (l = length (nodes (fw_ct s)) - 1).
        { apply (wl_root W); auto. intros p (m & Hm & Hp). congruence. }
        unfold n_leaves in Ll.
        assert ((length (nodes (fw_ct s)) + 1) / 2 < length (nodes (fw_ct s))) by (apply Nat.div_lt_upper_bound; lia). lia. }
    rewrite (rtotal_ok (rfinv_rng r0 HI)). cbn [bind].
    set (s0 := fw_set s (fw_ct s) r0 (fw_width s) (fw_sl s) (fw_cc s) (fw_hyper s)).
    assert (PB : parent (nodes (fw_ct s)) l B) by (exists nd; auto).
    pose proof (parent_lt W PB) as LB. destruct (climb_ex W LB) as (k & Hk).
    assert (HnB : ~ leaf_at (nodes (fw_ct s)) B).
    { intros (q & Hq). apply (wl_kp W) in PB. destruct PB as (m & Hm & Hkk). rewrite Hq in Hm.
      inversion Hm; subst. simpl in Hkk. destruct Hkk; discriminate. }
    destruct (@rfw_loop_spec R fr k (length (nodes (fw_ct s))) s0 n (rtot s0) B)
      as [(E1 & Hcr)|(s1 & E1 & HI1 & (D1 & D2 & D3 & D4 & D5 & D6 & D7) & Hdj1 & Hz1 & Hfi1 & HP1)]; auto.
    { apply (rfinv_weaken (rfinv_rng r0 HI)). intros v []. }
    { simpl. apply (climb_bound W Hk). }
    { left. rewrite E1. auto. }
    right. rewrite E1. cbn [bind].
    destruct (rfw_reslice_spec b Hsh HI1) as (s2 & E2 & HI2 & (F1 & F2 & F3 & F4 & F5 & F6 & F7) & Ec & Hle & Hdj2 & Hz2 & Hfi2).
    rewrite E2. cbn [bind]. unfold fw_update_min. rewrite (rtotal_ok HI2). cbn [bind].
    simpl in D1, D2, D3, D4, D5, D6, D7, HP1. rewrite <- Ec in HP1.
    assert (Ed : dims (fw_ct s1) = dims (fw_ct s)) by (rewrite <- Ec; apply (moves_dims HP1)).
    assert (Hfin : (disj s -> disj s2) /\
      (fw_maxnew s = 0 -> b = false -> fw_sl s2 = fw_sl s /\ (rfitted s -> rfitted s2)) /\
      (forall lg K, log_like lg -> (0 <= fm_max (fw_m s))%Z -> wgood lg wa (fw_m s) (dims (fw_ct s)) n K -> disj s -> fits_kept s ->
          tfitted lg (fm_max (fw_m s) + K) s -> tfitted lg (fm_max (fw_m s) + K) s2)).
    { split; [auto|]. split.
      - intros H0 Hb. rewrite (Hz2 Hb). apply (Hz1 H0).
      - intros lg K Hlog Hmx Hwg Hd Hk' Hf. rewrite D3, Ed in Hfi2. apply Hfi2; auto. }
    destruct Hfin as (Q1 & Q2 & Q3).
    destruct (Z.ltb_spec (rtot s2) (fw_min s2)) as [Hlt|Hge]; eexists _; (split; [reflexivity|]); simpl.
    - split; [destruct HI2; constructor; auto|]. do 4 (split; [congruence|]). split; [exact HP1|].
      split; [exact Q1|]. split; [exact Q2|]. split; [exact Q3|].
      right. repeat split; auto. rewrite <- D7, <- F7. exact Hlt.
    - split; auto. do 4 (split; [congruence|]). split; [exact HP1|].
      split; [exact Q1|]. split; [exact Q2|]. split; [exact Q3|].
      left. split; [congruence|]. split; [congruence|]. split; [congruence|]. intros _. rewrite <- D7, <- F7. exact Hge.
  Qed.

  (** ** Sessions *)

  Lemma rmay_crash_eq (R : Type) (s s' : fw_state R) n : fw_m s' = fw_m s -> fw_maxnew s' = fw_maxnew s ->
    fw_skip s' = fw_skip s -> dims (fw_ct s') = dims (fw_ct s) -> rmay_crash s' n -> rmay_crash s n.
  Proof. unfold rmay_crash. intros -> -> -> ->. auto. Qed.

  (** What an update or a session keeps. *)
  Definition kept (R : Type) (s s' : fw_state R) (n : nat) (nr : Prop) : Prop :=
    rfinv s' n none /\ fw_ds s' = fw_ds s /\ fw_m s' = fw_m s /\ fw_maxnew s' = fw_maxnew s /\ fw_skip s' = fw_skip s /\
    moves (fw_ds s) (fw_ct s) (fw_ct s') /\ (disj s -> disj s') /\
    (fw_maxnew s = 0 -> nr -> fw_sl s' = fw_sl s /\ (rfitted s -> rfitted s')) /\
    (forall lg K, log_like lg -> (0 <= fm_max (fw_m s))%Z -> wgood lg wa (fw_m s) (dims (fw_ct s)) n K -> disj s -> fits_kept s ->
        tfitted lg (fm_max (fw_m s) + K) s -> tfitted lg (fm_max (fw_m s) + K) s').

  Lemma kept_refl (R : Type) (s : fw_state R) n nr : rfinv s n none -> kept s s n nr.
  Proof. intros HI. do 5 (split; [auto|]). split; [constructor|]. auto. Qed.
  Lemma kept_trans (R : Type) (s s1 s2 : fw_state R) n (p q r : Prop) : (r -> p /\ q) -> kept s s1 n p -> kept s1 s2 n q -> kept s s2 n r.
  Proof.
    intros Hr (I1 & D1 & D2 & D3 & D4 & P1 & J1 & Z1 & F1) (I2 & E1 & E2 & E3 & E4 & P2 & J2 & Z2 & F2).
    split; [auto|]. do 4 (split; [congruence|]). split; [rewrite D1 in P2; eapply moves_trans; eauto|]. split; [auto|]. split.
    - intros H0 Hq. destruct (Hr Hq) as (Hp & Hq'). destruct (Z1 H0 Hp) as (A1 & A2).
      destruct (Z2 ltac:(congruence) Hq') as (B1 & B2). split; [congruence|auto].
    - intros lg K Hlog Hmx Hwg Hd Hk Hf. rewrite D2, (moves_dims P1) in F2. apply F2; auto. unfold fits_kept in *. rewrite D2, D3. auto.
  Qed.

  Lemma rfw_run_ok (R : Type) n : forall (us : list (frand R * bool)) s, all_shuffle us -> rfinv s n none ->
    (rfw_run ar wa us s = Err Crash /\ rmay_crash s n) \/
    exists s', rfw_run ar wa us s = Ok s' /\ kept s s' n (no_reslice us).
  Proof.
    induction us as [|(fr & b) us IH]; intros s Hsh HI; cbn [rfw_run].
    - right. exists s. split; auto. apply kept_refl; auto.
    - inversion Hsh as [|? ? Hs1 Hs2]; subst. simpl in Hs1.
      destruct (rfw_update_spec b Hs1 HI) as [(E1 & Hcr)|(s1 & E1 & HI1 & D1 & D2 & D3 & D4 & P1 & Hd1 & Hz1 & Hf1 & _)];
        rewrite E1; cbn [bind]; [left; auto|].
      destruct (IH s1 Hs2 HI1) as [(E2 & Hcr)|(s2 & E2 & K2)].
      + left. split; auto. eapply rmay_crash_eq; [..|exact Hcr]; auto. apply (moves_dims P1).
      + right. exists s2. split; auto. apply (@kept_trans R s s1 s2 n (b = false) (no_reslice us)).
        * intros Hnr. inversion Hnr; auto.
        * unfold kept. do 7 (split; [assumption|]). split; assumption.
        * exact K2.
  Qed.

  Lemma rfw_run_app (R : Type) (us1 us2 : list (frand R * bool)) s s1 : rfw_run ar wa us1 s = Ok s1 ->
    rfw_run ar wa (us1 ++ us2) s = rfw_run ar wa us2 s1.
  Proof.
    revert s. induction us1 as [|(fr & b) us IH]; simpl; intros s H; [congruence|].
    apply bind_ok in H. destruct H as (s' & E & H). rewrite E. cbn [bind]. auto.
  Qed.

  Lemma rfw_run_min (R : Type) n : forall (us : list (frand R * bool)) s s', all_shuffle us -> rfinv s n none ->
    rfw_run ar wa us s = Ok s' ->
    (fw_min s' <= fw_min s)%Z /\
    ((fw_min_ct s' = fw_min_ct s /\ fw_min_sl s' = fw_min_sl s /\ fw_min s' = fw_min s) \/
     exists us1 us2 s1, us = us1 ++ us2 /\ us1 <> [] /\ rfw_run ar wa us1 s = Ok s1 /\ kept s s1 n (no_reslice us1) /\
       fw_min_ct s' = fw_ct s1 /\ fw_min_sl s' = fw_sl s1 /\ fw_min s' = rtot s1).
  Proof.
    induction us as [|(fr & b) us IH]; intros s s' Hsh HI H; cbn [rfw_run] in H.
    - inversion H; subst. split; [lia|]. left. auto.
    - inversion Hsh as [|? ? Hs1 Hs2]; subst. simpl in Hs1. apply bind_ok in H. destruct H as (s1 & H1 & H2).
      destruct (rfw_update_spec b Hs1 HI) as [(E1 & _)|(s1' & E1 & HI1 & D1 & D2 & D3 & D4 & P1 & Hd1 & Hz1 & Hf1 & Hm)];
        rewrite E1 in H1; [discriminate|]. inversion H1; subst s1'.
      destruct (IH s1 s' Hs2 HI1 H2) as (Hle & Hc).
      assert (Hle1 : (fw_min s1 <= fw_min s)%Z) by (destruct Hm as [(_ & _ & -> & _)|(_ & _ & -> & ?)]; lia).
      split; [lia|].
      assert (K1 : kept s s1 n (b = false)) by (unfold kept; do 7 (split; [assumption|]); split; assumption).
      destruct Hc as [(Ec & Es & Em)|(us1 & us2 & s2 & -> & Hne & Hr & K2 & Ec & Es & Em)].
      + destruct Hm as [(E3 & E4 & E5 & _)|(E3 & E4 & E5 & _)].
        * left. repeat split; congruence.
        * right. exists [(fr, b)], us, s1. split; auto. split; [discriminate|]. cbn [rfw_run]. rewrite E1. cbn [bind].
          split; auto. split.
          { eapply kept_trans; [|exact K1|apply (@kept_refl R s1 n True); auto]. intros Hnr. inversion Hnr; auto. }
          repeat split; congruence.
      + right. exists ((fr, b) :: us1), us2, s2. split; auto. split; [discriminate|]. cbn [rfw_run]. rewrite E1. cbn [bind].
        split; auto. split; auto. eapply kept_trans; [|exact K1|exact K2]. intros Hnr. inversion Hnr; auto.
  Qed.

  Lemma rfw_run_below (R : Type) n : forall (us : list (frand R * bool)) s s', all_shuffle us -> rfinv s n none -> 1 < length (nodes (fw_ct s)) ->
    us <> [] -> rfw_run ar wa us s = Ok s' -> (fw_min s' <= rtot s')%Z.
  Proof.
    intros us. induction us as [|(fr & b) us IH] using rev_ind; intros s s' Hsh HI HL Hne H; [congruence|].
    apply Forall_app in Hsh. destruct Hsh as (Hs1 & Hs2). inversion Hs2 as [|? ? Hs3 _]; subst. simpl in Hs3.
    destruct (rfw_run_ok Hs1 HI) as [(E1 & _)|(s1 & E1 & K1)].
    { exfalso. clear - E1 H. revert s E1 H. induction us as [|(f & c) us IH]; intros s E1 H; [discriminate|]. cbn [rfw_run app] in *.
      destruct (rfw_update ar wa f c s); cbn [bind] in *; [eauto|discriminate]. }
    rewrite (rfw_run_app _ E1) in H. cbn [rfw_run] in H. pose proof K1 as (HI1 & _ & _ & _ & _ & P1 & _).
    destruct (rfw_update_spec b Hs3 HI1) as [(E2 & _)|(s2 & E2 & HI2 & _ & _ & _ & _ & _ & _ & _ & _ & Hm)]; rewrite E2 in H; [discriminate|].
    cbn [bind] in H. inversion H; subst s2.
    assert (HL1 : 1 < length (nodes (fw_ct s1))).
    { destruct (moves_keep (rv_core HI) P1) as (-> & _). auto. }
    destruct Hm as [(_ & _ & -> & Hm)|(_ & _ & -> & _)]; [auto|lia].
  Qed.

  (** ** The constructor *)
  Definition rthe_fmin (R : Type) (s : fw_state R) : Prop :=
    fget_cost ar (rfw_ccost ar (fw_m s) (dims (fw_min_ct s)) (fw_min_sl s)) (fw_min_ct s) = Ok (fw_min s).
  Definition rmin_fits (R : Type) (s : fw_state R) : Prop :=
    forallb (rfits wa (fw_m s) (dims (fw_ct s)) (fw_min_sl s)) (inds (fw_min_ct s)) = true.

  Lemma rfitted_forall (R : Type) (s : fw_state R) : rfitted s <->
    forallb (rfits wa (fw_m s) (dims (fw_ct s)) (fw_sl s)) (inds (fw_ct s)) = true.
  Proof.
    rewrite forallb_forall. unfold rfitted, rfits. split.
    - intros H b Hb. apply (In_nth _ _ []) in Hb. destruct Hb as (v & Hv & <-). apply Z.leb_le. apply (H v Hv).
    - intros H v Hv. apply Z.leb_le. apply H. apply nth_In. auto.
  Qed.

  Lemma rfw_make_inv (R : Type) (fr : frand R) c m maxnew (r : R) ds skip mc sl msl s :
    wfl (nodes c) -> shuffles fr -> cmodel_ok (fm_cm m) (n_inds c) -> skip_len skip (n_inds c) ->
    (forall k, sl = Some k -> length k = n_inds c) ->
    rfw_make ar wa fr c m maxnew r ds skip mc sl msl = Ok s ->
    rfinv s (n_inds c) none /\ rthe_fmin s /\ rfitted s /\ rmin_fits s /\
    fw_ct s = c /\ fw_ds s = ds /\ fw_m s = m /\ fw_maxnew s = maxnew /\ fw_skip s = skip /\
    fw_min_ct s = match mc with Some x => x | None => c end /\
    match sl with Some k => fw_sl s = k | None => forall x, btest (fw_sl s) x = true -> omem skip x = false end /\
    fw_min_sl s = match msl with Some k => k | None => fw_sl s end /\
    ctree_is_valid c (negb ds) = true /\ ctree_is_valid (fw_min_ct s) (negb ds) = true /\
    (0 < rtot s)%Z /\ (0 < fw_min s)%Z.
  Proof.
    intros W Hsh Hcm Hsk Hsl H. unfold rfw_make in H. set (mct := match mc with Some x => x | None => c end) in *.
    destruct (base_is_valid c mct ds) eqn:Hb; cbn [negb] in H; [|discriminate H].
    unfold base_is_valid in Hb. apply andb_true_iff in Hb. destruct Hb as (V1 & V2).
    destruct (valid_core W V1) as (HC & HD & HS). pose proof (dims_ok_positive HD) as Hdp.
    assert (Hshp : shaped c (n_inds c)).
    { split; [apply (co_len HC)|]. intros b Hb. apply (In_nth _ _ []) in Hb. destruct Hb as (v & Hv & <-).
      apply (co_sz HC (v := v)). rewrite <- (co_len HC). auto. }
    cbv zeta in H. apply bind_ok in H. destruct H as ((sl1 & r1) & Esl & H).
    assert (Hs1 : length sl1 = n_inds c /\ match sl with Some k => sl1 = k | None =>
      forall x, btest sl1 x = true -> omem skip x = false end).
    { destruct sl as [k|].
      - inversion Esl; subst. split; auto.
      - destruct (@rget_slices_ok wa R m fr c (n_inds c) skip Hcm Hdp Hsh (proj2 (wf_iff _) W) Hshp Hsk r)
          as (sl2 & r2 & E2 & (G1 & G2) & _). rewrite E2 in Esl. inversion Esl; subst. auto. }
    destruct Hs1 as (Ls1 & Hs1).
    destruct (@rcache_ex m (dims c) sl1 c (n_inds c) HC) as (k & Ek & HK & HP). rewrite Ek in H. cbn [bind] in H.
    destruct (hyper_exists HC) as (hs & HH).
    rewrite (hyper_fold HC HH eq_refl) in H. cbn [bind] in H.
    set (msl1 := match msl with Some x => x | None => sl1 end) in *.
    destruct (fget_cost ar (rfw_ccost ar m (dims mct) msl1) mct) as [mt|] eqn:Emt; cbn [bind] in H; [|discriminate].
    set (st := mkFW c ds r1 mct m maxnew (rwidth_cache_make wa m c) skip sl1 msl1 k hs mt) in *.
    assert (HI : rfinv st (n_inds c) none) by (constructor; auto).
    rewrite (rtotal_ok HI) in H. cbn [bind] in H.
    destruct ((rtot st <=? 0)%Z || (mt <=? 0)%Z) eqn:Hz; [discriminate|].
    apply orb_false_iff in Hz. destruct Hz as (Z1 & Z2). apply Z.leb_gt in Z1. apply Z.leb_gt in Z2.
    destruct (rfw_is_valid ar wa st) eqn:Hv; [|discriminate]. inversion H; subst s. clear H.
    unfold rfw_is_valid in Hv. rewrite !andb_true_iff in Hv. destruct Hv as ((((((_ & _) & Hf) & Hmf) & _) & _) & _).
    split; [exact HI|]. split; [exact Emt|]. split; [apply rfitted_forall; exact Hf|]. split; [exact Hmf|].
    do 6 (split; [reflexivity|]). split; [destruct sl; exact Hs1|].
    split; [reflexivity|]. auto.
  Qed.
End Run.
