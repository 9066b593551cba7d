(** Runs of the optimizer with rounded costs: invariant, termination, moves. *)
From Coq Require Import Permutation Relations.
From Verif Require Import M_Base M_Bitset M_Tree M_CTree M_Cost M_Opt M_InfMem M_Float S_Tree S_Opt
  P_Base P_Bitset P_Tree P_Shape P_TreeProps P_TreeValid P_Opt P_OptCost P_InfMem P_Canon P_Cost P_InfMemMain.
Set Implicit Arguments.
Unset Strict Implicit.

Section Run.
  Variable ar : arith.

  Lemma fadd_comm a b : fadd ar a b = fadd ar b a.
  Proof. unfold fadd. rewrite Z.add_comm. auto. Qed.

  Lemma fccost_ucost m d : ucost (fim_ccost ar m d).
  Proof. intros a b c a' b' c' E. unfold fim_ccost, fccost_of. rewrite E. auto. Qed.

  (** [z] is a rounded sum of [k], [x] and [y], in one of the orders of the code. *)
  Definition psum (k x y z : Z) : Prop :=
    z = fadd ar (fadd ar x y) k \/ z = fadd ar (fadd ar k x) y \/ z = fadd ar (fadd ar k y) x.

  Lemma psum_sym k x y z : psum k x y z -> psum k y x z.
  Proof. unfold psum. rewrite (fadd_comm y x). tauto. Qed.

  Definition fpcost_ok (t : tree) (ks ps : list Z) (w : nat -> Prop) : Prop :=
    length ps = length t /\
    (forall v a b, kids2 t v a b -> ~ w v -> psum (zx ks v) (zx ps a) (zx ps b) (zx ps v)) /\
    (forall v, leaf_at t v -> zx ps v = 0%Z).

  Lemma fpcost_step t sA sE A B C D E pA nC nD nE ks ps :
    nbh t sA sE A B C D E pA nC nD nE -> wfl t ->
    length ks = length t ->
    length ps = length t ->
    (forall v a b, kids2 t v a b -> v <> A -> v <> B -> psum (zx ks v) (zx ps a) (zx ps b) (zx ps v)) ->
    (forall v, leaf_at t v -> zx ps v = 0%Z) ->
    let p1 := upd ps B (fadd ar (fadd ar (zx ps D) (zx ps E)) (zx ks B)) in
    let p2 := upd p1 A (fadd ar (fadd ar (zx p1 B) (zx p1 C)) (zx ks A)) in
    fpcost_ok t ks p2 (fun v => parent t A v).
  Proof.
    intros H W Lk Lp Hk Hlf p1 p2. destruct (nbh_lt H) as (LA & LB & LC & LD & LE).
    destruct (nbh_neq H) as (n1&n2&n3&n4&n5&n6&n7&n8&n9&n10).
    assert (L1 : length p1 = length t) by (unfold p1; rewrite upd_length; auto).
    assert (P2A : zx p2 A = fadd ar (fadd ar (zx p2 B) (zx p2 C)) (zx ks A)).
    { unfold p2, zx. rewrite upd_nth_eq by lia. rewrite !upd_nth_neq by auto. auto. }
    assert (P2B : zx p2 B = fadd ar (fadd ar (zx p2 D) (zx p2 E)) (zx ks B)).
    { unfold p2, p1, zx. rewrite upd_nth_neq by auto. rewrite upd_nth_eq by lia.
      rewrite !upd_nth_neq by auto. auto. }
    assert (PO : forall v, v <> A -> v <> B -> zx p2 v = zx ps v).
    { intros v vA vB. unfold p2, p1, zx. rewrite !upd_nth_neq by auto. auto. }
    split; [|split].
    - unfold p2. rewrite upd_length. auto.
    - intros v a b K Hw.
      destruct (Nat.eq_dec v A) as [->|vA].
      { assert (G : psum (zx ks A) (zx p2 B) (zx p2 C) (zx p2 A)) by (left; exact P2A).
        destruct (kids2_fun (nbh_kids2A H) K) as [(-> & ->)|(-> & ->)]; auto using psum_sym. }
      destruct (Nat.eq_dec v B) as [->|vB].
      { assert (G : psum (zx ks B) (zx p2 D) (zx p2 E) (zx p2 B)) by (left; exact P2B).
        destruct (kids2_fun (nbh_kids2B H) K) as [(-> & ->)|(-> & ->)]; auto using psum_sym. }
      destruct (other_kids H W K vA) as (aB & bB).
      destruct (kids2_kid K) as (Ka & Kb).
      assert (aA : a <> A) by (intros ->; apply Hw; apply (wl_kp W); auto).
      assert (bA : b <> A) by (intros ->; apply Hw; apply (wl_kp W); auto).
      rewrite !PO by auto. apply Hk; auto.
    - intros v Hv. rewrite PO; auto; intros ->.
      + eapply leaf_not_kids; [exact Hv|exact (nbh_kids2A H)].
      + eapply leaf_not_kids; [exact Hv|exact (nbh_kids2B H)].
  Qed.

  Record finv (R : Type) (s : im_state R) (n : nat) (w : nat -> Prop) : Prop := {
    fv_core  : core (nodes (im_ct s)) (inds (im_ct s)) n;
    fv_hyper : hyper_ok (nodes (im_ct s)) (inds (im_ct s)) (im_hyper s) n;
    fv_cc    : ccost_ok (fim_ccost ar (im_cm s) (dims (im_ct s))) (nodes (im_ct s)) (inds (im_ct s)) (ccost (im_cc s));
    fv_pc    : fpcost_ok (nodes (im_ct s)) (ccost (im_cc s)) (pcost (im_cc s)) w
  }.

  Lemma finv_rng (R : Type) (s : im_state R) n w r : finv s n w -> finv (with_rng s r) n w.
  Proof. intros [H1 H2 H3 H4]. constructor; auto. Qed.
  Lemma finv_weaken (R : Type) (s : im_state R) n (w w' : nat -> Prop) : finv s n w -> (forall v, w v -> w' v) -> finv s n w'.
  Proof. intros [H1 H2 H3 (L & H4 & H5)] Hw. constructor; auto. split; [auto|split; auto]. Qed.

  Lemma fim_iter_spec (R : Type) (rd : rand R) (s : im_state R) n total B :
    finv s n (fun v => parent (nodes (im_ct s)) B v) -> B < length (nodes (im_ct s)) ->
    (exists r, fim_iter ar rd s total B = Ok (with_rng s r, None) /\
       (leaf_at (nodes (im_ct s)) B \/ forall p, ~ parent (nodes (im_ct s)) B p)) \/
    (exists s' total' A, fim_iter ar rd s total B = Ok (s', Some (total', A)) /\
       parent (nodes (im_ct s)) B A /\ parent (nodes (im_ct s')) B A /\
       finv s' n (fun v => parent (nodes (im_ct s')) A v) /\ same_env s s' /\
       (forall k, climb (nodes (im_ct s)) A k -> climb (nodes (im_ct s')) A k) /\
       (im_ct s' = im_ct s \/ move (im_ds s) (im_ct s) (im_ct s'))).
  Proof.
    intros [HC HH HK HP] LB. pose proof (co_wf HC) as W. pose proof (co_len HC) as LX.
    pose proof HH as (LH & HHk & HHl). pose proof HK as (LK & HKk & HKl). pose proof HP as (LP & HPk & HPl).
    destruct (nn_spec rd (im_ds s) (im_rng s) HC LB)
      as [(r' & E0 & Hb)|(r' & sA & sE & A & C & D & E & pA & nC & nD & nE & E0 & H & Hs)].
    { left. unfold fim_iter. rewrite E0. simpl. eauto. }
    right. destruct (nbh_lt H) as (LA & _ & LC & LD & LE).
    destruct (nbh_neq H) as (n1&n2&n3&n4&n5&n6&n7&n8&n9&n10).
    unfold fim_iter. rewrite E0. cbv beta iota zeta. unfold bind at 1.
    rewrite (@get_nth _ (inds (im_ct s)) A []), (@get_nth _ (inds (im_ct s)) B []), (@get_nth _ (inds (im_ct s)) C []),
      (@get_nth _ (inds (im_ct s)) D []), (@get_nth _ (inds (im_ct s)) E []) by lia.
    rewrite (@get_nth _ (im_hyper s) A []), (@get_nth _ (im_hyper s) B []) by lia.
    rewrite (@get_nth _ (ccost (im_cc s)) A 0%Z), (@get_nth _ (ccost (im_cc s)) B 0%Z) by lia.
    rewrite !ix_nth, !zx_nth. cbn [bind].
    rewrite (HHk _ _ _ (nbh_kids2A H)), (HHk _ _ _ (nbh_kids2B H)).
    set (XA := ix (inds (im_ct s)) A). set (XB := ix (inds (im_ct s)) B). set (XC := ix (inds (im_ct s)) C).
    set (XD := ix (inds (im_ct s)) D). set (XE := ix (inds (im_ct s)) E).
    fold (newB XA XB XC XD XE). set (nb := newB XA XB XC XD XE).
    set (kA' := fccost_of ar (im_cm s) XA nb XE (dims (im_ct s))).
    set (kB' := fccost_of ar (im_cm s) nb XD XC (dims (im_ct s))).
    set (delta := fadd ar (fsub ar kB' (zx (ccost (im_cc s)) B)) (fsub ar kA' (zx (ccost (im_cc s)) A))).
    destruct (accept rd r' delta total) as (acc & r2) eqn:Eacc.
    assert (PB : parent (nodes (im_ct s)) B A).
    { apply (wl_kp W). apply (nbh_kidA H). auto. }
    assert (Hw : forall v, v <> A -> ~ parent (nodes (im_ct s)) B v).
    { intros v Hv Hp. apply Hv. eapply parent_fun; eauto. }
    destruct acc.
    - rewrite (swap_nbh H). cbn [bind].
      repeat (rewrite !set_ok by (rewrite ?upd_length; lia); cbn [bind]).
      rewrite (@get_nth _ (pcost (im_cc s)) D 0%Z), (@get_nth _ (pcost (im_cc s)) C 0%Z) by lia. cbn [bind].
      rewrite (@get_nth _ (upd (upd (ccost (im_cc s)) B kB') A kA') B 0%Z) by (rewrite !upd_length; lia). cbn [bind].
      rewrite set_ok by lia. cbn [bind].
      rewrite !zx_nth.
      set (ks' := upd (upd (ccost (im_cc s)) B kB') A kA').
      set (p1 := upd (pcost (im_cc s)) B (fadd ar (fadd ar (zx (pcost (im_cc s)) D) (zx (pcost (im_cc s)) C)) (zx ks' B))).
      assert (L1 : length p1 = length (nodes (im_ct s))) by (unfold p1; rewrite upd_length; auto).
      assert (Lk' : length ks' = length (nodes (im_ct s))) by (unfold ks'; rewrite !upd_length; auto).
      rewrite (@get_nth _ p1 B 0%Z), (@get_nth _ p1 E 0%Z), (@get_nth _ ks' A 0%Z) by lia. cbn [bind].
      rewrite set_ok by lia. cbn [bind]. rewrite !zx_nth.
      eexists _, _, A. split; [reflexivity|]. split; [exact PB|]. simpl.
      pose proof (rot_core' H HC) as HC'. pose proof (rot_hyper H HC HH) as HH'.
      pose proof (rot_ccost H HC (fccost_ucost (im_cm s) (dims (im_ct s))) HK) as HK'.
      pose proof (rot_nbh H) as H'.
      split. { apply (wl_kp (co_wf HC')). apply (nbh_kidA H'). auto. }
      split.
      { constructor; simpl; auto.
        apply (fpcost_step H' (co_wf HC')); try (rewrite rot_length; auto).
        - intros v a b K vA vB. apply (rot_kids2 a b H vA vB) in K.
          unfold ks'. rewrite !zx_upd_neq by auto. apply HPk; auto.
        - intros v Hv. apply (rot_leaf _ H) in Hv. auto. }
      split. { repeat split; auto. }
      split.
      { intros k Hk. apply (climb_rot W H Hk). }
      right. exists sA, sE, A, B, C, D, E, pA, nC, nD, nE. auto.
    - cbn [bind].
      rewrite (@get_nth _ (pcost (im_cc s)) D 0%Z), (@get_nth _ (pcost (im_cc s)) E 0%Z) by lia. cbn [bind].
      rewrite (@get_nth _ (ccost (im_cc s)) B 0%Z) by lia. cbn [bind].
      rewrite set_ok by lia. cbn [bind]. rewrite !zx_nth.
      set (p1 := upd (pcost (im_cc s)) B (fadd ar (fadd ar (zx (pcost (im_cc s)) D) (zx (pcost (im_cc s)) E)) (zx (ccost (im_cc s)) B))).
      assert (L1 : length p1 = length (nodes (im_ct s))) by (unfold p1; rewrite upd_length; auto).
      rewrite (@get_nth _ p1 B 0%Z), (@get_nth _ p1 C 0%Z), (@get_nth _ (ccost (im_cc s)) A 0%Z) by lia. cbn [bind].
      rewrite set_ok by lia. cbn [bind]. rewrite !zx_nth.
      eexists _, _, A. split; [reflexivity|]. split; [exact PB|]. simpl.
      split; [exact PB|]. split.
      { constructor; simpl; auto. apply (fpcost_step H W); auto. }
      split. { repeat split; auto. }
      split; auto.
  Qed.

  Lemma fim_loop_spec (R : Type) (rd : rand R) : forall k fuel (s : im_state R) n total B,
    finv s n (fun v => parent (nodes (im_ct s)) B v) ->
    climb (nodes (im_ct s)) B k -> ~ leaf_at (nodes (im_ct s)) B -> k < fuel ->
    exists s', fim_loop ar rd fuel s total B = Ok s' /\ finv s' n (fun _ => False) /\ same_env s s' /\
      moves (im_ds s) (im_ct s) (im_ct s').
  Proof.
    induction k as [|k IH]; intros fuel s n total B HI Hc Hlf Hf.
    - destruct fuel as [|f]; [lia|]. simpl.
      pose proof (climb_lt (co_wf (fv_core HI)) Hc) as LB.
      destruct (fim_iter_spec rd total HI LB) as [(r & E & _)|(s' & tot' & A & E & PB & _)].
      + rewrite E. simpl. eexists. split; [reflexivity|]. inversion Hc; subst.
        split; [|split; [repeat split; auto|simpl; constructor]].
        destruct HI as [H1 H2 H3 (L & H4 & H5)]. constructor; auto. split; [auto|split; auto].
      + exfalso. inversion Hc; subst. eapply H0; eauto.
    - destruct fuel as [|f]; [lia|]. simpl.
      pose proof (climb_lt (co_wf (fv_core HI)) Hc) as LB.
      destruct (fim_iter_spec rd total HI LB) as [(r & E & [Hb|Hb])|(s' & tot' & A & E & PB & PB' & HI' & Henv & Hcl & Hm)].
      + contradiction.
      + exfalso. inversion Hc; subst. eapply Hb; eauto.
      + rewrite E. simpl. inversion Hc as [|? p ? Hp Hc']; subst.
        assert (p = A) by (eapply parent_fun; eauto). subst p.
        assert (HnA : ~ leaf_at (nodes (im_ct s')) A).
        { intros (q & Hq). apply (wl_kp (co_wf (fv_core HI'))) in PB'. destruct PB' as (m & Hm' & Hk). rewrite Hq in Hm'.
          inversion Hm'; subst. simpl in Hk. destruct Hk; discriminate. }
        destruct (IH f s' n tot' A HI' (Hcl _ Hc') HnA ltac:(lia)) as (s2 & E2 & HI2 & Henv2 & HP2).
        exists s2. split; [exact E2|]. split; [exact HI2|].
        destruct Henv as (D1 & D2 & D3 & D4). destruct Henv2 as (F1 & F2 & F3 & F4).
        split; [repeat split; congruence|].
        destruct Hm as [Ec|Hm].
        * rewrite <- Ec, <- D1. exact HP2.
        * rewrite D1 in HP2. econstructor; eauto.
  Qed.

  (** get_total_cost: the partial cost of the root. *)
  Definition ftot (R : Type) (s : im_state R) : Z := zx (pcost (im_cc s)) (length (nodes (im_ct s)) - 1).

  Lemma fim_total_ok (R : Type) (s : im_state R) n w : finv s n w -> im_total s = Ok (ftot s).
  Proof.
    intros [HC HH HK (LP & _)]. unfold im_total, back, ftot.
    pose proof (wl_len (co_wf HC)) as L0.
    rewrite (@get_nth _ _ _ 0%Z) by lia. rewrite zx_nth, LP. auto.
  Qed.

  Lemma fim_update_spec (R : Type) (rd : rand R) (s : im_state R) n : finv s n none ->
    exists s', fim_update ar rd s = Ok s' /\ finv s' n none /\
      im_ds s' = im_ds s /\ im_cm s' = im_cm s /\
      moves (im_ds s) (im_ct s) (im_ct s') /\
      ((im_min_ct s' = im_min_ct s /\ im_min s' = im_min s /\ (1 < length (nodes (im_ct s)) -> (im_min s <= ftot s')%Z)) \/
       (im_min_ct s' = im_ct s' /\ im_min s' = ftot s' /\ (ftot s' < im_min s)%Z)).
  Proof.
    intros HI. unfold fim_update. destruct (draw rd (im_rng s)) as (x & r0).
    pose proof (fv_core HI) as HC. pose proof (co_wf HC) as W. destruct (n_leaves_pos W) as (N0 & N1).
    assert (Lx : x mod n_leaves (nodes (im_ct s)) < length (nodes (im_ct s))).
    { assert (x mod n_leaves (nodes (im_ct s)) < n_leaves (nodes (im_ct s))) by (apply Nat.mod_upper_bound; lia). lia. }
    destruct (get_lt Lx) as (nd & -> & Hn). simpl bind.
    destruct (par nd) as [B|] eqn:Ep.
    2:{ eexists. split; [reflexivity|]. split; [apply finv_rng; auto|]. simpl.
        repeat split; auto; [constructor|]. left. repeat split; auto. intros HL. exfalso.
        assert (x mod n_leaves (nodes (im_ct s)) = length (nodes (im_ct s)) - 1).
        { apply (wl_root W); auto. intros p (m & Hm & Hp). congruence. }
        assert (x mod n_leaves (nodes (im_ct s)) < n_leaves (nodes (im_ct s))) by (apply Nat.mod_upper_bound; lia).
        unfold n_leaves in *.
        assert ((length (nodes (im_ct s)) + 1) / 2 < length (nodes (im_ct s))) by (apply Nat.div_lt_upper_bound; lia). lia. }
    rewrite (fim_total_ok (finv_rng r0 HI)). cbn [bind].
    assert (PB : parent (nodes (im_ct s)) (x mod n_leaves (nodes (im_ct s))) B) by (exists nd; auto).
    pose proof (parent_lt W PB) as LB. destruct (climb_ex W LB) as (k & Hk).
    assert (HnB : ~ leaf_at (nodes (im_ct s)) B).
    { intros (q & Hq). apply (wl_kp W) in PB. destruct PB as (m & Hm & Hkk). rewrite Hq in Hm.
      inversion Hm; subst. simpl in Hkk. destruct Hkk; discriminate. }
    destruct (@fim_loop_spec R rd k (length (nodes (im_ct s))) (with_rng s r0) n (ftot (with_rng s r0)) B)
      as (s1 & E1 & HI1 & (D1 & D2 & D3 & D4) & HP1); auto.
    { apply (finv_weaken (finv_rng r0 HI)). intros v []. }
    { simpl. apply (climb_bound W Hk). }
    rewrite E1. simpl bind. unfold im_update_min. rewrite (fim_total_ok HI1). simpl bind.
    simpl in D1, D2, D3, D4, HP1.
    destruct (Z.ltb_spec (ftot s1) (im_min s1)) as [Hlt|Hge].
    - eexists. split; [reflexivity|]. simpl. split; [destruct HI1; constructor; auto|].
      split; auto. split; auto. split; [exact HP1|]. right. repeat split; auto. rewrite <- D4; exact Hlt.
    - eexists. split; [reflexivity|]. split; auto. split; auto. split; auto. split; [exact HP1|].
      left. repeat split; auto. intros _. congruence.
  Qed.

  Lemma frun_ok (R : Type) n : forall (rds : list (rand R)) s, finv s n none ->
    exists s', fim_run ar rds s = Ok s' /\ finv s' n none /\ im_ds s' = im_ds s /\ im_cm s' = im_cm s /\
      moves (im_ds s) (im_ct s) (im_ct s').
  Proof.
    induction rds as [|rd rds IH]; simpl; intros s HI.
    - exists s. split; [auto|]. split; auto. split; auto. split; auto. constructor.
    - destruct (fim_update_spec rd HI) as (s1 & E1 & HI1 & D1 & M1 & P1 & _). rewrite E1. simpl.
      destruct (IH s1 HI1) as (s2 & E2 & HI2 & D2 & M2 & P2). exists s2. split; auto. split; auto.
      split; [congruence|]. split; [congruence|]. rewrite D1 in P2.
      eapply moves_trans; [exact P1|exact P2].
  Qed.

  Lemma frun_app (R : Type) (rds1 rds2 : list (rand R)) s s1 : fim_run ar rds1 s = Ok s1 ->
    fim_run ar (rds1 ++ rds2) s = fim_run ar rds2 s1.
  Proof.
    revert s. induction rds1 as [|rd rds IH]; simpl; intros s H; [congruence|].
    apply bind_ok in H. destruct H as (s' & E & H). rewrite E. cbn [bind]. auto.
  Qed.

  Lemma frun_min (R : Type) n : forall (rds : list (rand R)) s s', finv s n none -> fim_run ar rds s = Ok s' ->
    (im_min s' <= im_min s)%Z /\
    ((im_min_ct s' = im_min_ct s /\ im_min s' = im_min s) \/
     exists rds1 rds2 s1, rds = rds1 ++ rds2 /\ rds1 <> [] /\ fim_run ar rds1 s = Ok s1 /\ finv s1 n none /\
       im_ds s1 = im_ds s /\ im_cm s1 = im_cm s /\
       moves (im_ds s) (im_ct s) (im_ct s1) /\
       im_min_ct s' = im_ct s1 /\ im_min s' = ftot s1).
  Proof.
    induction rds as [|rd rds IH]; simpl; intros s s' HI H.
    - inversion H; subst. split; [lia|]. left. auto.
    - apply bind_ok in H. destruct H as (s1 & H1 & H2).
      destruct (fim_update_spec rd HI) as (s1' & E1 & HI1 & D1 & M1 & P1 & Hm).
      rewrite E1 in H1. inversion H1; subst s1'.
      destruct (IH s1 s' HI1 H2) as (Hle & Hc).
      assert (Hle1 : (im_min s1 <= im_min s)%Z) by (destruct Hm as [(_ & -> & _)|(_ & -> & ?)]; lia).
      split; [lia|]. destruct Hc as [(Ec & Em)|(rds1 & rds2 & s2 & -> & Hne & Hr & HI2 & D2 & M2 & P2 & Ec & Em)].
      + destruct Hm as [(E3 & E4 & _)|(E3 & E4 & _)].
        * left. split; congruence.
        * right. exists [rd], rds, s1. split; auto. split; [discriminate|].
          simpl. rewrite E1. simpl. split; auto. split; auto. split; auto. split; auto.
          split; [exact P1|]. split; congruence.
      + right. exists (rd :: rds1), rds2, s2. split; auto. split; [discriminate|].
        simpl. rewrite E1. simpl. split; auto. split; auto. split; [congruence|]. split; [congruence|].
        split; [|auto]. rewrite D1 in P2. eapply moves_trans; [exact P1|exact P2].
  Qed.

  (** The recorded minimum is at most the cost after every update. *)
  Lemma frun_below (R : Type) n : forall (rds : list (rand R)) s s', finv s n none -> 1 < length (nodes (im_ct s)) ->
    rds <> [] -> fim_run ar rds s = Ok s' -> (im_min s' <= ftot s')%Z.
  Proof.
    intros rds. induction rds as [|rd rds IH] using rev_ind; intros s s' HI HL Hne H; [congruence|].
    destruct (frun_ok rds HI) as (s1 & E1 & HI1 & D1 & M1 & P1). rewrite (frun_app _ E1) in H. simpl in H.
    destruct (fim_update_spec rd HI1) as (s2 & E2 & HI2 & _ & _ & _ & Hm). rewrite E2 in H. simpl in H.
    inversion H; subst s2.
    assert (HL1 : 1 < length (nodes (im_ct s1))).
    { clear - P1 HL. induction P1 as [|c c1 c2 Hmv _ IHm]; auto. apply IHm.
      destruct Hmv as (sA & sE & A & B & C & D & E & pA & nC & nD & nE & H & -> & _). simpl. rewrite rot_length. auto. }
    destruct Hm as [(_ & -> & Hm)|(_ & -> & _)]; [auto|lia].
  Qed.
End Run.
