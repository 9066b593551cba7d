(** The infinite-memory optimizer: one iteration, one update, a session. *)
From Coq Require Import Permutation Relations.
From Verif Require Import M_Base M_Bitset M_Tree M_CTree M_Cost M_Opt M_InfMem S_Tree S_Opt
  P_Base P_Bitset P_Tree P_Shape P_TreeProps P_TreeValid P_Opt P_OptCost.
Set Implicit Arguments.
Unset Strict Implicit.

Lemma ccost_ucost m d : ucost (im_ccost m d).
Proof. intros a b c a' b' c' H. unfold im_ccost, ccost_of. destruct m; rewrite H; auto. Qed.

(** ** Validity of contraction trees *)
Definition shared_ok (c : ctree) : Prop := forall v a b, kids2 (nodes c) v a b ->
  bintersects (ix (inds c) a) (ix (inds c) b) = true.

Lemma core_n_inds c n : core (nodes c) (inds c) n -> n_inds c = n.
Proof.
  intros HC. unfold n_inds. apply (co_sz HC (v := 0)). apply (wl_len (co_wf HC)).
Qed.

Lemma bintersects_sym n a b : length a = n -> length b = n -> bintersects a b = bintersects b a.
Proof.
  intros La Lb. destruct (bintersects a b) eqn:E1, (bintersects b a) eqn:E2; auto.
  - apply bintersects_spec in E1; [|congruence]. destruct E1 as (i & H1 & H2).
    assert (bintersects b a = true) by (apply bintersects_spec; [congruence|eauto]). congruence.
  - apply bintersects_spec in E2; [|congruence]. destruct E2 as (i & H1 & H2).
    assert (bintersects a b = true) by (apply bintersects_spec; [congruence|eauto]). congruence.
Qed.

Lemma contraction_ok_spec cs n x0 x1 x : length x0 = n -> length x1 = n -> length x = n ->
  (M_CTree.contraction_ok cs x0 x1 x = true <->
   loc x x0 x1 /\ (cs = true -> bintersects x0 x1 = true)).
Proof.
  intros L0 L1 L. unfold M_CTree.contraction_ok. rewrite !andb_true_iff, negb_true_iff.
  assert (length (bxor x0 x1) = n) by (rewrite bxor_len; congruence).
  assert (length (bor x0 x1) = n) by (rewrite bor_len; congruence).
  rewrite !bsubset_spec by congruence. unfold loc. split.
  - intros ((Hs & H1) & H2). split.
    + intros i. specialize (H1 i). specialize (H2 i). rewrite bxor_test in H1 by congruence.
      rewrite bor_test in H2 by congruence. auto.
    + intros ->. simpl in Hs. destruct (bintersects x0 x1); auto; discriminate.
  - intros (Hl & Hs). split; [split|].
    + destruct cs; simpl; auto. rewrite Hs; auto.
    + intros i. rewrite bxor_test by congruence. apply Hl.
    + intros i. rewrite bor_test by congruence. apply Hl.
Qed.

Lemma valid_core c cs : wfl (nodes c) -> ctree_is_valid c cs = true ->
  core (nodes c) (inds c) (n_inds c) /\ dims_ok c = true /\ (cs = true -> shared_ok c).
Proof.
  intros W H. unfold ctree_is_valid in H. rewrite !andb_true_iff in H.
  destruct H as ((((_ & HL) & HF) & HD) & HA). apply Nat.eqb_eq in HL.
  rewrite forallb_forall in HF.
  assert (Hsz : forall v, v < length (nodes c) -> length (ix (inds c) v) = n_inds c).
  { intros v Hv. apply Nat.eqb_eq. apply HF. unfold ix. apply nth_In. lia. }
  pose proof (proj1 (@all_pos_spec _ _) HA) as HA'.
  assert (G : forall v a b, kids2 (nodes c) v a b ->
    loc (ix (inds c) v) (ix (inds c) a) (ix (inds c) b) /\
    (cs = true -> bintersects (ix (inds c) a) (ix (inds c) b) = true)).
  { assert (G0 : forall v a b q, nth_error (nodes c) v = Some (mkNode (Some a) (Some b) q) ->
      loc (ix (inds c) v) (ix (inds c) a) (ix (inds c) b) /\
      (cs = true -> bintersects (ix (inds c) a) (ix (inds c) b) = true)).
    { intros v a b q Hn. assert (K : kids2 (nodes c) v a b) by (exists q; auto).
      destruct (kids2_lt W K) as (Lv & La & Lb).
      specialize (HA' v _ Hn). unfold node_contraction_ok in HA'. simpl in HA'.
      rewrite (nth_error_nth' (inds c) [] (n := a)), (nth_error_nth' (inds c) [] (n := b)),
        (nth_error_nth' (inds c) [] (n := v)) in HA' by lia.
      eapply contraction_ok_spec; [| | |exact HA']; apply Hsz; auto. }
    intros v a b (q & [Hn|Hn]).
    - eapply G0; eauto.
    - assert (K : kids2 (nodes c) v b a) by (exists q; auto).
      destruct (kids2_lt W K) as (Lv & Lb & La).
      destruct (G0 _ _ _ _ Hn) as (G1 & G2). split; [apply loc_sym; auto|].
      intros Hc. rewrite (bintersects_sym (n := n_inds c)); auto. }
  split; [|split; auto].
  - constructor; auto. intros v a b K. apply (G v a b K).
  - intros Hc v a b K. apply (G v a b K). auto.
Qed.

Lemma core_valid c n cs : core (nodes c) (inds c) n -> dims_ok c = true -> (cs = true -> shared_ok c) ->
  ctree_is_valid c cs = true.
Proof.
  intros HC HD HS. unfold ctree_is_valid. pose proof (core_n_inds HC) as En.
  rewrite !andb_true_iff.
  repeat match goal with |- _ /\ _ => split end; auto.
  - apply wfl_valid. apply HC.
  - apply Nat.eqb_eq. apply HC.
  - apply forallb_forall. intros x Hx. apply Nat.eqb_eq. destruct (In_nth _ _ [] Hx) as (i & Hi & <-).
    rewrite En. apply (co_sz HC). rewrite <- (co_len HC). auto.
  - apply all_pos_spec. intros v nd Hn. unfold node_contraction_ok, is_leaf.
    destruct (wl_two (co_wf HC) Hn) as [(E0 & E1)|(a & b & E0 & E1 & _)]; rewrite ?E0, ?E1; auto.
    assert (K : kids2 (nodes c) v a b) by (exists (par nd); left; destruct nd; simpl in *; subst; auto).
    destruct (kids2_lt (co_wf HC) K) as (Lv & La & Lb). pose proof (co_len HC).
    rewrite (nth_error_nth' (inds c) [] (n := a)), (nth_error_nth' (inds c) [] (n := b)),
        (nth_error_nth' (inds c) [] (n := v)) by lia.
    apply contraction_ok_spec with (n := n); try (apply (co_sz HC); auto).
    split; [apply (co_loc HC K)|]. intros Hc. apply (HS Hc _ _ _ K).
Qed.

(** ** One move on a contraction tree *)
Definition move (ds : bool) (c c' : ctree) : Prop :=
  exists sA sE A B C D E pA nC nD nE,
    nbh (nodes c) sA sE A B C D E pA nC nD nE /\
    c' = mkCT (rot (nodes c) sA sE A B C D E pA nC nE)
              (upd (inds c) B (newB (ix (inds c) A) (ix (inds c) B) (ix (inds c) C) (ix (inds c) D) (ix (inds c) E)))
              (dims c) /\
    (ds = false -> bintersects (ix (inds c) B) (ix (inds c) C) = true ->
       bintersects (ix (inds c) D) (ix (inds c) C) = true).
Definition moves (ds : bool) : ctree -> ctree -> Prop := clos_refl_trans_1n _ (move ds).

Lemma moves_trans ds a b c : moves ds a b -> moves ds b c -> moves ds a c.
Proof. induction 1; auto. intros H2. econstructor; eauto. apply IHclos_refl_trans_1n; auto. Qed.

Lemma move_core ds c c' n : move ds c c' -> core (nodes c) (inds c) n -> core (nodes c') (inds c') n.
Proof.
  intros (sA & sE & A & B & C & D & E & pA & nC & nD & nE & H & -> & _) HC. simpl.
  apply (rot_core' H HC).
Qed.
Lemma move_dims ds c c' : move ds c c' -> dims c' = dims c.
Proof. intros (sA & sE & A & B & C & D & E & pA & nC & nD & nE & H & -> & _). auto. Qed.

Lemma moves_core ds c c' n : moves ds c c' -> core (nodes c) (inds c) n -> core (nodes c') (inds c') n.
Proof. induction 1; auto. intros. apply IHclos_refl_trans_1n. eapply move_core; eauto. Qed.
Lemma moves_dims ds c c' : moves ds c c' -> dims c' = dims c.
Proof. induction 1 as [|? ? ? H1 H2 IH]; auto. rewrite IH. eapply move_dims; eauto. Qed.

Lemma dims_ok_eq c c' n : core (nodes c) (inds c) n -> core (nodes c') (inds c') n ->
  dims c' = dims c -> dims_ok c' = dims_ok c.
Proof. intros H H' E. unfold dims_ok. rewrite E, (core_n_inds H), (core_n_inds H'). auto. Qed.

(** ** State invariant *)
Record inv (R : Type) (s : im_state R) (n : nat) (w : nat -> Prop) : Prop := {
  iv_core  : core (nodes (im_ct s)) (inds (im_ct s)) n;
  iv_hyper : hyper_ok (nodes (im_ct s)) (inds (im_ct s)) (im_hyper s) n;
  iv_cc    : ccost_ok (im_ccost (im_cm s) (dims (im_ct s))) (nodes (im_ct s)) (inds (im_ct s)) (ccost (im_cc s));
  iv_pc    : pcost_ok (nodes (im_ct s)) (ccost (im_cc s)) (pcost (im_cc s)) w
}.

Definition same_env (R : Type) (s s' : im_state R) : Prop :=
  im_ds s' = im_ds s /\ im_min_ct s' = im_min_ct s /\ im_cm s' = im_cm s /\ im_min s' = im_min s.

Lemma inv_rng (R : Type) (s : im_state R) n w r : inv s n w -> inv (with_rng s r) n w.
Proof. intros [H1 H2 H3 H4]. constructor; auto. Qed.

Lemma ix_nth xs v : nth v xs [] = ix xs v. Proof. auto. Qed.
Lemma zx_nth l v : nth v l 0%Z = zx l v. Proof. auto. Qed.

Lemma zx_sum_upd l v x : v < length l -> sumZ (upd l v x) = (sumZ l - zx l v + x)%Z.
Proof. intros H. apply sumZ_upd. apply nth_error_nth'. auto. Qed.

Lemma parent_rot_A t sA sE A B C D E pA nC nD nE v : nbh t sA sE A B C D E pA nC nD nE ->
  (parent (rot t sA sE A B C D E pA nC nE) A v <-> parent t A v).
Proof.
  intros H. rewrite (rot_parent H). destruct (nbh_neq H) as (n1&n2&n3&n4&_). intuition congruence.
Qed.

Lemma im_iter_spec (R : Type) (rd : rand R) (s : im_state R) n total B :
  inv s n (fun v => parent (nodes (im_ct s)) B v) -> B < length (nodes (im_ct s)) ->
  total = sumZ (ccost (im_cc s)) ->
  (exists r, im_iter rd s total B = Ok (with_rng s r, None) /\
     (leaf_at (nodes (im_ct s)) B \/ forall p, ~ parent (nodes (im_ct s)) B p)) \/
  (exists s' total' A, im_iter rd s total B = Ok (s', Some (total', A)) /\
     parent (nodes (im_ct s)) B A /\ parent (nodes (im_ct s')) B A /\
     inv s' n (fun v => parent (nodes (im_ct s')) A v) /\ same_env s s' /\
     total' = sumZ (ccost (im_cc s')) /\
     (forall k, climb (nodes (im_ct s)) A k -> climb (nodes (im_ct s')) A k) /\
     ((im_ct s' = im_ct s /\ total' = total) \/
      (move (im_ds s) (im_ct s) (im_ct s') /\
       exists r r', accept rd r (total' - total)%Z total = (true, r')))).
Proof.
  intros [HC HH HK HP] LB Ht. pose proof (co_wf HC) as W. pose proof (co_len HC) as LX.
  pose proof HH as (LH & HHk & HHl). pose proof HK as (LK & HKk & HKl). pose proof HP as (LP & HPk & HPl).
  destruct (nn_spec rd (im_ds s) (im_rng s) HC LB)
    as [(r' & E0 & Hb)|(r' & sA & sE & A & C & D & E & pA & nC & nD & nE & E0 & H & Hs)].
  { left. unfold im_iter. rewrite E0. simpl. eauto. }
  right. destruct (nbh_lt H) as (LA & _ & LC & LD & LE).
  destruct (nbh_neq H) as (n1&n2&n3&n4&n5&n6&n7&n8&n9&n10).
  unfold im_iter. rewrite E0. cbv beta iota zeta. unfold bind at 1.
  rewrite (@get_nth _ (inds (im_ct s)) A []), (@get_nth _ (inds (im_ct s)) B []), (@get_nth _ (inds (im_ct s)) C []),
    (@get_nth _ (inds (im_ct s)) D []), (@get_nth _ (inds (im_ct s)) E []) by lia.
  rewrite (@get_nth _ (im_hyper s) A []), (@get_nth _ (im_hyper s) B []) by lia.
  rewrite (@get_nth _ (ccost (im_cc s)) A 0%Z), (@get_nth _ (ccost (im_cc s)) B 0%Z) by lia.
  rewrite !ix_nth, !zx_nth. cbn [bind].
  rewrite (HHk _ _ _ (nbh_kids2A H)), (HHk _ _ _ (nbh_kids2B H)).
  set (XA := ix (inds (im_ct s)) A). set (XB := ix (inds (im_ct s)) B). set (XC := ix (inds (im_ct s)) C).
  set (XD := ix (inds (im_ct s)) D). set (XE := ix (inds (im_ct s)) E).
  fold (newB XA XB XC XD XE). set (nb := newB XA XB XC XD XE).
  set (kA' := ccost_of (im_cm s) XA nb XE (dims (im_ct s))).
  set (kB' := ccost_of (im_cm s) nb XD XC (dims (im_ct s))).
  set (delta := (kB' - zx (ccost (im_cc s)) B + (kA' - zx (ccost (im_cc s)) A))%Z).
  destruct (accept rd r' delta total) as (acc & r2) eqn:Eacc.
  assert (PB : parent (nodes (im_ct s)) B A).
  { apply (wl_kp W). apply (nbh_kidA H). auto. }
  assert (Hw : forall v, v <> A -> ~ parent (nodes (im_ct s)) B v).
  { intros v Hv Hp. apply Hv. eapply parent_fun; eauto. }
  destruct acc.
  - rewrite (swap_nbh H). cbn [bind].
    repeat (rewrite !set_ok by (rewrite ?upd_length; lia); cbn [bind]).
        rewrite (@get_nth _ (pcost (im_cc s)) D 0%Z), (@get_nth _ (pcost (im_cc s)) C 0%Z) by lia. cbn [bind].
    rewrite (@get_nth _ (upd (upd (ccost (im_cc s)) B kB') A kA') B 0%Z) by (rewrite !upd_length; lia). cbn [bind].
    rewrite set_ok by lia. cbn [bind].
    rewrite !zx_nth.
    set (ks' := upd (upd (ccost (im_cc s)) B kB') A kA').
    set (p1 := upd (pcost (im_cc s)) B (zx (pcost (im_cc s)) D + zx (pcost (im_cc s)) C + zx ks' B)%Z).
    assert (L1 : length p1 = length (nodes (im_ct s))) by (unfold p1; rewrite upd_length; auto).
    assert (Lk' : length ks' = length (nodes (im_ct s))) by (unfold ks'; rewrite !upd_length; auto).
    rewrite (@get_nth _ p1 B 0%Z), (@get_nth _ p1 E 0%Z), (@get_nth _ ks' A 0%Z) by lia. cbn [bind].
    rewrite set_ok by lia. cbn [bind]. rewrite !zx_nth.
    eexists _, _, A. split; [reflexivity|]. split; [exact PB|]. simpl.
    pose proof (rot_core' H HC) as HC'. pose proof (rot_hyper H HC HH) as HH'.
    pose proof (rot_ccost H HC (ccost_ucost (im_cm s) (dims (im_ct s))) HK) as HK'.
    pose proof (rot_nbh H) as H'.
    split. { apply (wl_kp (co_wf HC')). apply (nbh_kidA H'). auto. }
    split.
    { constructor; simpl; auto.
      apply (pcost_step H' (co_wf HC')); try (rewrite rot_length; auto).
      - intros v a b K vA vB. apply (rot_kids2 a b H vA vB) in K.
        unfold ks'. rewrite !zx_upd_neq by auto. apply HPk; auto.
      - intros v Hv. apply (rot_leaf _ H) in Hv. auto. }
    split. { repeat split; auto. }
    assert (Esum : sumZ ks' = (total + delta)%Z).
    { unfold ks'. rewrite zx_sum_upd by (rewrite upd_length; lia). rewrite zx_upd_neq by auto.
      rewrite zx_sum_upd by lia. unfold delta. lia. }
    split; [lia|]. split.
    { intros k Hk. apply (climb_rot W H Hk). }
    right. split.
    { exists sA, sE, A, B, C, D, E, pA, nC, nD, nE. auto. }
    exists r', r2. replace (total + delta - total)%Z with delta by lia. auto.
  - cbn [bind].
    rewrite (@get_nth _ (pcost (im_cc s)) D 0%Z), (@get_nth _ (pcost (im_cc s)) E 0%Z) by lia. cbn [bind].
    rewrite (@get_nth _ (ccost (im_cc s)) B 0%Z) by lia. cbn [bind].
    rewrite set_ok by lia. cbn [bind]. rewrite !zx_nth.
    set (p1 := upd (pcost (im_cc s)) B (zx (pcost (im_cc s)) D + zx (pcost (im_cc s)) E + zx (ccost (im_cc s)) B)%Z).
    assert (L1 : length p1 = length (nodes (im_ct s))) by (unfold p1; rewrite upd_length; auto).
    rewrite (@get_nth _ p1 B 0%Z), (@get_nth _ p1 C 0%Z), (@get_nth _ (ccost (im_cc s)) A 0%Z) by lia. cbn [bind].
    rewrite set_ok by lia. cbn [bind]. rewrite !zx_nth.
    eexists _, _, A. split; [reflexivity|]. split; [exact PB|]. simpl.
    split; [exact PB|]. split.
    { constructor; simpl; auto. apply (pcost_step H W); auto. }
    split. { repeat split; auto. }
    split; auto.
Qed.

(** ** The loop *)
(** What the acceptance rule allowed, along the loop: a monotone relation on totals. *)
Definition allowed (R : Type) (rd : rand R) (total total' : Z) : Prop :=
  exists r r', accept rd r (total' - total)%Z total = (true, r').

Inductive path (R : Type) (rd : rand R) (ds : bool) : ctree -> Z -> ctree -> Z -> Prop :=
| path_nil c z : path rd ds c z c z
| path_cons c z c1 z1 c2 z2 : move ds c c1 -> allowed rd z z1 -> path rd ds c1 z1 c2 z2 -> path rd ds c z c2 z2.

Lemma path_moves (R : Type) (rd : rand R) ds c z c' z' : path rd ds c z c' z' -> moves ds c c'.
Proof. induction 1; [constructor|]. econstructor; eauto. Qed.

Lemma im_loop_spec (R : Type) (rd : rand R) : forall k fuel (s : im_state R) n total B,
  inv s n (fun v => parent (nodes (im_ct s)) B v) ->
  climb (nodes (im_ct s)) B k -> ~ leaf_at (nodes (im_ct s)) B -> k < fuel ->
  total = sumZ (ccost (im_cc s)) ->
  exists s', im_loop rd fuel s total B = Ok s' /\ inv s' n (fun _ => False) /\ same_env s s' /\
    path rd (im_ds s) (im_ct s) total (im_ct s') (sumZ (ccost (im_cc s'))).
Proof.
  induction k as [|k IH]; intros fuel s n total B HI Hc Hlf Hf Ht.
  - destruct fuel as [|f]; [lia|]. simpl.
    pose proof (climb_lt (co_wf (iv_core HI)) Hc) as LB.
    destruct (im_iter_spec rd HI LB Ht) as [(r & E & _)|(s' & tot' & A & E & PB & _)].
    + rewrite E. simpl. eexists. split; [reflexivity|]. inversion Hc; subst.
      split; [|split; [repeat split; auto|simpl; constructor]].
      destruct HI as [H1 H2 H3 (L & H4 & H5)]. constructor; auto. split; [auto|split; auto].
    + exfalso. inversion Hc; subst. eapply H0; eauto.
  - destruct fuel as [|f]; [lia|]. simpl.
    pose proof (climb_lt (co_wf (iv_core HI)) Hc) as LB.
    destruct (im_iter_spec rd HI LB Ht) as [(r & E & [Hb|Hb])|(s' & tot' & A & E & PB & PB' & HI' & Henv & Ht' & Hcl & Hm)].
    + contradiction.
    + exfalso. inversion Hc; subst. eapply Hb; eauto.
    + rewrite E. simpl. inversion Hc as [|? p ? Hp Hc']; subst.
      assert (p = A) by (eapply parent_fun; eauto). subst p.
      assert (HnA : ~ leaf_at (nodes (im_ct s')) A).
      { intros (q & Hq). apply (wl_kp (co_wf (iv_core HI'))) in PB'. destruct PB' as (m & Hm' & Hk). rewrite Hq in Hm'.
        inversion Hm'; subst. simpl in Hk. destruct Hk; discriminate. }
      destruct (IH f s' n _ A HI' (Hcl _ Hc') HnA ltac:(lia) eq_refl) as (s2 & E2 & HI2 & Henv2 & HP2).
      exists s2. split; [exact E2|]. split; [exact HI2|].
      destruct Henv as (D1 & D2 & D3 & D4). destruct Henv2 as (F1 & F2 & F3 & F4).
      split; [repeat split; congruence|].
      destruct Hm as [(Ec & Et)|(Hm & Ha)].
      * rewrite <- Ec, <- Et, <- D1. exact HP2.
      * rewrite D1 in HP2. econstructor; eauto.
Qed.

(** ** One update *)
Definition none : nat -> Prop := fun _ => False.

Definition tot (R : Type) (s : im_state R) : Z := sumZ (ccost (im_cc s)).

Lemma inv_weaken (R : Type) (s : im_state R) n (w w' : nat -> Prop) : inv s n w -> (forall v, w v -> w' v) -> inv s n w'.
Proof. intros [H1 H2 H3 (L & H4 & H5)] Hw. constructor; auto. split; [auto|split; auto]. Qed.

Lemma im_total_ok (R : Type) (s : im_state R) n : inv s n none -> im_total s = Ok (tot s).
Proof.
  intros [HC HH HK HP]. unfold im_total, back.
  destruct (wfl_tree_of (co_wf HC)) as (T & HT). pose proof HT as (HU & _ & Htop & _).
  pose proof (wl_len (co_wf HC)) as L0. pose proof HP as (LP & _).
  rewrite (@get_nth _ _ _ 0%Z) by lia. f_equal. rewrite zx_nth, LP, <- Htop.
  rewrite (pcost_bt HU HP) by auto. destruct HK as (LK & HKk & HKl).
  apply (bt_cost_total HT); auto.
Qed.

Lemma n_leaves_pos t : wfl t -> 0 < n_leaves t /\ n_leaves t <= length t.
Proof.
  intros W. pose proof (wl_len W). unfold n_leaves. split.
  - apply Nat.div_str_pos. lia.
  - assert ((length t + 1) / 2 < length t + 1) by (apply Nat.div_lt; lia). lia.
Qed.

Lemma im_update_spec (R : Type) (rd : rand R) (s : im_state R) n : inv s n none ->
  exists s', im_update rd s = Ok s' /\ inv s' n none /\
    im_ds s' = im_ds s /\ im_cm s' = im_cm s /\
    path rd (im_ds s) (im_ct s) (tot s) (im_ct s') (tot s') /\
    ((im_min_ct s' = im_min_ct s /\ im_min s' = im_min s /\ (1 < length (nodes (im_ct s)) -> (im_min s <= tot s')%Z)) \/
     (im_min_ct s' = im_ct s' /\ im_min s' = tot s' /\ (tot s' < im_min s)%Z)).
Proof.
  intros HI. unfold im_update. destruct (draw rd (im_rng s)) as (x & r0).
  pose proof (iv_core HI) as HC. pose proof (co_wf HC) as W. destruct (n_leaves_pos W) as (N0 & N1).
  assert (Lx : x mod n_leaves (nodes (im_ct s)) < length (nodes (im_ct s))).
  { assert (x mod n_leaves (nodes (im_ct s)) < n_leaves (nodes (im_ct s))) by (apply Nat.mod_upper_bound; lia). lia. }
  destruct (get_lt Lx) as (nd & -> & Hn). simpl bind.
  destruct (par nd) as [B|] eqn:Ep.
  2:{ eexists. split; [reflexivity|]. split; [apply inv_rng; auto|]. simpl.
      repeat split; auto; [constructor|]. left. repeat split; auto. intros HL. exfalso.
      assert (x mod n_leaves (nodes (im_ct s)) = length (nodes (im_ct s)) - 1).
      { apply (wl_root W); auto. intros p (m & Hm & Hp). congruence. }
      assert (x mod n_leaves (nodes (im_ct s)) < n_leaves (nodes (im_ct s))) by (apply Nat.mod_upper_bound; lia).
      unfold n_leaves in *.
      assert ((length (nodes (im_ct s)) + 1) / 2 < length (nodes (im_ct s))) by (apply Nat.div_lt_upper_bound; lia). lia. }
  rewrite (im_total_ok (inv_rng r0 HI)). cbn [bind].
  assert (PB : parent (nodes (im_ct s)) (x mod n_leaves (nodes (im_ct s))) B) by (exists nd; auto).
  pose proof (parent_lt W PB) as LB. destruct (climb_ex W LB) as (k & Hk).
  assert (HnB : ~ leaf_at (nodes (im_ct s)) B).
  { intros (q & Hq). apply (wl_kp W) in PB. destruct PB as (m & Hm & Hkk). rewrite Hq in Hm.
    inversion Hm; subst. simpl in Hkk. destruct Hkk; discriminate. }
  destruct (@im_loop_spec R rd k (length (nodes (im_ct s))) (with_rng s r0) n (tot (with_rng s r0)) B)
    as (s1 & E1 & HI1 & (D1 & D2 & D3 & D4) & HP1); auto.
  { apply (inv_weaken (inv_rng r0 HI)). intros v []. }
  { simpl. apply (climb_bound W Hk). }
  rewrite E1. simpl bind. unfold im_update_min. rewrite (im_total_ok HI1). simpl bind.
  simpl in D1, D2, D3, D4, HP1.
  destruct (Z.ltb_spec (tot s1) (im_min s1)) as [Hlt|Hge].
  - eexists. split; [reflexivity|]. simpl. split; [destruct HI1; constructor; auto|].
    split; auto. split; auto. split; [exact HP1|]. right. repeat split; auto. rewrite <- D4; exact Hlt.
  - eexists. split; [reflexivity|]. split; auto. split; auto. split; auto. split; [exact HP1|].
    left. repeat split; auto. intros _. congruence.
Qed.
