(** Final forms of the infinite-memory optimizer lemmas. *)
From Coq Require Import Permutation Relations.
From Verif Require Import M_Base M_Bitset M_Tree M_CTree M_Cost M_Opt M_InfMem S_Tree S_Opt
  P_Base P_Bitset P_Tree P_Shape P_TreeProps P_TreeValid P_Opt P_OptCost P_InfMem P_Canon P_Cost.
Set Implicit Arguments.
Unset Strict Implicit.

(** ** Caches exist *)
Lemma list_choice (A : Type) (d : A) n (P : nat -> A -> Prop) :
  (forall v, v < n -> exists z, P v z) -> exists l, length l = n /\ forall v, v < n -> P v (nth v l d).
Proof.
  induction n as [|n IH]; intros H.
  - exists []. split; auto. intros; lia.
  - destruct IH as (l & Hl & HP); [intros; apply H; lia|]. destruct (H n) as (z & Hz); [lia|].
    exists (l ++ [z]). rewrite app_length. simpl. split; [lia|]. intros v Hv.
    destruct (Nat.eq_dec v n) as [->|Hn].
    + rewrite app_nth2 by lia. replace (n - length l) with 0 by lia. auto.
    + rewrite app_nth1 by lia. apply HP. lia.
Qed.

Lemma unfolds_unique t S : forall q S' q', unfolds t q S -> unfolds t q' S' -> top S = top S' -> S = S'.
Proof.
  induction S as [p|p l IHl r IHr]; intros q [p'|p' l' r'] q'; simpl; intros H H' E; subst.
  - auto.
  - destruct H' as (H' & _). congruence.
  - destruct H as (H & _). congruence.
  - destruct H as (H & Ul & Ur). destruct H' as (H' & Ul' & Ur'). rewrite H in H'. inversion H' as [[E1 E2 E3]].
    f_equal; [eapply IHl|eapply IHr]; eauto.
Qed.

Lemma kids2_or_leaf t v : wfl t -> v < length t -> leaf_at t v \/ exists a b q, nth_error t v = Some (mkNode (Some a) (Some b) q).
Proof.
  intros W Hv. destruct (nth_error t v) as [nd|] eqn:Hn; [|apply nth_error_None in Hn; lia].
  destruct (wl_two W Hn) as [(E0 & E1)|(a & b & E0 & E1 & _)]; destruct nd as [x y q]; simpl in *; subst.
  - left. exists q. auto.
  - right. exists a, b, q. auto.
Qed.

Lemma ccost_exists cc t xs n : ucost cc -> core t xs n -> exists ks, ccost_ok cc t xs ks.
Proof.
  intros U HC. pose proof (co_wf HC) as W.
  destruct (@list_choice Z 0%Z (length t) (fun v z =>
    (leaf_at t v -> z = 0%Z) /\
    (forall a b, kids2 t v a b -> z = cc (ix xs v) (ix xs a) (ix xs b)))) as (ks & HL & HP).
  { intros v Hv. destruct (kids2_or_leaf W Hv) as [Hlf|(a & b & q & Hn)].
    - exists 0%Z. split; auto. intros a b K. exfalso. eapply leaf_not_kids; eauto.
    - exists (cc (ix xs v) (ix xs a) (ix xs b)).
      assert (K : kids2 t v a b) by (exists q; auto). split.
      + intros Hlf. exfalso. eapply leaf_not_kids; eauto.
      + intros a' b' K'. destruct (kids2_fun K K') as [(-> & ->)|(-> & ->)]; auto.
        destruct (kids2_lt W K) as (L1 & L2 & L3).
        apply (ucost_sym (n := n) U); try (apply (co_sz HC); auto). apply (co_loc HC K). }
  exists ks. split; auto. split.
  - intros v a b K. destruct (kids2_lt W K) as (L1 & _). apply (HP v L1); auto.
  - intros v (q & Hn). apply (HP v (nth_error_lt Hn)). exists q. auto.
Qed.

Lemma pcost_exists t ks : wfl t -> exists ps, pcost_ok t ks ps (fun _ => False).
Proof.
  intros W.
  destruct (@list_choice Z 0%Z (length t) (fun v z =>
    exists S q, unfolds t q S /\ top S = v /\ z = bt_cost (fun p _ _ => zx ks p) S)) as (ps & HL & HP).
  { intros v Hv. destruct (nth_error t v) as [nd|] eqn:Hn; [|apply nth_error_None in Hn; lia].
    destruct (build_bt W Hn) as (S & Ht & HU). exists (bt_cost (fun p _ _ => zx ks p) S). eauto. }
  exists ps. split; auto. split.
  - assert (G : forall v a b q, nth_error t v = Some (mkNode (Some a) (Some b) q) ->
      zx ps v = (zx ps a + zx ps b + zx ks v)%Z).
    { intros v a b q Hn. assert (K : kids2 t v a b) by (exists q; auto).
      destruct (kids2_lt W K) as (L1 & L2 & L3).
      destruct (HP v L1) as (S & q0 & HU & Ht & E). destruct (HP a L2) as (Sa & qa & Ua & Ta & Ea).
      destruct (HP b L3) as (Sb & qb & Ub & Tb & Eb). unfold zx at 1 2 3. rewrite E, Ea, Eb.
      destruct S as [p|p l r]; simpl in Ht; subst p; simpl in HU.
      - congruence.
      - destruct HU as (Hv & Ul & Ur). rewrite Hn in Hv. inversion Hv as [[E1 E2 E3]].
        assert (l = Sa) by (eapply unfolds_unique; eauto; congruence).
        assert (r = Sb) by (eapply unfolds_unique; eauto; congruence). subst. auto. }
    intros v a b (q & [Hn|Hn]) _; rewrite (G _ _ _ _ Hn); lia.
  - intros v (q & Hn). destruct (HP v (nth_error_lt Hn)) as (S & q0 & HU & Ht & E).
    unfold zx. rewrite E. destruct S as [p|p l r]; auto. simpl in Ht; subst p. destruct HU as (Hv & _). congruence.
Qed.

Lemma hyper_exists t xs n : core t xs n -> exists hs, hyper_ok t xs hs n.
Proof.
  intros HC. pose proof (co_wf HC) as W.
  destruct (@list_choice bitset [] (length t) (fun v z =>
    (leaf_at t v -> z = bempty n) /\
    (forall a b, kids2 t v a b -> z = band (band (ix xs v) (ix xs a)) (ix xs b)))) as (ks & HL & HP).
  { intros v Hv. destruct (kids2_or_leaf W Hv) as [Hlf|(a & b & q & Hn)].
    - exists (bempty n). split; auto. intros a b K. exfalso. eapply leaf_not_kids; eauto.
    - exists (band (band (ix xs v) (ix xs a)) (ix xs b)).
      assert (K : kids2 t v a b) by (exists q; auto). split.
      + intros Hlf. exfalso. eapply leaf_not_kids; eauto.
      + intros a' b' K'. destruct (kids2_fun K K') as [(-> & ->)|(-> & ->)]; auto.
        destruct (kids2_lt W K) as (L1 & L2 & L3).
        apply band3_sym with (n := n); apply (co_sz HC); auto. }
  exists ks. split; auto. split.
  - intros v a b K. destruct (kids2_lt W K) as (L1 & _). apply (HP v L1); auto.
  - intros v (q & Hn). apply (HP v (nth_error_lt Hn)). exists q. auto.
Qed.

(** ** The constructor *)
Lemma list_eqb_refl (A : Type) (f : A -> A -> bool) l : (forall x, f x x = true) -> list_eqb f l l = true.
Proof. intros H. induction l; simpl; auto. rewrite H, IHl. auto. Qed.
Lemma beqb_refl b : beqb b b = true.
Proof. induction b as [|x b IH]; simpl; auto. rewrite IH. destruct x; auto. Qed.

Definition the_min (R : Type) (s : im_state R) : Prop :=
  get_cost (im_ccost (im_cm s) (dims (im_min_ct s))) (im_min_ct s) = Ok (im_min s).

Lemma inv_is_valid (R : Type) (s : im_state R) n : inv s n none -> the_min s ->
  ctree_is_valid (im_ct s) (negb (im_ds s)) = true ->
  ctree_is_valid (im_min_ct s) (negb (im_ds s)) = true ->
  im_is_valid s = true.
Proof.
  intros [HC HH HK HP] Hm V1 V2. unfold im_is_valid, base_is_valid. rewrite V1, V2, Hm, Z.eqb_refl.
  rewrite (cost_cache_ok HC HK HP). simpl pcost. simpl ccost.
  rewrite !(list_eqb_refl _ Z.eqb_refl). rewrite (hyper_fold HC HH (core_n_inds HC)).
  rewrite (list_eqb_refl _ beqb_refl). auto.
Qed.

Lemma im_make_inv (R : Type) c m (r : R) ds mc s : wfl (nodes c) -> im_make c m r ds mc = Ok s ->
  inv s (n_inds c) none /\ the_min s /\ im_ct s = c /\ im_ds s = ds /\ im_cm s = m /\ im_rng s = r /\
  im_min_ct s = match mc with Some x => x | None => c end /\
  ctree_is_valid c (negb ds) = true /\ ctree_is_valid (im_min_ct s) (negb ds) = true /\
  (0 < tot s)%Z /\ (0 < im_min s)%Z.
Proof.
  intros W H. unfold im_make in H. set (mct := match mc with Some x => x | None => c end) in *.
  destruct (base_is_valid c mct ds) eqn:Hb; simpl in H; [|discriminate].
  unfold base_is_valid in Hb. apply andb_true_iff in Hb. destruct Hb as (V1 & V2).
  destruct (valid_core W V1) as (HC & HD & HS).
  destruct (ccost_exists (ccost_ucost m (dims c)) HC) as (ks & HK).
  destruct (pcost_exists ks W) as (ps & HP). destruct (hyper_exists HC) as (hs & HH).
  rewrite (cost_cache_ok HC HK HP) in H. simpl bind in H.
  rewrite (hyper_fold HC HH eq_refl) in H. simpl bind in H.
  destruct (get_cost (im_ccost m (dims mct)) mct) as [mt|] eqn:Emt; simpl bind in H; [|discriminate].
  assert (HI : inv (mkIM c ds r mct m (mkCC ps ks) hs mt) (n_inds c) none) by (constructor; auto).
  rewrite (im_total_ok HI) in H. simpl bind in H.
  destruct ((tot (mkIM c ds r mct m (mkCC ps ks) hs mt) <=? 0)%Z || (mt <=? 0)%Z) eqn:Hz; [discriminate|].
  apply orb_false_iff in Hz. destruct Hz as (Z1 & Z2). apply Z.leb_gt in Z1. apply Z.leb_gt in Z2.
  destruct (im_is_valid _); [|discriminate]. inversion H; subst s.
  split; [exact HI|]. split; [exact Emt|]. repeat split; auto.
Qed.

Lemma im_make_ok (R : Type) c m (r : R) ds mc s n : inv s n none -> the_min s ->
  im_ct s = c -> im_cm s = m -> im_rng s = r -> im_ds s = ds -> im_min_ct s = mc ->
  ctree_is_valid c (negb ds) = true -> ctree_is_valid mc (negb ds) = true ->
  (0 < tot s)%Z -> (0 < im_min s)%Z -> im_make c m r ds (Some mc) = Ok s.
Proof.
  intros HI Hm <- <- <- <- <- V1 V2 T1 T2. unfold im_make. unfold base_is_valid. rewrite V1, V2. simpl.
  pose proof HI as [HC HH HK HP].
  rewrite (cost_cache_ok HC HK HP). simpl bind. rewrite (hyper_fold HC HH (core_n_inds HC)). simpl bind.
  unfold the_min in Hm. rewrite Hm. simpl bind.
  replace (mkIM (im_ct s) (im_ds s) (im_rng s) (im_min_ct s) (im_cm s)
    (mkCC (pcost (im_cc s)) (ccost (im_cc s))) (im_hyper s) (im_min s)) with s
    by (destruct s as [a b c d e [f g] h i]; auto).
  rewrite (im_total_ok HI). simpl bind.
  rewrite (proj2 (Z.leb_gt _ _) T1), (proj2 (Z.leb_gt _ _) T2). simpl.
  rewrite (inv_is_valid HI Hm V1 V2). auto.
Qed.

(** ** Sessions *)
Inductive session (R : Type) : list (rand R) -> im_state R -> im_state R -> Prop :=
| ses_nil s : session [] s s
| ses_cons rd rds s s1 s2 : im_update rd s = Ok s1 -> session rds s1 s2 -> session (rd :: rds) s s2.

Lemma run_session (R : Type) (rds : list (rand R)) s s' : im_run rds s = Ok s' <-> session rds s s'.
Proof.
  split.
  - revert s. induction rds as [|rd rds IH]; simpl; intros s H.
    + inversion H; constructor.
    + apply bind_ok in H. destruct H as (s1 & H1 & H2). econstructor; eauto.
  - induction 1; simpl; auto. rewrite H. auto.
Qed.

Lemma path_core (R : Type) (rd : rand R) ds c z c' z' n : path rd ds c z c' z' -> core (nodes c) (inds c) n ->
  core (nodes c') (inds c') n.
Proof. intros H. apply moves_core with (ds := ds). eapply path_moves; eauto. Qed.

Lemma run_ok (R : Type) n : forall (rds : list (rand R)) s, inv s n none ->
  exists s', im_run rds s = Ok s' /\ inv s' n none /\ im_ds s' = im_ds s /\ im_cm s' = im_cm s /\
    moves (im_ds s) (im_ct s) (im_ct s').
Proof.
  induction rds as [|rd rds IH]; simpl; intros s HI.
  - exists s. split; [auto|]. split; auto. split; auto. split; auto. constructor.
  - destruct (im_update_spec rd HI) as (s1 & E1 & HI1 & D1 & M1 & P1 & _). rewrite E1. simpl.
    destruct (IH s1 HI1) as (s2 & E2 & HI2 & D2 & M2 & P2). exists s2. split; auto. split; auto.
    split; [congruence|]. split; [congruence|]. rewrite D1 in P2.
    eapply moves_trans; [eapply path_moves; exact P1|exact P2].
Qed.

(** The best tree is a tree that was current, or the initial best one. *)
Lemma run_min (R : Type) n : forall (rds : list (rand R)) s s', inv s n none -> im_run rds s = Ok s' ->
  (im_min s' <= im_min s)%Z /\
  ((im_min_ct s' = im_min_ct s /\ im_min s' = im_min s) \/
   exists rds1 rds2 s1, rds = rds1 ++ rds2 /\ rds1 <> [] /\ im_run rds1 s = Ok s1 /\ inv s1 n none /\
     im_ds s1 = im_ds s /\ im_cm s1 = im_cm s /\
     moves (im_ds s) (im_ct s) (im_ct s1) /\
     im_min_ct s' = im_ct s1 /\ im_min s' = tot s1).
Proof.
  induction rds as [|rd rds IH]; simpl; intros s s' HI H.
  - inversion H; subst. split; [lia|]. left. auto.
  - apply bind_ok in H. destruct H as (s1 & H1 & H2).
    destruct (im_update_spec rd HI) as (s1' & E1 & HI1 & D1 & M1 & P1 & Hm).
    rewrite E1 in H1. inversion H1; subst s1'.
    destruct (IH s1 s' HI1 H2) as (Hle & Hc).
    assert (Hle1 : (im_min s1 <= im_min s)%Z) by (destruct Hm as [(_ & -> & _)|(_ & -> & ?)]; lia).
    split; [lia|]. destruct Hc as [(Ec & Em)|(rds1 & rds2 & s2 & -> & Hne & Hr & HI2 & D2 & M2 & P2 & Ec & Em)].
    + destruct Hm as [(E3 & E4 & _)|(E3 & E4 & _)].
      * left. split; congruence.
      * right. exists [rd], rds, s1. split; auto. split; [discriminate|].
        simpl. rewrite E1. simpl. split; auto. split; auto. split; auto. split; auto.
        split; [eapply path_moves; exact P1|]. split; congruence.
    + right. exists (rd :: rds1), rds2, s2. split; auto. split; [discriminate|].
      simpl. rewrite E1. simpl. split; auto. split; auto. split; [congruence|]. split; [congruence|].
      split; [|auto]. rewrite D1 in P2. eapply moves_trans; [eapply path_moves; exact P1|exact P2].
Qed.

(** ** Total in terms of abstract trees *)
Definition code_cost (m : cmodel) (c : ctree) (T : bt) : Z :=
  bt_cost (fun p a b => ccost_of m (nth p (inds c) []) (nth a (inds c) []) (nth b (inds c) []) (dims c)) T.

Lemma code_cost_spec m c n T : core (nodes c) (inds c) n -> tree_of (nodes c) T -> cmodel_ok m n ->
  code_cost m c T = tree_cost m c n no_slices T.
Proof.
  intros HC HT Hm. pose proof HT as (HU & _). apply (bt_cost_ext HU). intros p a b q Hn.
  assert (K : kids2 (nodes c) p a b) by (exists q; auto).
  destruct (kids2_lt (co_wf HC) K) as (L1 & L2 & L3).
  pose proof (co_sz HC L1) as S1. pose proof (co_sz HC L2) as S2. pose proof (co_sz HC L3) as S3.
  change (nth p (inds c) []) with (ix (inds c) p). change (nth a (inds c) []) with (ix (inds c) a).
  change (nth b (inds c) []) with (ix (inds c) b).
  rewrite (ccost_prod _ _ Hm S1 S2). pose proof (co_loc HC K) as HL. unfold step_cost, no_slices.
  assert (E : forall i, btest (ix (inds c) p) i || btest (ix (inds c) a) i =
                        carries c a i || carries c b i || false).
  { intros i. specialize (HL i). unfold carries. change (nth i (nth a (inds c) []) false) with (btest (ix (inds c) a) i).
    change (nth i (nth b (inds c) []) false) with (btest (ix (inds c) b) i).
    destruct (btest (ix (inds c) p) i), (btest (ix (inds c) a) i), (btest (ix (inds c) b) i); simpl in *; intuition congruence. }
  assert (Ed : forall x, dim_at (dims c) x = dimension (dims c) x) by (intros; unfold dim_at, dimension; auto).
  destruct m as [|sp np]; cbn [bt_cost]; [|f_equal; [|f_equal]]; apply prod_over_ext; intros i Hi; rewrite E; auto.
Qed.

Lemma tot_tree (R : Type) (s : im_state R) n T : inv s n none -> tree_of (nodes (im_ct s)) T ->
  tot s = code_cost (im_cm s) (im_ct s) T.
Proof.
  intros [HC HH HK HP] HT. pose proof HT as (HU & _). destruct HK as (LK & HKk & HKl).
  unfold tot. rewrite <- (bt_cost_total HT LK HKl).
  apply (bt_cost_ext HU). intros p a b q Hn. apply (HKk p a b). exists q. auto.
Qed.

Lemma get_cost_tree m c n T : core (nodes c) (inds c) n -> tree_of (nodes c) T ->
  get_cost (im_ccost m (dims c)) c = Ok (code_cost m c T).
Proof. intros HC HT. apply (get_cost_ok (im_ccost m (dims c)) HC HT). Qed.

Lemma bt_cost_pos f t q T : unfolds t q T ->
  (forall p a b q, nth_error t p = Some (mkNode (Some a) (Some b) q) -> (1 <= f p a b)%Z) ->
  (0 <= bt_cost f T)%Z /\ (is_leaf (match nth_error t (top T) with Some x => x | None => mkNode None None None end) = false -> (1 <= bt_cost f T)%Z).
Proof.
  intros HU H. revert q HU. induction T as [p|p l IHl r IHr]; simpl; intros q HU.
  - rewrite HU. simpl. split; [lia|discriminate].
  - destruct HU as (Hn & Ul & Ur). destruct (IHl _ Ul) as (G1 & _). destruct (IHr _ Ur) as (G2 & _).
    specialize (H _ _ _ _ Hn). rewrite Hn. simpl. split; intros; lia.
Qed.

Lemma code_cost_pos m c n T : core (nodes c) (inds c) n -> tree_of (nodes c) T -> dims_ok c = true ->
  cmodel_ok m n -> 1 < length (nodes c) -> (0 < code_cost m c T)%Z.
Proof.
  intros HC HT HD Hm HL. pose proof HT as (HU & _ & Htop & Hlv).
  destruct (@bt_cost_pos (fun p a b => ccost_of m (nth p (inds c) []) (nth a (inds c) []) (nth b (inds c) []) (dims c))
     _ _ _ HU) as (_ & Hp).
  { intros p a b q Hn. assert (K : kids2 (nodes c) p a b) by (exists q; auto).
    destruct (kids2_lt (co_wf HC) K) as (L1 & L2 & L3).
    apply (ccost_pos (n := n)); auto; try (apply (co_sz HC); auto). apply dims_ok_pos; auto. }
  unfold code_cost. enough (1 <= bt_cost (fun p a b => ccost_of m (nth p (inds c) []) (nth a (inds c) []) (nth b (inds c) []) (dims c)) T)%Z by lia.
  apply Hp. rewrite Htop.
  destruct (nth_error (nodes c) (length (nodes c) - 1)) as [nd|] eqn:Hn; [|apply nth_error_None in Hn; lia].
  unfold is_leaf. destruct (c0 nd) eqn:E0; auto. exfalso.
  apply (wl_leaf (co_wf HC) Hn) in E0. unfold n_leaves in E0.
  assert ((length (nodes c) + 1) / 2 < length (nodes c)) by (apply Nat.div_lt_upper_bound; lia). lia.
Qed.

Lemma tot_length (R : Type) (s : im_state R) n : inv s n none -> (0 < tot s)%Z -> 1 < length (nodes (im_ct s)).
Proof.
  intros HI Ht. pose proof (iv_core HI) as HC. pose proof (co_wf HC) as W. pose proof (wl_len W).
  destruct (Nat.eq_dec (length (nodes (im_ct s))) 1) as [E|]; [|lia]. exfalso.
  destruct (iv_cc HI) as (LK & _ & HKl). unfold tot in Ht.
  destruct (kids2_or_leaf W (v := 0) ltac:(lia)) as [Hlf|(a & b & q & Hn)].
  - specialize (HKl _ Hlf). destruct (ccost (im_cc s)) as [|x [|y l]]; simpl in LK; try lia.
    unfold zx in HKl. simpl in HKl, Ht. lia.
  - assert (K : kids2 (nodes (im_ct s)) 0 a b) by (exists q; auto).
    destruct (kids2_lt W K) as (L1 & L2 & L3).
    destruct (wl_two W Hn) as [(E0 & _)|(a' & b' & E0 & E1 & Hne)]; simpl in *; [discriminate|].
    inversion E0; inversion E1; subst. lia.
Qed.
