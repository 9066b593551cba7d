(** Neighbourhoods returned by [get_ctree_nn], walks to the root, and the caches
    as recomputed from scratch. *)
From Coq Require Import Permutation.
From Verif Require Import M_Base M_Bitset M_Tree M_CTree M_Cost M_Opt S_Tree S_Opt
  P_Base P_Bitset P_Tree P_Shape P_TreeProps P_Opt.
Set Implicit Arguments.
Unset Strict Implicit.

(** ** get_ctree_nn *)
Lemma nbh_B_node t sA sE A B C D E pA nC nD nE : nbh t sA sE A B C D E pA nC nD nE ->
  nth_error t B = Some (mkNode (pick sE E D) (pick sE D E) (Some A)).
Proof. intros (_ & H & _). auto. Qed.

Lemma nn_spec (R : Type) (rd : rand R) c n ds r B :
  core (nodes c) (inds c) n -> B < length (nodes c) ->
  (exists r', get_ctree_nn rd c ds r (Some B) = Ok (None, r') /\
     (leaf_at (nodes c) B \/ forall p, ~ parent (nodes c) B p)) \/
  (exists r' sA sE A C D E pA nC nD nE,
     get_ctree_nn rd c ds r (Some B) = Ok (Some (A, C, D, E), r') /\
     nbh (nodes c) sA sE A B C D E pA nC nD nE /\
     (ds = false -> bintersects (ix (inds c) B) (ix (inds c) C) = true ->
        bintersects (ix (inds c) D) (ix (inds c) C) = true)).
Proof.
  intros HC LB. pose proof (co_wf HC) as W.
  destruct (nth_error (nodes c) B) as [nB|] eqn:HB; [|apply nth_error_None in HB; lia].
  unfold get_ctree_nn. rewrite (get_some HB). simpl bind.
  destruct (wl_two W HB) as [(E0 & E1)|(p0 & p1 & E0 & E1 & Hne)].
  { left. unfold is_leaf. rewrite ?E0, ?E1. simpl. rewrite orb_true_r. eexists. split; [reflexivity|].
    left. exists (par nB). destruct nB; simpl in *; subst; auto. }
  destruct (par nB) as [A|] eqn:Ep.
  2:{ left. unfold is_root. rewrite Ep. simpl. eexists. split; [reflexivity|].
      right. intros p (m & Hm & Hp). congruence. }
  right. unfold is_root, is_leaf. rewrite ?Ep, ?E0, ?E1. simpl.
  assert (PB : parent (nodes c) B A) by (exists nB; auto).
  assert (P0 : parent (nodes c) p0 B) by (apply (wl_kp W); exists nB; auto).
  assert (P1 : parent (nodes c) p1 B) by (apply (wl_kp W); exists nB; auto).
  destruct (find_nbh W P0 PB) as (s0 & e0 & C & x0 & q0 & m1 & m2 & m3 & N0).
  destruct (find_nbh W P1 PB) as (s1 & e1 & C' & x1 & q1 & k1 & k2 & k3 & N1).
  assert (X0 : x0 = p1).
  { pose proof (nbh_B_node N0) as HB'. rewrite HB in HB'. inversion HB' as [HB2]. clear HB'.
    rewrite HB2 in E0, E1. simpl in *. destruct e0; simpl in *; congruence. }
  assert (X1 : x1 = p0).
  { pose proof (nbh_B_node N1) as HB'. rewrite HB in HB'. inversion HB' as [HB2]. clear HB'.
    rewrite HB2 in E0, E1. simpl in *. destruct e1; simpl in *; congruence. }
  subst x0 x1.
  destruct N0 as (HA & N0'). destruct N1 as (HA' & N1').
  assert (HCC : C' = C /\ (if oeqb (pick s0 B C) (Some B) then pick s0 C B else pick s0 B C) = Some C).
  { assert (HBC : B <> C).
    { destruct N0' as (_ & _ & _ & _ & _ & _ & _ & Hnd). apply nodup5 in Hnd. intuition. }
    assert (HBC' : B <> C').
    { destruct N1' as (_ & _ & _ & _ & _ & _ & _ & Hnd). apply nodup5 in Hnd. intuition. }
    rewrite HA in HA'. inversion HA' as [[H1 H2 H3]]. split.
    - destruct s0, s1; simpl in *; congruence.
    - destruct s0; simpl; [rewrite Nat.eqb_refl; auto|].
      rewrite (proj2 (Nat.eqb_neq C B)) by auto. auto. }
  destruct HCC as (-> & HCC).
  rewrite (get_some HA). simpl bind. simpl c0. simpl c1. rewrite HCC.
  assert (N0 : nbh (nodes c) s0 e0 A B C p1 p0 q0 m1 m3 m2) by (split; auto).
  assert (N1 : nbh (nodes c) s1 e1 A B C p0 p1 q1 k1 k3 k2) by (split; auto).
  clear N0' N1'.
  destruct (nbh_lt N0) as (LA & _ & LC & L1 & L0).
  pose proof (co_len HC) as HL.
  rewrite (@get_nth _ (inds c) C []) by lia. simpl bind.
  rewrite (@get_nth _ (inds c) p0 []) by lia. simpl bind.
  rewrite (@get_nth _ (inds c) p1 []) by lia. simpl bind.
  fold (ix (inds c) C) (ix (inds c) p0) (ix (inds c) p1).
  assert (S0 := co_sz HC L0). assert (S1 := co_sz HC L1). assert (SB := co_sz HC LB). assert (SC := co_sz HC LC).
  assert (OR : bintersects (ix (inds c) B) (ix (inds c) C) = true ->
    bintersects (ix (inds c) p0) (ix (inds c) C) = true \/ bintersects (ix (inds c) p1) (ix (inds c) C) = true).
  { intros Hi. apply bintersects_spec in Hi; [|congruence]. destruct Hi as (i & Hi1 & Hi2).
    pose proof (co_loc HC (nbh_kids2B N0)) as Hl. specialize (Hl i). destruct Hl as (_ & Hl).
    apply Hl in Hi1. apply orb_true_iff in Hi1. destruct Hi1; [right|left]; apply bintersects_spec; try congruence; eauto. }
  destruct (ds || bintersects (ix (inds c) p0) (ix (inds c) C) && bintersects (ix (inds c) p1) (ix (inds c) C)) eqn:Hb.
  - destruct (draw rd r) as (x & r').
    assert (Both : ds = false -> bintersects (ix (inds c) p0) (ix (inds c) C) = true /\
                                 bintersects (ix (inds c) p1) (ix (inds c) C) = true).
    { intros ->. simpl in Hb. apply andb_true_iff in Hb. auto. }
    destruct (Nat.odd x).
    + do 11 eexists. split; [reflexivity|]. split; [exact N1|]. intros Hd _. apply Both; auto.
    + do 11 eexists. split; [reflexivity|]. split; [exact N0|]. intros Hd _. apply Both; auto.
  - destruct (bintersects (ix (inds c) p0) (ix (inds c) C)) eqn:H0.
    + do 11 eexists. split; [reflexivity|]. split; [exact N1|]. auto.
    + do 11 eexists. split; [reflexivity|]. split; [exact N0|]. intros _ Hi.
      destruct (OR Hi); congruence.
Qed.

(** ** Walks to the root *)
Inductive climb (t : tree) : nat -> nat -> Prop :=
| climb_root v : v < length t -> (forall p, ~ parent t v p) -> climb t v 0
| climb_up v p k : parent t v p -> climb t p k -> climb t v (S k).

Lemma climb_ex t v : wfl t -> v < length t -> exists k, climb t v k.
Proof.
  intros W Hv. destruct (wl_rank W) as (h & Hh).
  destruct (max_rank h (length t)) as (m & Hm).
  remember (m - h v) as d eqn:Ed. assert (Hd : m - h v <= d) by lia. clear Ed.
  revert v Hv Hd. induction d as [|d IH]; intros v Hv Hd.
  - destruct (parent_dec t v) as [(p & Hp)|Hn].
    + pose proof (parent_lt W Hp) as Lp. pose proof (Hm p Lp).
      pose proof (Hh p v (proj2 (wl_kp W p v) Hp)). lia.
    + exists 0. constructor; auto.
  - destruct (parent_dec t v) as [(p & Hp)|Hn].
    + pose proof (parent_lt W Hp) as Lp. pose proof (Hm p Lp).
      pose proof (Hh p v (proj2 (wl_kp W p v) Hp)).
      destruct (IH p Lp ltac:(lia)) as (k & Hk). exists (S k). econstructor; eauto.
    + exists 0. constructor; auto.
Qed.

Lemma climb_lt t v k : wfl t -> climb t v k -> v < length t.
Proof. intros W H. inversion H; subst; auto. destruct H0 as (n & Hn & _). eapply nth_error_lt; eauto. Qed.

Lemma climb_bound t v k : wfl t -> climb t v k -> k < length t.
Proof.
  intros W H. destruct (wl_rank W) as (h & Hh).
  assert (G : exists l, length l = S k /\ NoDup l /\ (forall x, In x l -> x < length t /\ h v <= h x)).
  { induction H as [v Hv Hn|v p k Hp Hc IH].
    - exists [v]. split; auto. split; [repeat constructor; auto|]. simpl. intros x [->|[]]. auto.
    - destruct IH as (l & Hl & Hnd & Hx).
      pose proof (Hh p v (proj2 (wl_kp W p v) Hp)).
      exists (v :: l). split; [simpl; lia|]. split.
      + constructor; auto. intros Hi. apply Hx in Hi. lia.
      + intros x [<-|Hi].
        * split; auto. destruct Hp as (n & Hn & _). eapply nth_error_lt; eauto.
        * apply Hx in Hi. lia. }
  destruct G as (l & Hl & Hnd & Hx).
  assert (length l <= length (seq 0 (length t))).
  { apply NoDup_incl_length; auto. intros x Hi. apply in_seq. apply Hx in Hi. lia. }
  rewrite seq_length in H0. lia.
Qed.

(** The walk from A upwards is not changed by a rotation below A. *)
Lemma climb_rot t sA sE A B C D E pA nC nD nE k : wfl t ->
  nbh t sA sE A B C D E pA nC nD nE -> climb t A k ->
  climb (rot t sA sE A B C D E pA nC nE) A k.
Proof.
  intros W H. destruct (wl_rank W) as (h & Hh).
  assert (hC : h C < h A) by (apply Hh; apply (nbh_kidA H); auto).
  assert (hE : h E < h A).
  { assert (h E < h B) by (apply Hh; apply (nbh_kidB H); auto).
    assert (h B < h A) by (apply Hh; apply (nbh_kidA H); auto). lia. }
  assert (G : forall v k, climb t v k -> h A <= h v -> climb (rot t sA sE A B C D E pA nC nE) v k).
  { intros v k0 Hc. induction Hc as [v Hv Hn|v p k0 Hp Hc IH]; intros Hle.
    - constructor; [rewrite rot_length; auto|]. intros p Hp.
      apply (rot_parent H) in Hp. destruct Hp as [(-> & _)|[(-> & _)|(_ & _ & Hp)]]; try lia. eapply Hn; eauto.
    - pose proof (Hh p v (proj2 (wl_kp W p v) Hp)).
      econstructor; [apply (rot_parent H); right; right|apply IH; lia].
      repeat split; auto; intros ->; lia. }
  intros Hc. apply G; auto.
Qed.

(** ** Costs of abstract trees *)
Lemma pcost_bt t ks ps w q T : unfolds t q T -> pcost_ok t ks ps w ->
  (forall v, ~ w v) -> zx ps (top T) = bt_cost (fun p _ _ => zx ks p) T.
Proof.
  intros HU (Lp & Hk & Hlf) Hw. revert q HU. induction T as [p|p l IHl r IHr]; simpl; intros q HU.
  - apply Hlf. exists q. auto.
  - destruct HU as (Hn & Ul & Ur).
    rewrite (Hk p (top l) (top r)); auto; [|exists q; auto].
    rewrite (IHl _ Ul), (IHr _ Ur). reflexivity.
Qed.

Lemma bt_cost_ext f g t q T : unfolds t q T ->
  (forall p a b q, nth_error t p = Some (mkNode (Some a) (Some b) q) -> f p a b = g p a b) ->
  bt_cost f T = bt_cost g T.
Proof.
  intros HU H. revert q HU. induction T as [p|p l IHl r IHr]; simpl; intros q HU; auto.
  destruct HU as (Hn & Ul & Ur). rewrite (IHl _ Ul), (IHr _ Ur), (H _ _ _ _ Hn). auto.
Qed.

Lemma bt_cost_sum ks t q T : unfolds t q T -> (forall v, leaf_at t v -> zx ks v = 0%Z) ->
  bt_cost (fun p _ _ => zx ks p) T = sumZ (map (zx ks) (positions T)).
Proof.
  intros HU Hlf. revert q HU. induction T as [p|p l IHl r IHr]; simpl; intros q HU.
  - rewrite Hlf by (exists q; auto). auto.
  - destruct HU as (Hn & Ul & Ur). rewrite map_app, sumZ_app, (IHl _ Ul), (IHr _ Ur). lia.
Qed.

Lemma sumZ_perm l k : Permutation l k -> sumZ l = sumZ k.
Proof. induction 1; simpl; lia. Qed.

Lemma map_zx_seq l : map (zx l) (seq 0 (length l)) = l.
Proof.
  apply nth_error_ext. intros i. destruct (Nat.lt_ge_cases i (length l)) as [Hi|Hi].
  - rewrite (map_nth_error (zx l) i (seq 0 (length l)) (d := i)).
    + unfold zx. symmetry. apply nth_error_nth'. auto.
    + rewrite (nth_error_nth' _ 0) by (rewrite seq_length; auto). rewrite seq_nth by auto. auto.
  - rewrite (proj2 (nth_error_None _ _)) by (rewrite map_length, seq_length; auto).
    symmetry. apply nth_error_None. auto.
Qed.

Lemma bt_cost_total ks t T : tree_of t T -> length ks = length t ->
  (forall v, leaf_at t v -> zx ks v = 0%Z) ->
  bt_cost (fun p _ _ => zx ks p) T = sumZ ks.
Proof.
  intros HT HL Hlf. pose proof HT as (HU & HP & _). rewrite (bt_cost_sum HU Hlf).
  rewrite (sumZ_perm (Permutation_map (zx ks) HP)). rewrite <- HL, map_zx_seq. auto.
Qed.

(** ** Recomputed caches *)
Lemma zx_upd_eq l i x : i < length l -> zx (upd l i x) i = x.
Proof. apply upd_nth_eq. Qed.
Lemma zx_upd_neq l i j x : i <> j -> zx (upd l i x) j = zx l j.
Proof. apply upd_nth_neq. Qed.

Definition cost_at (cc : bitset -> bitset -> bitset -> Z) (xs : list bitset) (p a b : nat) : Z :=
  cc (ix xs p) (ix xs a) (ix xs b).

Section Recompute.
  Variables (cc : bitset -> bitset -> bitset -> Z) (c : ctree) (n : nat).
  Hypothesis HC : core (nodes c) (inds c) n.
  Let t := nodes c.

  Lemma fold_res_app (S A : Type) (f : S -> A -> res S) l k s s' :
    fold_res f l s = Ok s' -> fold_res f (l ++ k) s = fold_res f k s'.
  Proof.
    revert s. induction l as [|x l IH]; simpl; intros s; [congruence|].
    destruct (f s x); simpl; [auto|discriminate].
  Qed.

  Lemma get_cost_fold q T tot : unfolds t q T ->
    fold_res (get_cost_visit cc c) (postorder T) tot = Ok (tot + bt_cost (cost_at cc (inds c)) T)%Z.
  Proof.
    revert q tot. induction T as [p|p l IHl r IHr]; intros q tot HU.
    - simpl. unfold get_cost_visit. fold t. simpl in HU. rewrite (get_some HU). simpl. f_equal. lia.
    - destruct HU as (Hn & Ul & Ur). simpl postorder.
      rewrite (fold_res_app _ (IHl _ _ Ul)), (fold_res_app _ (IHr _ _ Ur)). simpl.
      unfold get_cost_visit. fold t. rewrite (get_some Hn). simpl.
      pose proof (co_len HC) as HL. fold t in HL.
      pose proof (nth_error_lt Hn). destruct (unfolds_top Ul) as (nl & Hl & _). destruct (unfolds_top Ur) as (nr & Hr & _).
      pose proof (nth_error_lt Hl). pose proof (nth_error_lt Hr).
      rewrite (@get_nth _ (inds c) p []) by lia. simpl bind.
      rewrite (@get_nth _ (inds c) (top l) []) by lia. simpl bind.
      rewrite (@get_nth _ (inds c) (top r) []) by lia. simpl bind.
      f_equal. unfold cost_at, ix. lia.
  Qed.

  Lemma get_cost_ok T : tree_of t T -> get_cost cc c = Ok (bt_cost (cost_at cc (inds c)) T).
  Proof.
    intros HT. unfold get_cost. fold t. rewrite (traverse_ok HT). simpl bind.
    destruct HT as (HU & _). rewrite (get_cost_fold 0%Z HU). auto.
  Qed.

  Variables (ks ps : list Z).
  Hypothesis HK : ccost_ok cc t (inds c) ks.
  Hypothesis HP : pcost_ok t ks ps (fun _ => False).

  Lemma cost_fold q T k : unfolds t q T -> NoDup (positions T) ->
    length (pcost k) = length t -> length (ccost k) = length t ->
    exists k', fold_res (cost_cache_visit cc c) (postorder T) k = Ok k' /\
      length (pcost k') = length t /\ length (ccost k') = length t /\
      (forall v, In v (positions T) -> zx (pcost k') v = zx ps v /\ zx (ccost k') v = zx ks v) /\
      (forall v, ~ In v (positions T) -> zx (pcost k') v = zx (pcost k) v /\ zx (ccost k') v = zx (ccost k) v).
  Proof.
    destruct HK as (LK & HKk & HKl). destruct HP as (LP & HPk & HPl).
    revert q k. induction T as [p|p l IHl r IHr]; intros q k HU Hnd L1 L2.
    - simpl in HU |- *. unfold cost_cache_visit. fold t. rewrite (get_some HU). simpl.
      pose proof (nth_error_lt HU) as Lp.
      rewrite !set_ok by lia. simpl. eexists. split; [reflexivity|]. simpl.
      rewrite !upd_length. split; [auto|]. split; [auto|].
      assert (Hlf : leaf_at t p) by (exists q; auto). unfold zx in *.
      split; intros v Hv.
      + destruct Hv as [<-|[]]. rewrite !upd_nth_eq by lia. rewrite HKl, HPl by auto. auto.
      + assert (p <> v) by tauto. rewrite !upd_nth_neq by auto. auto.
    - destruct HU as (Hn & Ul & Ur). simpl in Hnd. inversion Hnd as [|? ? Hni Hnd']; subst.
      apply nodup_app in Hnd'. destruct Hnd' as (N1 & N2 & N3).
      destruct (IHl _ k Ul N1 L1 L2) as (k1 & F1 & M1 & M2 & A1 & B1).
      destruct (IHr _ k1 Ur N2 M1 M2) as (k2 & F2 & M3 & M4 & A2 & B2).
      simpl postorder. rewrite (fold_res_app _ F1), (fold_res_app _ F2). simpl.
      unfold cost_cache_visit. fold t. rewrite (get_some Hn). simpl.
      pose proof (co_len HC) as HL. fold t in HL.
      pose proof (nth_error_lt Hn) as Lp. destruct (unfolds_top Ul) as (nl & Hl & _). destruct (unfolds_top Ur) as (nr & Hr & _).
      pose proof (nth_error_lt Hl) as Ll. pose proof (nth_error_lt Hr) as Lr.
      rewrite (@get_nth _ (inds c) p []) by lia. simpl bind.
      rewrite (@get_nth _ (inds c) (top l) []) by lia. simpl bind.
      rewrite (@get_nth _ (inds c) (top r) []) by lia. simpl bind.
      rewrite (@get_nth _ (pcost k2) (top l) 0%Z) by lia. simpl bind.
      rewrite (@get_nth _ (pcost k2) (top r) 0%Z) by lia. simpl bind.
      rewrite !set_ok by lia. simpl. eexists. split; [reflexivity|]. simpl.
      rewrite !upd_length. split; [auto|]. split; [auto|].
      fold (zx (pcost k2) (top l)) (zx (pcost k2) (top r)).
      fold (ix (inds c) p) (ix (inds c) (top l)) (ix (inds c) (top r)).
      assert (K : kids2 t p (top l) (top r)) by (exists q; auto).
      rewrite (proj1 (A2 _ (top_in r))).
      assert (T1 : ~ In (top l) (positions r)) by (intros Hi; apply (N3 _ (top_in l) Hi)).
      rewrite (proj1 (B2 _ T1)), (proj1 (A1 _ (top_in l))).
      assert (Dp : forall v, In v (positions l) \/ In v (positions r) -> p <> v).
      { intros v Hv ->. apply Hni. apply in_or_app. auto. }
      split; intros v Hv.
      + destruct Hv as [<-|Hv].
        * rewrite !zx_upd_eq by lia. rewrite (HKk _ _ _ K).
          rewrite (HPk _ _ _ K) by auto. rewrite (HKk _ _ _ K). split; lia.
        * apply in_app_or in Hv.
          rewrite !zx_upd_neq by (apply Dp; auto).
          destruct (in_dec Nat.eq_dec v (positions r)) as [Hi|Hi]; [apply A2; auto|].
          destruct Hv as [Hv|Hv]; [|contradiction].
          destruct (B2 _ Hi) as (-> & ->). apply A1; auto.
      + simpl in Hv. assert (p <> v) by tauto. rewrite in_app_iff in Hv.
        rewrite !zx_upd_neq by auto.
        destruct (B2 v ltac:(tauto)) as (-> & ->). apply B1. tauto.
  Qed.

  Lemma zx_ext l k : length l = length k -> (forall v, v < length l -> zx l v = zx k v) -> l = k.
  Proof. intros HL H. apply (nth_ext _ _ 0%Z 0%Z); auto. Qed.

  Lemma cost_cache_ok : cost_cache_make cc c = Ok (mkCC ps ks).
  Proof.
    destruct (wfl_tree_of (co_wf HC)) as (T & HT). unfold cost_cache_make.
    rewrite (traverse_ok HT). simpl bind. fold t in HT |- *. destruct (tree_of_in HT) as (Hnd & Hin).
    pose proof HT as (HU & _).
    destruct (@cost_fold None T (mkCC (repeat 0%Z (length t)) (repeat 0%Z (length t))) HU Hnd)
      as (k' & -> & L1 & L2 & HA & _); simpl; try apply repeat_length.
    f_equal. destruct k' as [p' c']. simpl in *.
    destruct HK as (LK & _). destruct HP as (LP & _).
    f_equal; apply zx_ext; try congruence; intros v Hv; apply HA; apply Hin; congruence.
  Qed.

  Lemma hyper_fold hs : hyper_ok t (inds c) hs n -> n_inds c = n -> hyper_cache_make c = Ok hs.
  Proof.
    intros (LH & Hk & Hl) En. unfold hyper_cache_make. fold t. rewrite <- LH.
    assert (G : forall l, (forall v, In v l -> v < length t) -> map_res (hyper_of_node c) l = Ok (map (ix hs) l)).
    { induction l as [|v l IH]; simpl; intros Hv; auto.
      assert (Lv : v < length t) by auto.
      assert (Hv' : hyper_of_node c v = Ok (ix hs v)).
      { unfold hyper_of_node. fold t. destruct (nth_error t v) as [nd|] eqn:Hn; [|apply nth_error_None in Hn; lia].
        rewrite (get_some Hn). simpl.
        destruct (wl_two (co_wf HC) Hn) as [(E0 & E1)|(a & b & E0 & E1 & _)]; unfold is_leaf; rewrite ?E0, ?E1; simpl.
        - rewrite En, Hl; auto. exists (par nd). destruct nd; simpl in *; subst; auto.
        - assert (K : kids2 t v a b) by (exists (par nd); left; destruct nd; simpl in *; subst; auto).
          destruct (kids2_lt (co_wf HC) K) as (_ & La & Lb). pose proof (co_len HC) as HL. fold t in HL, La, Lb.
          rewrite (@get_nth _ (inds c) v []) by lia. simpl bind.
          rewrite (@get_nth _ (inds c) a []) by lia. simpl bind.
          rewrite (@get_nth _ (inds c) b []) by lia. simpl bind.
          rewrite (Hk _ _ _ K). auto. }
      rewrite Hv'. simpl. rewrite IH by auto. auto. }
    rewrite G by (intros v Hv; apply in_seq in Hv; lia).
    f_equal. apply (nth_ext _ _ [] []); [rewrite map_length, seq_length; auto|].
    rewrite map_length, seq_length. intros i Hi.
    rewrite (nth_indep _ [] (ix hs 0)) by (rewrite map_length, seq_length; auto).
    rewrite map_nth. rewrite seq_nth by auto. auto.
  Qed.
End Recompute.
