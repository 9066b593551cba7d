(** swap, traverse and get_contraction on well-formed trees. *)
From Coq Require Import Permutation.
From Verif Require Import M_Base M_Tree S_Tree P_Base P_Tree P_Shape.
Set Implicit Arguments.
Unset Strict Implicit.

(** ** swap *)
Lemma tree_of_child_root t T d : tree_of t T -> kid t (top T) d ->
  exists p l r, T = Nd p l r /\ (d = top l \/ d = top r).
Proof.
  intros (HU & _) (n & Hn & Hk). destruct T as [a|a l r]; simpl in *.
  - rewrite HU in Hn. inversion Hn; subst. simpl in Hk. intuition congruence.
  - destruct HU as (HU & _). rewrite HU in Hn. inversion Hn; subst. simpl in Hk.
    exists a, l, r. split; auto. intuition congruence.
Qed.

Lemma swap_shallow t T d : tree_of t T -> shallow d T -> swap_nn t d = Ok t.
Proof.
  intros HT Hs. destruct (tree_of_in HT) as (Hnd & Hin).
  destruct Hs as [Hn|[->|(p & l & r & -> & Hd)]].
  - apply swap_noop_range. rewrite Hin in Hn. lia.
  - destruct HT as (HU & _). destruct (unfolds_top HU) as (n & Hn & Hp). eapply swap_noop_root; eauto.
  - destruct HT as ((Hp & Ul & Ur) & _).
    destruct Hd as [-> | ->].
    + destruct (unfolds_top Ul) as (n & Hn & E). eapply swap_noop_toproot; eauto.
    + destruct (unfolds_top Ur) as (n & Hn & E). eapply swap_noop_toproot; eauto.
Qed.

Lemma swap_deep t T d : tree_of t T -> ~ shallow d T ->
  exists t' T', swap_nn t d = Ok t' /\ tree_of t' T' /\ exchange d T T'.
Proof.
  intros HT Hs. pose proof (tree_of_wfl HT) as W. destruct (tree_of_in HT) as (Hnd & Hin).
  destruct (le_lt_dec (length t) d) as [Hge|Hlt].
  { exfalso. apply Hs. left. rewrite Hin. lia. }
  destruct (nth_error t d) as [n|] eqn:Hn; [|apply nth_error_None in Hn; lia].
  assert (Hroot : forall v m, nth_error t v = Some m -> par m = None -> v = top T).
  { intros v m Hm Hp. destruct HT as (_ & _ & Htop & _). rewrite Htop.
    apply (wl_root W (nth_error_lt Hm)). intros p (m' & Hm' & Hp'). congruence. }
  destruct (par n) as [B|] eqn:Hp.
  2:{ exfalso. apply Hs. right; left. eauto. }
  assert (PD : parent t d B) by (unfold parent; eauto).
  pose proof (proj2 (wl_kp W B d) PD) as Kd. pose proof Kd as (nB & HnB & _).
  destruct (par nB) as [A|] eqn:HpB.
  2:{ exfalso. apply Hs. right; right. apply (tree_of_child_root HT). rewrite <- (Hroot _ _ HnB HpB). auto. }
  assert (PB : parent t B A) by (unfold parent; eauto).
  destruct (find_nbh W PD PB) as (sA & sE & C & E & pA & nC & nD & nE & H).
  destruct (rot_tree_of H HT) as (T' & Hx & HT').
  exists (rot t sA sE A B C E d pA nC nD), T'. split; auto. apply (swap_nbh H).
Qed.

Lemma exchange_uncle d T T' : exchange d T T' -> exists u, uncle d u T.
Proof.
  induction 1.
  - exists (top C). constructor; auto.
  - exists (top C). constructor; auto.
  - exists (top C). apply un_r; auto.
  - exists (top C). apply un_r; auto.
  - destruct IHexchange as (u & Hu). exists u. apply un_left; auto.
  - destruct IHexchange as (u & Hu). exists u. apply un_right; auto.
Qed.

Lemma uncle_facts t q T d u : unfolds t q T -> NoDup (positions T) -> uncle d u T ->
  exists b a, parent t d b /\ parent t b a /\ kid t a u /\ u <> b.
Proof.
  intros HU Hnd H. revert q HU Hnd. induction H; intros q HU Hnd; simpl in HU, Hnd.
  - destruct HU as (Ha & (Hb & Ul & Ur) & UC). inversion Hnd as [|? ? Hni Hnd']; subst.
    inversion Hnd' as [|? ? Hnb Hnd'']; subst.
    exists b, a. split; [|split; [|split]].
    + destruct H as [<-|<-].
      * destruct (unfolds_top Ul) as (n & Hn & E). exists n; auto.
      * destruct (unfolds_top Ur) as (n & Hn & E). exists n; auto.
    + eexists; split; [exact Hb|auto].
    + eexists; split; [exact Ha|]. simpl. auto.
    + intros E. apply Hnb. apply in_app_iff. right. rewrite <- E. apply top_in.
  - destruct HU as (Ha & UC & (Hb & Ul & Ur)). inversion Hnd as [|? ? Hni Hnd']; subst.
    apply nodup_app in Hnd'. destruct Hnd' as (N1 & N2 & Ndj).
    exists b, a. split; [|split; [|split]].
    + destruct H as [<-|<-].
      * destruct (unfolds_top Ul) as (n & Hn & E). exists n; auto.
      * destruct (unfolds_top Ur) as (n & Hn & E). exists n; auto.
    + eexists; split; [exact Hb|auto].
    + eexists; split; [exact Ha|]. simpl. auto.
    + intros E. apply (Ndj b); [rewrite <- E; apply top_in|simpl; auto].
  - destruct HU as (Ha & Ul & Ur). inversion Hnd as [|? ? Hni Hnd']; subst.
    apply nodup_app in Hnd'. destruct Hnd' as (N1 & N2 & Ndj). eauto.
  - destruct HU as (Ha & Ul & Ur). inversion Hnd as [|? ? Hni Hnd']; subst.
    apply nodup_app in Hnd'. destruct Hnd' as (N1 & N2 & Ndj). eauto.
Qed.

Lemma swap_undo t T d u : tree_of t T -> uncle d u T ->
  exists t', swap_nn t d = Ok t' /\ swap_nn t' u = Ok t.
Proof.
  intros HT Hu. pose proof (tree_of_wfl HT) as W. destruct (tree_of_in HT) as (Hnd & _).
  destruct (uncle_facts (proj1 HT) Hnd Hu) as (b & a & PD & PB & Ku & Nu).
  destruct (find_nbh W PD PB) as (sA & sE & C & E & pA & nC & nD & nE & H).
  assert (u = C) by (apply (nbh_kidA H) in Ku; tauto). subst u.
  exists (rot t sA sE a b C E d pA nC nD). split; [apply (swap_nbh H)|apply (rot_rot H)].
Qed.

(** Arbitrary node lists. *)
Lemma is_leaf_set_child2 n x : is_leaf (set_child n true x) = is_leaf n.
Proof. reflexivity. Qed.
Lemma is_leaf_set_par n x : is_leaf (set_par n x) = is_leaf n.
Proof. reflexivity. Qed.

Definition leafmap (t : tree) : list bool := map is_leaf t.

Lemma leafmap_upd t i n m : nth_error t i = Some m -> is_leaf n = is_leaf m ->
  leafmap (upd t i n) = leafmap t.
Proof.
  revert i. induction t as [|x t IH]; intros [|i]; simpl; intros H E; try discriminate.
  - inversion H; subst. congruence.
  - unfold leafmap in *. simpl. f_equal. eauto.
Qed.

Lemma swap_footprint t d t' : swap_nn t d = Ok t' ->
  leafmap t' = leafmap t /\ length t' = length t /\
  (t' = t \/ exists n b nb a na u,
    nth_error t d = Some n /\ par n = Some b /\
    nth_error t b = Some nb /\ par nb = Some a /\
    nth_error t a = Some na /\ (c0 na = Some u \/ c1 na = Some u) /\
    (u = b -> c0 na = Some b -> c1 na = Some b) /\
    forall v, v <> d -> v <> b -> v <> a -> v <> u -> nth_error t' v = nth_error t v).
Proof.
  unfold swap_nn. destruct (Nat.leb_spec (length t) d) as [Hl|Hl].
  { intros E; inversion E; auto. }
  intros H. apply bind_ok in H. destruct H as (nD & HnD & H). apply get_ok in HnD.
  destruct (par nD) as [b|] eqn:HpD; [|inversion H; auto].
  apply bind_ok in H. destruct H as (nB & HnB & H). apply get_ok in HnB.
  destruct (par nB) as [a|] eqn:HpB; [|inversion H; auto].
  apply bind_ok in H. destruct H as (nA & HnA & H). apply get_ok in HnA.
  destruct (if oeqb (c0 nA) (Some b) then c1 nA else c0 nA) as [u|] eqn:EC; [|discriminate].
  apply bind_ok in H. destruct H as (nC & HnC & H). apply get_ok in HnC.
  apply bind_ok in H. destruct H as (t1 & H1 & H). apply set_inv in H1. destruct H1 as (L1 & ->).
  apply bind_ok in H. destruct H as (nB' & HnB' & H). apply get_ok in HnB'.
  apply bind_ok in H. destruct H as (t2 & H2 & H). apply set_inv in H2. destruct H2 as (L2 & ->).
  apply bind_ok in H. destruct H as (nC' & HnC' & H). apply get_ok in HnC'.
  apply bind_ok in H. destruct H as (t3 & H3 & H). apply set_inv in H3. destruct H3 as (L3 & ->).
  apply bind_ok in H. destruct H as (nD' & HnD' & H). apply get_ok in HnD'.
  apply set_inv in H. destruct H as (L4 & ->).
  split; [|split].
  - rewrite (leafmap_upd HnD') by reflexivity.
    rewrite (leafmap_upd HnC') by reflexivity.
    rewrite (leafmap_upd HnB').
    2:{ destruct (oeqb (c0 nB') (Some d)) eqn:E; simpl; [|reflexivity].
        apply oeqb_spec in E. unfold is_leaf. simpl. rewrite E. auto. }
    rewrite (leafmap_upd HnA); auto.
    destruct (oeqb (c0 nA) (Some u)) eqn:E; simpl; [|reflexivity].
    apply oeqb_spec in E. unfold is_leaf. simpl. rewrite E. auto.
  - rewrite !upd_length. auto.
  - right. exists nD, b, nB, a, nA, u. repeat split; auto.
    + destruct (oeqb (c0 nA) (Some b)); auto.
    + intros -> E. rewrite E in EC. rewrite oeqb_refl in EC. auto.
    + intros v n1 n2 n3 n4. rewrite !upd_neq by auto. auto.
Qed.

(** ** traverse *)
Fixpoint tcost (T : bt) : nat := match T with Lf _ => 1 | Nd _ l r => S (S (tcost l + tcost r)) end.

Lemma tcost_le T : tcost T <= 2 * bsize T.
Proof. induction T; simpl; lia. Qed.

Lemma traverse_loop_bt t T : forall q f stack vis out,
  unfolds t q T -> NoDup (positions T) -> length vis = length t ->
  (forall p, In p (positions T) -> nth_error vis p = Some false) ->
  exists vis', length vis' = length t /\
    (forall p, ~ In p (positions T) -> nth_error vis' p = nth_error vis p) /\
    traverse_loop (tcost T + f) t (top T :: stack) vis out =
    traverse_loop f t stack vis' (out ++ postorder T).
Proof.
  induction T as [a|a l IHl r IHr]; intros q f stack vis out HU Hnd Hlen Hv.
  - simpl in HU. exists vis. repeat split; auto. cbn [tcost top plus traverse_loop].
    rewrite (get_some HU). cbn [bind]. rewrite (get_some (Hv a (or_introl eq_refl))). cbn [bind].
    cbn. auto.
  - destruct HU as (Ha & Ul & Ur). simpl in Hnd. inversion Hnd as [|? ? Hni Hnd']; subst.
    apply nodup_app in Hnd'. destruct Hnd' as (N1 & N2 & Ndj). rewrite in_app_iff in Hni.
    pose proof (nth_error_lt Ha) as La.
    cbn [tcost top].
    replace (S (S (tcost l + tcost r)) + f) with (S (tcost l + (tcost r + S f))) by lia.
    cbn [traverse_loop]. rewrite (get_some Ha). cbn [bind].
    rewrite (get_some (Hv a (or_introl eq_refl))). cbn [bind].
    unfold is_leaf. cbn [c0 c1 orb]. rewrite set_ok by (rewrite Hlen; auto). cbn [bind].
    set (vis1 := upd vis a true).
    assert (L1 : length vis1 = length t) by (unfold vis1; rewrite upd_length; auto).
    destruct (IHl (Some a) (tcost r + S f) (top r :: a :: stack) vis1 out Ul N1 L1) as (vis2 & L2 & F2 & E2).
    { intros p Hp. unfold vis1. rewrite upd_neq by (intros ->; tauto).
      apply Hv. simpl. rewrite in_app_iff. auto. }
    rewrite E2.
    destruct (IHr (Some a) (S f) (a :: stack) vis2 (out ++ postorder l) Ur N2 L2) as (vis3 & L3 & F3 & E3).
    { intros p Hp. rewrite F2 by (intros ?; eauto). unfold vis1. rewrite upd_neq by (intros ->; tauto).
      apply Hv. simpl. rewrite in_app_iff. auto. }
    rewrite E3.
    assert (Va : nth_error vis3 a = Some true).
    { rewrite F3 by tauto. rewrite F2 by tauto. apply upd_eq. rewrite Hlen; auto. }
    exists vis3. split; auto. split.
    + intros p Hp. simpl in Hp. rewrite in_app_iff in Hp.
      rewrite F3 by tauto. rewrite F2 by tauto. apply upd_neq. tauto.
    + cbn [traverse_loop]. rewrite (get_some Ha). cbn [bind]. rewrite (get_some Va). cbn [bind orb].
      simpl. rewrite !app_assoc. auto.
Qed.

Lemma nth_error_repeat {A} (x : A) n i : i < n -> nth_error (repeat x n) i = Some x.
Proof. revert i. induction n; intros [|i] H; simpl; try lia; auto. apply IHn. lia. Qed.

Lemma traverse_ok t T : tree_of t T -> traverse t = Ok (postorder T).
Proof.
  intros HT. destruct (tree_of_in HT) as (Hnd & Hin). destruct HT as (HU & Hp & Htop & _).
  unfold traverse.
  assert (Hs : bsize T = length t).
  { rewrite <- bsize_positions, (Permutation_length Hp), seq_length. auto. }
  pose proof (tcost_le T) as Hc. rewrite Hs in Hc.
  replace (2 * length t) with (tcost T + (2 * length t - tcost T)) by lia.
  rewrite <- Htop.
  destruct (@traverse_loop_bt t T None (2 * length t - tcost T) [] (repeat false (length t)) [])
    as (vis' & _ & _ & E); auto.
  - apply repeat_length.
  - intros p Hi. apply nth_error_repeat. apply Hin; auto.
  - rewrite E. destruct (2 * length t - tcost T); reflexivity.
Qed.

Lemma postorder_perm T : Permutation (postorder T) (positions T).
Proof.
  induction T as [a|a l IHl r IHr]; simpl; auto.
  rewrite app_assoc. eapply Permutation_trans; [apply Permutation_app_comm|]. simpl.
  apply perm_skip. apply Permutation_app; auto.
Qed.

Lemma postorder_last T : exists k, postorder T = k ++ [top T].
Proof. destruct T as [a|a l r]; simpl; [exists []|exists (postorder l ++ postorder r); rewrite <- app_assoc]; auto. Qed.

(** Children precede parents. *)
Lemma postorder_kids t q T : unfolds t q T -> NoDup (positions T) ->
  forall k1 v k2 c, postorder T = k1 ++ v :: k2 -> kid t v c -> In c k1.
Proof.
  revert q. induction T as [a|a l IHl r IHr]; intros q HU Hnd k1 v k2 c E Hk.
  - exfalso. simpl in *. assert (v = a).
    { assert (Hi : In v [a]) by (rewrite E; apply in_app_iff; simpl; auto). destruct Hi as [->|[]]; auto. }
    subst. destruct Hk as (n & Hn & Hk). rewrite HU in Hn. inversion Hn; subst. simpl in Hk.
    intuition congruence.
  - destruct HU as (Ha & Ul & Ur). simpl in Hnd. inversion Hnd as [|? ? Hni Hnd']; subst.
    apply nodup_app in Hnd'. destruct Hnd' as (N1 & N2 & Ndj). rewrite in_app_iff in Hni.
    simpl in E.
    assert (NP : NoDup (k1 ++ v :: k2)).
    { rewrite <- E. apply Permutation_NoDup with (l := a :: positions l ++ positions r); auto.
      apply Permutation_sym. apply (postorder_perm (Nd a l r)). }
    assert (Hv : In v (postorder l ++ postorder r ++ [a])) by (rewrite E; apply in_app_iff; simpl; auto).
    rewrite !in_app_iff in Hv. destruct Hv as [Hv|[Hv|[->|[]]]].
    + apply in_split in Hv. destruct Hv as (x & y & Ex).
      assert (k1 = x).
      { rewrite Ex in E. rewrite <- app_assoc in E. simpl in E.
        assert (HnI : forall (u w u' w' : list nat), u ++ v :: w = u' ++ v :: w' ->
                 NoDup (u ++ v :: w) -> u = u').
        { clear. induction u as [|b u IH]; intros w u' w' E H; destruct u' as [|b' u']; auto.
          - simpl in *. inversion E; subst. inversion H; subst. exfalso. apply H2.
            apply in_app_iff. simpl. auto.
          - simpl in *. inversion E; subst. inversion H; subst. exfalso. apply H2.
            apply in_app_iff. simpl; auto.
          - simpl in *. inversion E; subst. inversion H; subst. f_equal. eapply IH; eauto. }
        symmetry. eapply HnI; [exact E|]. rewrite E. auto. }
      subst. eapply IHl; eauto.
    + apply in_split in Hv. destruct Hv as (x & y & Ex).
      assert (k1 = postorder l ++ x).
      { rewrite Ex in E. rewrite <- app_assoc in E. simpl in E. rewrite app_assoc in E.
        assert (HnI : forall (u w u' w' : list nat), u ++ v :: w = u' ++ v :: w' ->
                 NoDup (u ++ v :: w) -> u = u').
        { clear. induction u as [|b u IH]; intros w u' w' E H; destruct u' as [|b' u']; auto.
          - simpl in *. inversion E; subst. inversion H; subst. exfalso. apply H2.
            apply in_app_iff. simpl. auto.
          - simpl in *. inversion E; subst. inversion H; subst. exfalso. apply H2.
            apply in_app_iff. simpl; auto.
          - simpl in *. inversion E; subst. inversion H; subst. f_equal. eapply IH; eauto. }
        symmetry. eapply HnI; [exact E|]. rewrite E. auto. }
      subst. apply in_app_iff. right. eapply IHr; eauto.
    + assert (Ek : k1 = postorder l ++ postorder r).
      { rewrite app_assoc in E.
        destruct k2 as [|z k2 _] using rev_ind.
        - apply app_inj_tail in E. symmetry. tauto.
        - exfalso. rewrite app_comm_cons, app_assoc in E. apply app_inj_tail in E.
          destruct E as (E & _).
          assert (Hi : In v (postorder l ++ postorder r)).
          { rewrite E. apply in_app_iff. simpl; auto. }
          apply in_app_iff in Hi. destruct Hi as [Hi|Hi];
            apply (Permutation_in _ (postorder_perm _)) in Hi; tauto. }
      subst k1. destruct Hk as (n & Hn & Hk). rewrite Ha in Hn. inversion Hn; subst. simpl in Hk.
      apply in_app_iff. destruct Hk as [Hk|Hk]; inversion Hk; subst; [left|right].
      * apply (Permutation_in _ (Permutation_sym (postorder_perm l))). apply top_in.
      * apply (Permutation_in _ (Permutation_sym (postorder_perm r))). apply top_in.
Qed.

Lemma contraction_of_app t o1 o2 m1 m2 : contraction_of t o1 = Ok m1 -> contraction_of t o2 = Ok m2 ->
  contraction_of t (o1 ++ o2) = Ok (m1 ++ m2).
Proof.
  revert m1. induction o1 as [|p o1 IH]; simpl; intros m1 H1 H2.
  - inversion H1; subst. auto.
  - apply bind_ok in H1. destruct H1 as (n & Hn & H1). rewrite Hn. cbn [bind].
    apply bind_ok in H1. destruct H1 as (rest & Hr & H1). rewrite (IH _ Hr H2). cbn [bind].
    destruct (c0 n), (c1 n); inversion H1; subst; auto.
Qed.

Lemma contraction_ok t q T : unfolds t q T -> contraction_of t (postorder T) = Ok (merges T).
Proof.
  revert q. induction T as [a|a l IHl r IHr]; simpl; intros q HU.
  - rewrite (get_some HU). reflexivity.
  - destruct HU as (Ha & Ul & Ur).
    apply contraction_of_app; eauto. apply contraction_of_app; eauto.
    simpl. rewrite (get_some Ha). reflexivity.
Qed.

Lemma get_contraction_ok t T : tree_of t T -> get_contraction t = Ok (merges T).
Proof.
  intros HT. unfold get_contraction. rewrite (traverse_ok HT). cbn [bind].
  eapply contraction_ok. apply HT.
Qed.

(** Each merge uses leaves or results of earlier merges, each at most once. *)
Lemma merges_ready T : forall k1 x y p k2, merges T = k1 ++ (x, y, p) :: k2 ->
  forall z, z = x \/ z = y -> In z (leaves T) \/ In z (map (fun m => snd m) k1).
Proof.
  assert (Htop : forall T, In (top T) (leaves T) \/ In (top T) (map (fun m => snd m) (merges T))).
  { intros [a|a l r]; simpl; auto. right. rewrite !map_app, !in_app_iff. simpl. auto. }
  assert (Hsplit : forall (A : Type) (l1 l2 k1 k2 : list A) x, l1 ++ l2 = k1 ++ x :: k2 ->
    (exists k2', l1 = k1 ++ x :: k2') \/ (exists k1', k1 = l1 ++ k1' /\ l2 = k1' ++ x :: k2)).
  { clear. induction l1 as [|a l1 IH]; simpl; intros l2 k1 k2 x E.
    - right. exists k1. auto.
    - destruct k1 as [|b k1]; simpl in *; inversion E; subst.
      + left. exists l1. auto.
      + destruct (IH _ _ _ _ H1) as [(k2' & ->)|(k1' & -> & ->)]; [left|right]; eexists; eauto. }
  induction T as [a|a l IHl r IHr]; simpl; intros k1 x y p k2 E z Hz.
  - destruct k1; discriminate.
  - apply Hsplit in E. destruct E as [(k2' & E)|(k1' & -> & E)].
    + destruct (IHl _ _ _ _ _ E z Hz); auto. left. apply in_app_iff; auto.
    + apply Hsplit in E. destruct E as [(k2' & E)|(k1'' & -> & E)].
      * destruct (IHr _ _ _ _ _ E z Hz).
        -- left. apply in_app_iff; auto.
        -- right. rewrite map_app, in_app_iff. auto.
      * destruct k1'' as [|m k1'']; [|destruct k1''; discriminate]. simpl in E. inversion E; subst.
        rewrite !map_app, !in_app_iff.
        destruct Hz as [-> | ->]; [destruct (Htop l)|destruct (Htop r)]; auto.
Qed.
