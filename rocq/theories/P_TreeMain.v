(** The lemmas behind the property theorems on trees, in their final form. *)
From Coq Require Import Permutation.
From Verif Require Import M_Base M_Tree S_Tree P_Base P_Tree P_Shape P_TreeProps P_TreeValid.
Set Implicit Arguments.
Unset Strict Implicit.

Lemma swap_keeps_tree_lemma : forall t T d, tree_of t T ->
  (shallow d T -> swap_nn t d = Ok t) /\
  (~ shallow d T -> exists t' T',
      swap_nn t d = Ok t' /\ tree_of t' T' /\ exchange d T T' /\
      length t' = length t /\ top T' = top T /\ Permutation (leaves T') (leaves T)).
Proof.
  intros t T d HT. split.
  - apply swap_shallow; auto.
  - intros Hs. destruct (swap_deep HT Hs) as (t' & T' & E & HT' & Hx). exists t', T'.
    repeat split; auto; try apply HT'.
    + apply swap_footprint in E. tauto.
    + eapply exchange_top; eauto.
    + apply Permutation_sym. eapply exchange_leaves; eauto.
Qed.

Lemma swap_undo_lemma : forall t T d, tree_of t T ->
  (shallow d T -> swap_nn t d = Ok t) /\
  (~ shallow d T -> exists u, uncle d u T) /\
  (forall u, uncle d u T -> exists t', swap_nn t d = Ok t' /\ swap_nn t' u = Ok t).
Proof.
  intros t T d HT. repeat split.
  - apply swap_shallow; auto.
  - intros Hs. destruct (swap_deep HT Hs) as (t' & T' & E & HT' & Hx). eapply exchange_uncle; eauto.
  - intros u Hu. eapply swap_undo; eauto.
Qed.

Lemma swap_footprint_lemma : forall t d t', swap_nn t d = Ok t' ->
  length t' = length t /\
  map is_leaf t' = map is_leaf t /\
  (t' = t \/ exists n b nb a na u,
    nth_error t d = Some n /\ par n = Some b /\
    nth_error t b = Some nb /\ par nb = Some a /\
    nth_error t a = Some na /\ (c0 na = Some u \/ c1 na = Some u) /\
    forall v, ~ In v [d; b; a; u] -> nth_error t' v = nth_error t v).
Proof.
  intros t d t' H. destruct (swap_footprint H) as (H1 & H2 & H3). repeat split; auto.
  destruct H3 as [H3|(n & b & nb & a & na & u & E1 & E2 & E3 & E4 & E5 & E6 & _ & E7)]; auto.
  right. exists n, b, nb, a, na, u. repeat split; auto. intros v Hv. simpl in Hv. apply E7; intros ->; tauto.
Qed.

Lemma swap_noop_lemma : forall t d,
  (length t <= d \/
   (exists n, nth_error t d = Some n /\ par n = None) \/
   (exists n b nb, nth_error t d = Some n /\ par n = Some b /\ nth_error t b = Some nb /\ par nb = None)) ->
  swap_nn t d = Ok t.
Proof.
  intros t d [H|[(n & H & E)|(n & b & nb & H & E & H' & E')]].
  - apply swap_noop_range; auto.
  - eapply swap_noop_root; eauto.
  - eapply swap_noop_toproot; eauto.
Qed.

Lemma traverse_lemma : forall t, well_formed t ->
  exists order, traverse t = Ok order /\
    Permutation order (seq 0 (length t)) /\
    (exists k, order = k ++ [length t - 1]) /\
    (forall k1 v k2 n c, order = k1 ++ v :: k2 -> nth_error t v = Some n ->
       (c0 n = Some c \/ c1 n = Some c) -> In c k1).
Proof.
  intros t (T & HT). destruct (tree_of_in HT) as (Hnd & _). exists (postorder T).
  split; [apply traverse_ok; auto|]. destruct HT as (HU & Hp & Htop & _). repeat split.
  - eapply Permutation_trans; [apply postorder_perm|auto].
  - rewrite <- Htop. apply postorder_last.
  - intros k1 v k2 n c E Hn Hk. eapply postorder_kids; eauto. exists n; auto.
Qed.

Lemma merges_internal t q T : unfolds t q T -> NoDup (positions T) ->
  forall x y p, In (x, y, p) (merges T) <-> In p (positions T) /\ exists q', nth_error t p = Some (mkNode (Some x) (Some y) q').
Proof.
  revert q. induction T as [a|a l IHl r IHr]; intros q HU Hnd x y p; simpl in *.
  - split; [tauto|]. intros ([->|[]] & q' & E). rewrite HU in E. discriminate.
  - destruct HU as (Ha & Ul & Ur). inversion Hnd as [|? ? Hni Hnd']; subst.
    apply nodup_app in Hnd'. destruct Hnd' as (N1 & N2 & Ndj). rewrite in_app_iff in Hni.
    rewrite !in_app_iff, (IHl _ Ul N1), (IHr _ Ur N2). split.
    + intros [(H1 & H2)|[(H1 & H2)|[E|[]]]]; auto. inversion E; subst. split; eauto.
    + intros ([->|[Hp|Hp]] & q' & E); auto.
      * right; right; left. rewrite Ha in E. inversion E; subst. auto.
      * left. eauto.
      * right; left. eauto.
Qed.

Lemma merges_targets T : map snd (merges T) = filter (fun p => negb (existsb (Nat.eqb p) (leaves T))) (postorder T)
  \/ ~ NoDup (positions T).
Proof.
  destruct (ListDec.NoDup_dec Nat.eq_dec (positions T)) as [Hnd|]; auto. left.
  assert (G : forall U L, (forall x, In x (leaves U) -> In x L) -> NoDup (positions U) ->
    (forall x, In x (positions U) -> In x L -> In x (leaves U)) ->
    map snd (merges U) = filter (fun p => negb (existsb (Nat.eqb p) L)) (postorder U)).
  { clear. induction U as [a|a l IHl r IHr]; intros L H1 Hnd H2; simpl in *.
    - assert (E : existsb (Nat.eqb a) L = true).
      { apply existsb_exists. exists a. split; auto. apply Nat.eqb_refl. }
      rewrite E. auto.
    - inversion Hnd as [|? ? Hni Hnd']; subst. apply nodup_app in Hnd'. destruct Hnd' as (N1 & N2 & Ndj).
      rewrite in_app_iff in Hni.
      rewrite !map_app, !filter_app. rewrite <- IHl, <- IHr; auto.
      + f_equal. f_equal. simpl.
        assert (E : existsb (Nat.eqb a) L = false).
        { apply not_true_iff_false. intros E. apply existsb_exists in E. destruct E as (b & Hb & Eb).
          apply Nat.eqb_eq in Eb. subst b. specialize (H2 a (or_introl eq_refl) Hb).
          apply in_app_iff in H2. destruct H2 as [H2|H2]; apply leaves_in in H2; tauto. }
        rewrite E. auto.
      + intros x Hx. apply H1. apply in_app_iff; auto.
      + intros x Hx HL. specialize (H2 x). rewrite !in_app_iff in H2.
        destruct H2 as [|H2]; auto. exfalso. eauto using leaves_in.
      + intros x Hx. apply H1. apply in_app_iff; auto.
      + intros x Hx HL. specialize (H2 x). rewrite !in_app_iff in H2.
        destruct H2 as [H2|]; auto. exfalso. eauto using leaves_in. }
  apply G; auto.
Qed.

Lemma map_snd_nodup t T : tree_of t T -> NoDup (map snd (merges T)).
Proof.
  intros HT. destruct (tree_of_in HT) as (Hnd & _).
  destruct (merges_targets T) as [E|E]; [|contradiction]. rewrite E. apply NoDup_filter.
  eapply Permutation_NoDup; [apply Permutation_sym, postorder_perm|auto].
Qed.

Lemma get_contraction_lemma : forall t, well_formed t ->
  exists ms, get_contraction t = Ok ms /\
    (forall x y p, In (x, y, p) ms <-> exists q, nth_error t p = Some (mkNode (Some x) (Some y) q)) /\
    NoDup (map snd ms) /\
    (forall k1 x y p k2 z, ms = k1 ++ (x, y, p) :: k2 -> z = x \/ z = y ->
       z < (length t + 1) / 2 \/ In z (map snd k1)).
Proof.
  intros t (T & HT). destruct (tree_of_in HT) as (Hnd & Hin). exists (merges T).
  split; [apply get_contraction_ok; auto|]. split; [|split].
  - intros x y p. rewrite (merges_internal (proj1 HT) Hnd). split; [tauto|]. intros (q & Hq). split; eauto.
    apply Hin. eapply nth_error_lt; eauto.
  - eapply map_snd_nodup; eauto.
  - intros k1 x y p k2 z E Hz. destruct (merges_ready E Hz) as [H|H]; auto.
    left. apply HT in H. auto.
Qed.

Lemma make_sound_lemma : forall t t', tree_make t = Ok t' ->
  t' = t /\ 0 < length t /\ length t = 2 * ((length t + 1) / 2) - 1 /\
  (forall v n, nth_error t v = Some n ->
     (par n = None <-> v = length t - 1) /\
     (c0 n = None <-> v < (length t + 1) / 2) /\
     ((c0 n = None /\ c1 n = None) \/ exists a b, c0 n = Some a /\ c1 n = Some b /\ a <> b)) /\
  (forall c, c < length t - 1 -> exists v n, nth_error t v = Some n /\ (c0 n = Some c \/ c1 n = Some c) /\
     forall w m, nth_error t w = Some m -> (c0 m = Some c \/ c1 m = Some c) -> w = v) /\
  (forall v n, nth_error t v = Some n -> c0 n <> Some (length t - 1) /\ c1 n <> Some (length t - 1)).
Proof.
  intros t t' H. destruct (make_valid H) as (-> & A).
  split; [auto|]. split; [apply A|]. split; [apply (ac_size A)|].
  split; [|split].
  - intros v n Hn. split; [apply (ac_root A Hn)|split; [apply (ac_leaf A Hn)|apply (ac_two A Hn)]].
  - intros c Hc. destruct (ac_one A Hc) as (v & (n & Hn & Hk) & Hu). exists v, n. repeat split; auto.
    intros w m Hm Hk'. apply Hu. exists m; auto.
  - intros v n Hn. split; intros E; apply (ac_none A (v := v)); exists n; auto.
Qed.

Lemma make_characterises_lemma : forall t, well_formed t <->
  (tree_make t = Ok t /\
   (forall v n c, nth_error t v = Some n -> c0 n = Some c \/ c1 n = Some c ->
      exists m, nth_error t c = Some m /\ par m = Some v) /\
   (exists h : nat -> nat, forall v n c, nth_error t v = Some n -> c0 n = Some c \/ c1 n = Some c -> h c < h v)).
Proof.
  intros t. split.
  - intros W. split; [apply make_complete; auto|]. apply wf_iff in W. split.
    + intros v n c Hn Hk. apply (kid_node W). exists n; auto.
    + destruct (wl_rank W) as (h & Hr). exists h. intros v n c Hn Hk. apply Hr. exists n; auto.
  - intros (H & Hp & h & Hr). destruct (make_valid H) as (_ & A). apply wf_iff. apply accepted_wfl; auto.
    + intros v c (n & Hn & Hk). destruct (Hp _ _ _ Hn Hk) as (m & Hm & E). exists m; auto.
    + exists h. intros v c (n & Hn & Hk). eauto.
Qed.
