(** Node lists and abstract trees. *)
From Coq Require Import Permutation.
From Verif Require Import M_Base M_Tree S_Tree P_Base P_Tree.
Set Implicit Arguments.
Unset Strict Implicit.

Lemma top_in T : In (top T) (positions T).
Proof. destruct T; simpl; auto. Qed.

Lemma leaves_in T p : In p (leaves T) -> In p (positions T).
Proof.
  induction T as [q|q l IHl r IHr]; simpl; auto.
  rewrite !in_app_iff. tauto.
Qed.

Lemma unfolds_top t q T : unfolds t q T -> exists n, nth_error t (top T) = Some n /\ par n = q.
Proof. destruct T; simpl; intros H; [|destruct H as (H & _)]; eauto. Qed.

Lemma unfolds_nth t q T p : unfolds t q T -> In p (positions T) -> exists n, nth_error t p = Some n.
Proof.
  revert q. induction T as [a|a l IHl r IHr]; simpl; intros q H Hp.
  - destruct Hp as [->|[]]. eauto.
  - destruct H as (H & Hl & Hr). destruct Hp as [->|Hp]; eauto.
    apply in_app_iff in Hp. destruct Hp; eauto.
Qed.

(** The parent of a position inside the tree: that of the top is [q]. *)
Lemma unfolds_up t q T c : unfolds t q T -> In c (positions T) ->
  (c = top T /\ (forall n, nth_error t c = Some n -> par n = q)) \/
  (exists v, In v (positions T) /\ kid t v c /\ (forall n, nth_error t c = Some n -> par n = Some v)).
Proof.
  revert q. induction T as [a|a l IHl r IHr]; simpl; intros q H Hp.
  - destruct Hp as [->|[]]. left. split; auto. intros n Hn. rewrite H in Hn. inversion Hn; auto.
  - destruct H as (H & Hl & Hr). destruct Hp as [->|Hp].
    { left. split; auto. intros n Hn. rewrite H in Hn. inversion Hn; auto. }
    right. apply in_app_iff in Hp. destruct Hp as [Hp|Hp].
    + destruct (IHl _ Hl Hp) as [(-> & E)|(v & Hv & Hk & E)].
      * exists a. repeat split; auto. eexists. split; eauto.
      * exists v. repeat split; auto. right. apply in_app_iff; auto.
    + destruct (IHr _ Hr Hp) as [(-> & E)|(v & Hv & Hk & E)].
      * exists a. repeat split; auto. eexists. split; eauto.
      * exists v. repeat split; auto. right. apply in_app_iff; auto.
Qed.

Lemma unfolds_down t q T v c : unfolds t q T -> In v (positions T) -> kid t v c ->
  In c (positions T) /\ parent t c v.
Proof.
  revert q. induction T as [a|a l IHl r IHr]; simpl; intros q H Hp Hk.
  - destruct Hp as [->|[]]. destruct Hk as (n & Hn & Hk). rewrite H in Hn. inversion Hn; subst.
    simpl in Hk. intuition congruence.
  - destruct H as (H & Hl & Hr). destruct Hp as [->|Hp].
    + destruct Hk as (n & Hn & Hk). rewrite H in Hn. inversion Hn; subst. simpl in Hk.
      destruct Hk as [Hk|Hk]; inversion Hk; subst.
      * split; [right; apply in_app_iff; left; apply top_in|].
        destruct (unfolds_top Hl) as (n & E1 & E2). exists n; auto.
      * split; [right; apply in_app_iff; right; apply top_in|].
        destruct (unfolds_top Hr) as (n & E1 & E2). exists n; auto.
    + rewrite in_app_iff in *. destruct Hp as [Hp|Hp].
      * destruct (IHl _ Hl Hp Hk); auto.
      * destruct (IHr _ Hr Hp Hk); auto.
Qed.

Lemma unfolds_frame t t' q T :
  (forall p, In p (positions T) -> nth_error t' p = nth_error t p) -> unfolds t q T -> unfolds t' q T.
Proof.
  revert q. induction T as [a|a l IHl r IHr]; simpl; intros q E H.
  - rewrite E; auto.
  - destruct H as (H & Hl & Hr). rewrite E by auto. repeat split; auto.
    + apply IHl; auto. intros p Hp. apply E. right. apply in_app_iff; auto.
    + apply IHr; auto. intros p Hp. apply E. right. apply in_app_iff; auto.
Qed.

Lemma nodup_split (l k : list nat) x : NoDup (l ++ k) -> In x l -> In x k -> False.
Proof.
  induction l as [|y l IH]; simpl; intros H Hl Hk; auto.
  inversion H; subst. destruct Hl as [->|Hl]; auto. apply H2. apply in_app_iff; auto.
Qed.
Lemma nodup_app (l k : list nat) : NoDup (l ++ k) <->
  NoDup l /\ NoDup k /\ (forall x, In x l -> In x k -> False).
Proof.
  split.
  - intros H. repeat split.
    + induction l as [|x l IH]; [constructor|]. simpl in H. inversion H; subst. constructor; auto.
      intros Hi. apply H2. apply in_app_iff; auto.
    + induction l as [|x l IH]; auto. simpl in H. inversion H; subst. auto.
    + intros x. apply nodup_split; auto.
  - intros (Hl & Hk & Hd). induction l as [|x l IH]; simpl; auto.
    inversion Hl; subst. constructor.
    + rewrite in_app_iff. intros [Hi|Hi]; auto. apply (Hd x); simpl; auto.
    + apply IH; auto. intros y Hy. apply Hd. simpl; auto.
Qed.

(** Changing only the parent link of the top. *)
Lemma unfolds_reparent t t' q q' T : NoDup (positions T) ->
  (forall n, nth_error t (top T) = Some n -> nth_error t' (top T) = Some (mkNode (c0 n) (c1 n) q')) ->
  (forall p, In p (positions T) -> p <> top T -> nth_error t' p = nth_error t p) ->
  unfolds t q T -> unfolds t' q' T.
Proof.
  intros Hnd Ht E H. destruct T as [a|a l r]; simpl in *.
  - rewrite (Ht _ H). reflexivity.
  - destruct H as (H & Hl & Hr). rewrite (Ht _ H). split; [reflexivity|].
    inversion Hnd as [|? ? Hni Hnd']; subst. rewrite in_app_iff in Hni.
    split.
    + apply (unfolds_frame (t := t)); auto. intros p Hp. apply E.
      * right; apply in_app_iff; auto.
      * intros ->; tauto.
    + apply (unfolds_frame (t := t)); auto. intros p Hp. apply E.
      * right; apply in_app_iff; auto.
      * intros ->; tauto.
Qed.

(** ** From local well-formedness to an abstract tree *)
Inductive upstar (t : tree) : nat -> nat -> Prop :=
| up_refl v : upstar t v v
| up_step v p w : parent t v p -> upstar t p w -> upstar t v w.

Lemma parent_fun t v p q : parent t v p -> parent t v q -> p = q.
Proof. intros (n & Hn & Hp) (m & Hm & Hq). congruence. Qed.

Lemma upstar_trans t a b c : upstar t a b -> upstar t b c -> upstar t a c.
Proof. induction 1; auto. intros. econstructor; eauto. Qed.

Lemma upstar_linear t a x y : upstar t a x -> upstar t a y -> upstar t x y \/ upstar t y x.
Proof.
  intros H. revert y. induction H as [v|v p w Hp Hu IH]; intros y Hy; auto.
  inversion Hy as [|? p' ? Hp' Hu']; subst.
  - right. econstructor; eauto.
  - assert (p' = p) by (eapply parent_fun; eauto). subst. auto.
Qed.

Lemma upstar_rank t h v w : wfl t -> ranked t h -> upstar t v w -> v = w \/ h v < h w.
Proof.
  intros W Hr H. induction H as [v|v p w Hp Hu IH]; auto.
  apply (wl_kp W) in Hp. apply Hr in Hp. right. destruct IH as [->|IH]; lia.
Qed.

Lemma unfolds_upstar t q T p : unfolds t q T -> In p (positions T) -> upstar t p (top T).
Proof.
  revert q. induction T as [a|a l IHl r IHr]; simpl; intros q H Hp.
  - destruct Hp as [->|[]]. constructor.
  - destruct H as (H & Hl & Hr). destruct Hp as [->|Hp]; [constructor|].
    apply in_app_iff in Hp. destruct Hp as [Hp|Hp].
    + eapply upstar_trans; [eapply IHl; eauto|]. destruct (unfolds_top Hl) as (n & E1 & E2).
      econstructor; [exists n; eauto|constructor].
    + eapply upstar_trans; [eapply IHr; eauto|]. destruct (unfolds_top Hr) as (n & E1 & E2).
      econstructor; [exists n; eauto|constructor].
Qed.

Lemma wfl_nodup t q T : wfl t -> unfolds t q T -> NoDup (positions T).
Proof.
  intros W. destruct (wl_rank W) as (h & Hr). revert q.
  induction T as [a|a l IHl r IHr]; simpl; intros q H.
  - constructor; auto. constructor.
  - destruct H as (H & Hl & Hr').
    destruct (unfolds_top Hl) as (nl & El1 & El2). destruct (unfolds_top Hr') as (nr & Er1 & Er2).
    assert (Kl : kid t a (top l)) by (eexists; split; [exact H|]; simpl; auto).
    assert (Kr : kid t a (top r)) by (eexists; split; [exact H|]; simpl; auto).
    assert (Hlr : top l <> top r).
    { destruct (wl_two W H) as [(E & _)|(x & y & E1 & E2 & Hn)]; simpl in *; [discriminate|congruence]. }
    assert (noup : forall x y, kid t a x -> kid t a y -> x <> y -> ~ upstar t x y).
    { intros x y Kx Ky Hxy Hu. inversion Hu as [|? p ? Hp Hu']; subst; auto.
      apply (wl_kp W) in Hp. assert (p = a) by (eapply kid_uniq_parent; eauto). subst p.
      destruct (upstar_rank W Hr Hu') as [->|Hlt].
      - apply Hr in Ky. lia.
      - apply Hr in Ky. lia. }
    constructor.
    + rewrite in_app_iff. intros [Hi|Hi].
      * pose proof (unfolds_upstar Hl Hi) as Hu. destruct (upstar_rank W Hr Hu) as [E|Hlt].
        -- apply Hr in Kl. rewrite <- E in Kl. lia.
        -- apply Hr in Kl. lia.
      * pose proof (unfolds_upstar Hr' Hi) as Hu. destruct (upstar_rank W Hr Hu) as [E|Hlt].
        -- apply Hr in Kr. rewrite <- E in Kr. lia.
        -- apply Hr in Kr. lia.
    + apply nodup_app. repeat split; eauto.
      intros x Hx Hy. pose proof (unfolds_upstar Hl Hx) as Ux. pose proof (unfolds_upstar Hr' Hy) as Uy.
      destruct (upstar_linear Ux Uy) as [Hu|Hu].
      * eapply (noup _ _ Kl Kr); eauto.
      * eapply (noup _ _ Kr Kl); eauto.
Qed.

Lemma build_bt t v n : wfl t -> nth_error t v = Some n ->
  exists T, unfolds t (par n) T /\ top T = v.
Proof.
  intros W. destruct (wl_rank W) as (h & Hr).
  remember (h v) as k eqn:Hk. assert (Hle : h v <= k) by lia. clear Hk.
  revert v n Hle. induction k as [|k IH]; intros v n Hle Hn;
  (destruct (wl_two W Hn) as [(E0 & E1)|(a & b & E0 & E1 & Hab)];
   [ exists (Lf v); simpl; split; auto; rewrite Hn; destruct n; simpl in *; congruence | ]);
  assert (Ka : kid t v a) by (exists n; auto); assert (Kb : kid t v b) by (exists n; auto).
  - apply Hr in Ka. lia.
  - destruct (kid_node W Ka) as (na & Hna & Pa). destruct (kid_node W Kb) as (nb & Hnb & Pb).
    pose proof (Hr _ _ Ka). pose proof (Hr _ _ Kb).
    destruct (IH a na) as (Ta & Ua & ta); auto; [lia|].
    destruct (IH b nb) as (Tb & Ub & tb); auto; [lia|].
    exists (Nd v Ta Tb). simpl. rewrite ta, tb, Pa in *. rewrite Pb in Ub.
    repeat split; auto. rewrite Hn. destruct n; simpl in *; congruence.
Qed.

Lemma max_rank (h : nat -> nat) n : exists m, forall v, v < n -> h v <= m.
Proof.
  induction n as [|n (m & IH)]; [exists 0; intros; lia|].
  exists (Nat.max m (h n)). intros v Hv. destruct (Nat.eq_dec v n) as [->|]; [lia|].
  specialize (IH v). lia.
Qed.

Lemma parent_lt t v p : wfl t -> parent t v p -> p < length t.
Proof. intros W H. apply (wl_kp W) in H. destruct H as (n & Hn & _). eapply nth_error_lt; eauto. Qed.

Lemma parent_dec t v : {p | parent t v p} + {forall p, ~ parent t v p}.
Proof.
  unfold parent. destruct (nth_error t v) as [n|].
  - destruct (par n) as [p|] eqn:E.
    + left. exists p. eauto.
    + right. intros p (m & Hm & Hp). congruence.
  - right. intros p (m & Hm & _). discriminate.
Qed.

Lemma upstar_root t v : wfl t -> v < length t -> upstar t v (length t - 1).
Proof.
  intros W. destruct (wl_rank W) as (h & Hr). destruct (max_rank h (length t)) as (m & Hm).
  remember (m - h v) as k eqn:Hk. revert v Hk.
  induction k as [k IH] using lt_wf_ind. intros v Hk Hv.
  destruct (parent_dec t v) as [(p & Hp)|Hno].
  - pose proof (parent_lt W Hp) as Lp. econstructor; eauto.
    apply (wl_kp W) in Hp. apply Hr in Hp. specialize (Hm _ Lp).
    apply (IH (m - h p)); auto. lia.
  - apply (wl_root W Hv) in Hno. subst. constructor.
Qed.

Lemma upstar_positions t q T v : wfl t -> unfolds t q T -> upstar t v (top T) -> In v (positions T).
Proof.
  intros W H Hu. remember (top T) as w eqn:Hw. induction Hu as [v|v p w Hp Hu IH].
  - subst. apply top_in.
  - apply (wl_kp W) in Hp. apply (proj1 (unfolds_down H (IH Hw) Hp)).
Qed.

Lemma unfolds_leaf t q T p n : unfolds t q T -> In p (positions T) -> nth_error t p = Some n ->
  (In p (leaves T) -> c0 n = None) /\ (NoDup (positions T) -> c0 n = None -> In p (leaves T)).
Proof.
  revert q. induction T as [a|a l IHl r IHr]; simpl; intros q H Hp Hn.
  - destruct Hp as [->|[]]. rewrite H in Hn. inversion Hn; subst. simpl. auto.
  - destruct H as (H & Hl & Hr). rewrite in_app_iff in *.
    split.
    + intros [Hi|Hi].
      * apply (proj1 (IHl _ Hl (leaves_in Hi) Hn)); auto.
      * apply (proj1 (IHr _ Hr (leaves_in Hi) Hn)); auto.
    + intros Hnd E. inversion Hnd as [|? ? Hni Hnd']; subst. apply nodup_app in Hnd'.
      destruct Hnd' as (N1 & N2 & _). destruct Hp as [->|[Hp|Hp]].
      * rewrite H in Hn. inversion Hn; subst. discriminate.
      * left. apply (proj2 (IHl _ Hl Hp Hn)); auto.
      * right. apply (proj2 (IHr _ Hr Hp Hn)); auto.
Qed.

Lemma wfl_tree_of t : wfl t -> exists T, tree_of t T.
Proof.
  intros W. pose proof (wl_len W) as Hlen.
  destruct (nth_error t (length t - 1)) as [n|] eqn:Hn; [|apply nth_error_None in Hn; lia].
  destruct (build_bt W Hn) as (T & HU & Htop).
  assert (Hp : par n = None).
  { destruct (par n) as [p|] eqn:E; auto. exfalso.
    apply (proj2 (wl_root W (v := length t - 1) ltac:(lia)) eq_refl p). exists n; auto. }
  rewrite Hp in HU. exists T.
  pose proof (wfl_nodup W HU) as Hnd.
  assert (Hin : forall p, In p (positions T) <-> p < length t).
  { intros p. split.
    - intros Hi. destruct (unfolds_nth HU Hi) as (m & Hm). eapply nth_error_lt; eauto.
    - intros Hlt. eapply upstar_positions; eauto. rewrite Htop. apply upstar_root; auto. }
  repeat split; auto.
  - apply NoDup_Permutation; auto using seq_NoDup. intros p. rewrite Hin, in_seq. lia.
  - intros Hi. destruct (unfolds_nth HU (leaves_in Hi)) as (m & Hm).
    apply (proj1 (wl_leaf W Hm)). apply (proj1 (unfolds_leaf HU (leaves_in Hi) Hm)); auto.
  - intros Hlt. assert (Hlt' : p < length t).
    { eapply Nat.lt_le_trans; [exact Hlt|]. apply Nat.div_le_upper_bound; lia. }
    destruct (nth_error t p) as [m|] eqn:Hm; [|apply nth_error_None in Hm; lia].
    apply (proj2 (unfolds_leaf HU (proj2 (Hin p) Hlt') Hm)); auto.
    apply (wl_leaf W Hm). exact Hlt.
Qed.

(** ** From an abstract tree to local well-formedness *)
Fixpoint bsize (T : bt) : nat :=
  match T with Lf _ => 1 | Nd _ l r => 1 + bsize l + bsize r end.
Lemma bsize_pos T : 0 < bsize T.
Proof. destruct T; simpl; lia. Qed.
Lemma bsize_positions T : length (positions T) = bsize T.
Proof. induction T; simpl; auto. rewrite app_length. lia. Qed.

Fixpoint rk (T : bt) (v : nat) : nat :=
  match T with
  | Lf _ => 1
  | Nd p l r => if v =? p then 1 + bsize l + bsize r
                else if in_dec Nat.eq_dec v (positions l) then rk l v else rk r v
  end.

Lemma rk_top T : rk T (top T) = bsize T.
Proof. destruct T; simpl; auto. rewrite Nat.eqb_refl. auto. Qed.

Lemma rk_kid t q T v c : unfolds t q T -> NoDup (positions T) -> In v (positions T) ->
  kid t v c -> rk T c < rk T v.
Proof.
  revert q. induction T as [a|a l IHl r IHr]; intros q H Hnd Hv Hk.
  - exfalso. destruct Hv as [->|[]]. destruct Hk as (n & Hn & Hk). simpl in H. rewrite H in Hn.
    inversion Hn; subst. simpl in Hk. intuition congruence.
  - simpl in Hnd. inversion Hnd as [|? ? Hni Hnd']; subst. apply nodup_app in Hnd'.
    destruct Hnd' as (N1 & N2 & Nd). rewrite in_app_iff in Hni.
    destruct H as (H & Hl & Hr). simpl in Hv. rewrite in_app_iff in Hv.
    pose proof (top_in l) as Tl. pose proof (top_in r) as Tr.
    destruct Hv as [->|[Hv|Hv]].
    + destruct Hk as (n & Hn & Hk). rewrite H in Hn. inversion Hn; subst. simpl in Hk.
      cbn [rk]. rewrite Nat.eqb_refl.
      destruct Hk as [Hk|Hk]; inversion Hk; subst.
      * rewrite (proj2 (Nat.eqb_neq (top l) v)) by (intros E'; rewrite E' in *; tauto).
        destruct (in_dec _ _ _) as [_|Hn']; [|tauto]. rewrite rk_top. lia.
      * rewrite (proj2 (Nat.eqb_neq (top r) v)) by (intros E'; rewrite E' in *; tauto).
        destruct (in_dec _ _ _) as [Hi|_]; [exfalso; eauto|]. rewrite rk_top. lia.
    + pose proof (proj1 (unfolds_down Hl Hv Hk)) as Hc. cbn [rk].
      rewrite (proj2 (Nat.eqb_neq v a)) by (intros ->; tauto).
      rewrite (proj2 (Nat.eqb_neq c a)) by (intros ->; tauto).
      destruct (in_dec _ v _) as [_|Hn']; [|tauto].
      destruct (in_dec _ c _) as [_|Hn']; [|tauto]. eauto.
    + pose proof (proj1 (unfolds_down Hr Hv Hk)) as Hc. cbn [rk].
      rewrite (proj2 (Nat.eqb_neq v a)) by (intros ->; tauto).
      rewrite (proj2 (Nat.eqb_neq c a)) by (intros ->; tauto).
      destruct (in_dec _ v _) as [Hi|_]; [exfalso; eauto|].
      destruct (in_dec _ c _) as [Hi|_]; [exfalso; eauto|]. eauto.
Qed.

Lemma unfolds_two t q T v n : unfolds t q T -> NoDup (positions T) -> In v (positions T) ->
  nth_error t v = Some n ->
  (c0 n = None /\ c1 n = None) \/ (exists a b, c0 n = Some a /\ c1 n = Some b /\ a <> b).
Proof.
  revert q. induction T as [a|a l IHl r IHr]; simpl; intros q H Hnd Hv Hn.
  - destruct Hv as [->|[]]. rewrite H in Hn. inversion Hn; subst. auto.
  - inversion Hnd as [|? ? Hni Hnd']; subst. apply nodup_app in Hnd'.
    destruct Hnd' as (N1 & N2 & Nd). destruct H as (H & Hl & Hr). rewrite in_app_iff in Hv.
    destruct Hv as [->|[Hv|Hv]]; eauto.
    rewrite H in Hn. inversion Hn; subst. right. exists (top l), (top r). repeat split; auto.
    intros E. apply (Nd (top l)); [apply top_in|rewrite E; apply top_in].
Qed.

Lemma tree_of_in t T : tree_of t T -> NoDup (positions T) /\ forall p, In p (positions T) <-> p < length t.
Proof.
  intros (HU & Hp & _). split.
  - eapply Permutation_NoDup; [apply Permutation_sym; exact Hp|]. apply seq_NoDup.
  - intros p. split; intros H.
    + apply (Permutation_in _ Hp) in H. apply in_seq in H. lia.
    + apply (Permutation_in _ (Permutation_sym Hp)). apply in_seq. lia.
Qed.

Lemma tree_of_wfl t T : tree_of t T -> wfl t.
Proof.
  intros H. destruct (tree_of_in H) as (Hnd & Hin). destruct H as (HU & Hp & Htop & Hlv).
  assert (Hpos : forall v n, nth_error t v = Some n -> In v (positions T)).
  { intros v n Hn. apply Hin. eapply nth_error_lt; eauto. }
  constructor.
  - pose proof (proj1 (Hin _) (top_in T)). lia.
  - intros v n Hn. eapply unfolds_two; eauto.
  - intros v c. split.
    + intros Hk. assert (Hk' := Hk). destruct Hk' as (n & Hn & _).
      apply (unfolds_down HU (Hpos _ _ Hn) Hk).
    + intros (n & Hn & Hpn).
      destruct (unfolds_up HU (Hpos _ _ Hn)) as [(_ & E)|(w & Hw & Hk & E)].
      * rewrite (E _ Hn) in Hpn. discriminate.
      * rewrite (E _ Hn) in Hpn. inversion Hpn; subst. auto.
  - intros v Hv. rewrite <- Htop. split.
    + intros Hno. destruct (unfolds_up HU (proj2 (Hin v) Hv)) as [(E & _)|(w & _ & _ & E)]; auto.
      exfalso. destruct (nth_error t v) as [n|] eqn:Hn; [|apply nth_error_None in Hn; lia].
      apply (Hno w). exists n; auto.
    + intros -> p (n & Hn & Hpn). destruct (unfolds_top HU) as (m & Hm & E). congruence.
  - intros v n Hn. rewrite <- Hlv. split; intros E.
    + apply (proj2 (unfolds_leaf HU (Hpos _ _ Hn) Hn)); auto.
    + apply (proj1 (unfolds_leaf HU (Hpos _ _ Hn) Hn)); auto.
  - exists (rk T). intros v c Hk. assert (Hk' := Hk). destruct Hk' as (n & Hn & _).
    eapply rk_kid; eauto.
Qed.

Lemma wf_iff t : well_formed t <-> wfl t.
Proof.
  split.
  - intros (T & H). eapply tree_of_wfl; eauto.
  - apply wfl_tree_of.
Qed.

(** ** The rotation on abstract trees *)
Lemma exchange_top d T T' : exchange d T T' -> top T' = top T.
Proof. destruct 1; simpl; auto. Qed.

Lemma perm_sw (d e c : list nat) : Permutation ((d ++ e) ++ c) ((c ++ e) ++ d).
Proof.
  rewrite <- app_assoc. eapply Permutation_trans; [apply Permutation_app_comm|].
  apply Permutation_app_tail. apply Permutation_app_comm.
Qed.
Lemma perm_sw2 (d e c : list nat) : Permutation ((e ++ d) ++ c) ((e ++ c) ++ d).
Proof. rewrite <- !app_assoc. apply Permutation_app_head. apply Permutation_app_comm. Qed.

Lemma exchange_positions d T T' : exchange d T T' -> Permutation (positions T) (positions T').
Proof.
  induction 1; simpl; apply perm_skip.
  - apply perm_skip. apply perm_sw.
  - apply perm_skip. apply perm_sw2.
  - eapply Permutation_trans; [apply Permutation_app_comm|]. simpl.
    eapply Permutation_trans; [|apply Permutation_app_comm]. simpl. apply perm_skip. apply perm_sw.
  - eapply Permutation_trans; [apply Permutation_app_comm|]. simpl.
    eapply Permutation_trans; [|apply Permutation_app_comm]. simpl. apply perm_skip. apply perm_sw2.
  - apply Permutation_app_tail; auto.
  - apply Permutation_app_head; auto.
Qed.

Lemma exchange_leaves d T T' : exchange d T T' -> Permutation (leaves T) (leaves T').
Proof.
  induction 1; simpl.
  - apply perm_sw.
  - apply perm_sw2.
  - eapply Permutation_trans; [apply Permutation_app_comm|].
    eapply Permutation_trans; [|apply Permutation_app_comm]. apply perm_sw.
  - eapply Permutation_trans; [apply Permutation_app_comm|].
    eapply Permutation_trans; [|apply Permutation_app_comm]. apply perm_sw2.
  - apply Permutation_app_tail; auto.
  - apply Permutation_app_head; auto.
Qed.

(** The five nodes in an abstract tree: the subtree at A has the expected form. *)
Definition slot (s : bool) (p : nat) (x y : bt) : bt := if s then Nd p x y else Nd p y x.

Lemma subtree_in S T p : subtree S T -> In p (positions S) -> In p (positions T).
Proof. induction 1; simpl; auto; intros; rewrite in_app_iff; auto. Qed.

Lemma subtree_unfolds t q S T : subtree S T -> unfolds t q T -> exists q', unfolds t q' S.
Proof. intros H. revert q. induction H; simpl; intros q HU; eauto; destruct HU as (_ & ? & ?); eauto. Qed.

Lemma in_subtree T p : In p (positions T) -> exists S, subtree S T /\ top S = p.
Proof.
  induction T as [a|a l IHl r IHr]; simpl.
  - intros [->|[]]. exists (Lf p). split; auto. constructor.
  - rewrite in_app_iff. intros [->|[H|H]].
    + exists (Nd p l r). split; auto. constructor.
    + destruct (IHl H) as (S & HS & E). exists S. split; auto. apply sub_left; auto.
    + destruct (IHr H) as (S & HS & E). exists S. split; auto. apply sub_right; auto.
Qed.

Lemma slot_top s p x y : top (slot s p x y) = p.
Proof. destruct s; auto. Qed.
Lemma slot_positions s p x y v : In v (positions (slot s p x y)) <-> v = p \/ In v (positions x) \/ In v (positions y).
Proof. destruct s; simpl; rewrite in_app_iff; intuition. Qed.
Lemma slot_nodup s p x y : NoDup (positions (slot s p x y)) <->
  ~ In p (positions x) /\ ~ In p (positions y) /\ NoDup (positions x) /\ NoDup (positions y) /\
  (forall v, In v (positions x) -> In v (positions y) -> False).
Proof.
  destruct s; simpl; rewrite NoDup_cons_iff, nodup_app, in_app_iff; firstorder.
Qed.
Lemma slot_unfolds t q s p x y : unfolds t q (slot s p x y) <->
  nth_error t p = Some (mkNode (pick s (top x) (top y)) (pick s (top y) (top x)) q) /\
  unfolds t (Some p) x /\ unfolds t (Some p) y.
Proof. destruct s; simpl; tauto. Qed.

Lemma unfolds_slot t q s T x y pp : unfolds t q T ->
  nth_error t (top T) = Some (mkNode (pick s x y) (pick s y x) pp) ->
  exists X Y, T = slot s (top T) X Y /\ top X = x /\ top Y = y.
Proof.
  destruct T as [a|a l r]; simpl; intros H E.
  - rewrite H in E. destruct s; discriminate.
  - destruct H as (H & _). rewrite H in E. destruct s; simpl in E; inversion E; subst.
    + exists l, r. auto.
    + exists r, l. auto.
Qed.

Lemma exchange_slot sA sE A B D E C :
  exchange (top E) (slot sA A (slot sE B E D) C) (slot sA A (slot sE B C D) E).
Proof. destruct sA, sE; simpl; constructor; auto. Qed.

Lemma nbh_exchange t sA sE A B C D E pA nC nD nE q T :
  nbh t sA sE A B C D E pA nC nD nE ->
  unfolds t q T -> NoDup (positions T) -> In A (positions T) ->
  exists T', exchange E T T' /\ unfolds (rot t sA sE A B C D E pA nC nE) q T'.
Proof.
  intros H. pose proof H as (HA & HB & HC & HpC & HD & HpD & HE & HpE & Hnd5).
  apply nodup5 in Hnd5. destruct Hnd5 as (n1&n2&n3&n4&n5&n6&n7&n8&n9&n10).
  revert q. induction T as [a|a l IHl r IHr]; intros q HU Hnd HinA.
  { exfalso. simpl in HU, HinA. destruct HinA as [->|[]]. rewrite HA in HU.
    destruct sA; discriminate. }
  destruct (Nat.eq_dec a A) as [->|na].
  - (* the rotation happens here *)
    destruct (unfolds_slot (T := Nd A l r) (x := B) (y := C) HU HA) as (X & Y & ET & EX & EY).
    cbn [top] in ET. clear IHl IHr HinA. rewrite ET in HU, Hnd. rewrite ET. clear l r ET.
    apply slot_unfolds in HU. destruct HU as (HA' & UX & UY).
    apply slot_nodup in Hnd. destruct Hnd as (AX & AY & NX & NY & XY).
    assert (HBX : nth_error t (top X) = Some (mkNode (pick sE E D) (pick sE D E) (Some A)))
      by (rewrite EX; exact HB).
    destruct (unfolds_slot UX HBX) as (TE & TD & EX' & EE & ED).
    rewrite EX in EX'. subst X. clear HBX EX.
    apply slot_unfolds in UX. destruct UX as (_ & UE & UD).
    apply slot_nodup in NX. destruct NX as (BE & BD & NE & ND & ED').
    assert (XYE : forall v, In v (positions TE) -> In v (positions Y) -> False).
    { intros v Hv. apply XY. apply slot_positions. auto. }
    assert (XYD : forall v, In v (positions TD) -> In v (positions Y) -> False).
    { intros v Hv. apply XY. apply slot_positions. auto. }
    assert (XYB : ~ In B (positions Y)).
    { intros HB'. eapply XY; eauto. apply slot_positions. auto. }
    assert (AE : ~ In A (positions TE)) by (intros ?; apply AX; apply slot_positions; auto).
    assert (AD : ~ In A (positions TD)) by (intros ?; apply AX; apply slot_positions; auto).
    pose proof (top_in TE) as tE. pose proof (top_in TD) as tD. pose proof (top_in Y) as tY.
    rewrite EE in tE. rewrite ED in tD. rewrite EY in tY.
    exists (slot sA A (slot sE B Y TD) TE). split.
    { rewrite <- EE. apply exchange_slot. }
    apply slot_unfolds. rewrite slot_top, EE. split; [|split].
    + rewrite (rot_nth _ H), Nat.eqb_refl. do 2 f_equal. rewrite HA in HA'.
      inversion HA'. auto.
    + apply slot_unfolds. rewrite EY, ED. split; [|split].
      * rewrite (rot_nth _ H). rewrite (proj2 (Nat.eqb_neq B A)) by auto. rewrite Nat.eqb_refl. auto.
      * apply (unfolds_reparent (t := t) (q := Some A)); auto.
        -- intros n Hn. rewrite EY in *. rewrite (rot_nth _ H).
           rewrite (proj2 (Nat.eqb_neq C A)), (proj2 (Nat.eqb_neq C B)), Nat.eqb_refl by auto.
           rewrite HC in Hn. inversion Hn; subst; auto.
        -- intros p Hp Hnp. rewrite EY in Hnp. rewrite (rot_nth _ H).
           rewrite (proj2 (Nat.eqb_neq p A)) by (intros ->; tauto).
           rewrite (proj2 (Nat.eqb_neq p B)) by (intros ->; tauto).
           rewrite (proj2 (Nat.eqb_neq p C)) by auto.
           rewrite (proj2 (Nat.eqb_neq p E)) by (intros ->; eauto). auto.
      * apply (unfolds_frame (t := t)); auto.
        intros p Hp. rewrite (rot_nth _ H).
        rewrite (proj2 (Nat.eqb_neq p A)) by (intros ->; tauto).
        rewrite (proj2 (Nat.eqb_neq p B)) by (intros ->; tauto).
        rewrite (proj2 (Nat.eqb_neq p C)) by (intros ->; eauto).
        rewrite (proj2 (Nat.eqb_neq p E)) by (intros ->; eauto). auto.
    + apply (unfolds_reparent (t := t) (q := Some B)); auto.
      * intros n Hn. rewrite EE in *. rewrite (rot_nth _ H).
        rewrite (proj2 (Nat.eqb_neq E A)), (proj2 (Nat.eqb_neq E B)), (proj2 (Nat.eqb_neq E C)), Nat.eqb_refl by auto.
        rewrite HE in Hn. inversion Hn; subst; auto.
      * intros p Hp Hnp. rewrite EE in Hnp. rewrite (rot_nth _ H).
        rewrite (proj2 (Nat.eqb_neq p A)) by (intros ->; tauto).
        rewrite (proj2 (Nat.eqb_neq p B)) by (intros ->; tauto).
        rewrite (proj2 (Nat.eqb_neq p C)) by (intros ->; eauto).
        rewrite (proj2 (Nat.eqb_neq p E)) by auto. auto.
  - destruct HU as (Ha & Hl & Hr). simpl in Hnd, HinA. inversion Hnd as [|? ? Hni Hnd']; subst.
    apply nodup_app in Hnd'. destruct Hnd' as (N1 & N2 & Ndj). rewrite in_app_iff in Hni, HinA.
    assert (Kb : kid t A B) by (apply (nbh_kidA H); auto).
    assert (Kc : kid t A C) by (apply (nbh_kidA H); auto).
    assert (Ke : kid t B E) by (apply (nbh_kidB H); auto).
    destruct HinA as [->|[Hi|Hi]]; [congruence| |].
    + destruct (IHl _ Hl N1 Hi) as (l' & Hx & Hu).
      pose proof (proj1 (unfolds_down Hl Hi Kb)) as ib. pose proof (proj1 (unfolds_down Hl Hi Kc)) as ic.
      pose proof (proj1 (unfolds_down Hl ib Ke)) as ie.
      exists (Nd a l' r). split; [constructor; auto|]. cbn [unfolds].
      rewrite (exchange_top Hx). split; [|split; auto].
      * rewrite (rot_nth _ H).
        rewrite (proj2 (Nat.eqb_neq a A)), (proj2 (Nat.eqb_neq a B)), (proj2 (Nat.eqb_neq a C)), (proj2 (Nat.eqb_neq a E))
          by (intros ->; tauto). auto.
      * apply (unfolds_frame (t := t)); auto. intros p Hp. rewrite (rot_nth _ H).
        rewrite (proj2 (Nat.eqb_neq p A)), (proj2 (Nat.eqb_neq p B)), (proj2 (Nat.eqb_neq p C)), (proj2 (Nat.eqb_neq p E))
          by (intros ->; eauto). auto.
    + destruct (IHr _ Hr N2 Hi) as (r' & Hx & Hu).
      pose proof (proj1 (unfolds_down Hr Hi Kb)) as ib. pose proof (proj1 (unfolds_down Hr Hi Kc)) as ic.
      pose proof (proj1 (unfolds_down Hr ib Ke)) as ie.
      exists (Nd a l r'). split; [apply ex_right; auto|]. cbn [unfolds].
      rewrite (exchange_top Hx). split; [|split; auto].
      * rewrite (rot_nth _ H).
        rewrite (proj2 (Nat.eqb_neq a A)), (proj2 (Nat.eqb_neq a B)), (proj2 (Nat.eqb_neq a C)), (proj2 (Nat.eqb_neq a E))
          by (intros ->; tauto). auto.
      * apply (unfolds_frame (t := t)); auto. intros p Hp. rewrite (rot_nth _ H).
        rewrite (proj2 (Nat.eqb_neq p A)), (proj2 (Nat.eqb_neq p B)), (proj2 (Nat.eqb_neq p C)), (proj2 (Nat.eqb_neq p E))
          by (intros ->; eauto). auto.
Qed.

Lemma rot_tree_of t sA sE A B C D E pA nC nD nE T :
  nbh t sA sE A B C D E pA nC nD nE -> tree_of t T ->
  exists T', exchange E T T' /\ tree_of (rot t sA sE A B C D E pA nC nE) T'.
Proof.
  intros H HT. destruct (tree_of_in HT) as (Hnd & Hin). destruct HT as (HU & Hp & Htop & Hlv).
  assert (HA : In A (positions T)).
  { apply Hin. destruct H as (HA & _). eapply nth_error_lt; eauto. }
  destruct (nbh_exchange H HU Hnd HA) as (T' & Hx & HU').
  exists T'. split; auto. unfold tree_of. rewrite rot_length. repeat split; auto.
  - eapply Permutation_trans; [apply Permutation_sym, (exchange_positions Hx)|auto].
  - rewrite (exchange_top Hx). auto.
  - intros Hi. apply Hlv. eapply Permutation_in; [apply Permutation_sym, (exchange_leaves Hx)|auto].
  - intros Hi. eapply Permutation_in; [apply (exchange_leaves Hx)|]. apply Hlv. auto.
Qed.
