(** ContractionTree.__init__: positions, links and nodes. *)
From Coq Require Import Permutation Sorted.
From Verif Require Import M_Base M_Tree M_Path M_PyTree S_Tree S_Path S_PyTree P_Base P_Path P_Split P_PathMain P_Tree P_Shape P_TreeProps P_TreeMain P_TreeValid P_PyRun P_PyPath.
Set Implicit Arguments.
Unset Strict Implicit.

(** ** unique, sort *)
Lemma unique_aux_in l : forall seen x, In x (unique_aux seen l) <-> In x l /\ ~ In x seen.
Proof.
  induction l as [|a l IH]; intros seen x; simpl; [tauto|]. destruct (memb a seen) eqn:E.
  - apply memb_In in E. rewrite IH. split; [tauto|]. intros ([->|H] & H'); tauto.
  - apply memb_nIn in E. simpl. rewrite IH. simpl. destruct (Nat.eq_dec a x) as [->|Hn]; tauto.
Qed.
Lemma unique_aux_nodup l : forall seen, NoDup (unique_aux seen l).
Proof.
  induction l as [|a l IH]; intros seen; simpl; [constructor|]. destruct (memb a seen); auto. constructor; auto.
  rewrite unique_aux_in. simpl. tauto.
Qed.
Lemma unique_in l x : In x (unique l) <-> In x l.
Proof. unfold unique. rewrite unique_aux_in. simpl. tauto. Qed.
Lemma unique_nodup l : NoDup (unique l).
Proof. apply unique_aux_nodup. Qed.
Lemma sort_in l x : In x (sort l) <-> In x l.
Proof. split; apply Permutation_in; [|symmetry]; apply sort_perm. Qed.
Lemma sort_nodup l : NoDup l -> NoDup (sort l).
Proof. apply Permutation_NoDup. symmetry. apply sort_perm. Qed.
Lemma sorted_ext l k : StronglySorted le l -> StronglySorted le k -> NoDup l -> NoDup k -> (forall x, In x l <-> In x k) -> l = k.
Proof. intros H1 H2 H3 H4 H5. apply sorted_unique; auto. apply NoDup_Permutation; auto. Qed.

(** ** Subtrees *)
Lemma sub_parent S R : subtree S R -> S = R \/ exists q l r, subtree (Nd q l r) R /\ (S = l \/ S = r).
Proof.
  induction 1 as [|p l r H IH|p l r H IH]; auto; right.
  - destruct IH as [->|(q & l' & r' & H1 & H2)]; [exists p, l, r; split; auto; constructor|].
    exists q, l', r'. split; auto. apply sub_left. auto.
  - destruct IH as [->|(q & l' & r' & H1 & H2)]; [exists p, l, r; split; auto; constructor|].
    exists q, l', r'. split; auto. apply sub_right. auto.
Qed.
Lemma pos_sub R v : In v (positions R) -> exists S, subtree S R /\ top S = v.
Proof.
  induction R as [p|p l IHl r IHr]; simpl.
  - intros [<-|[]]. exists (Lf p). split; auto. constructor.
  - intros [<-|H]; [exists (Nd p l r); split; auto; constructor|]. apply in_app_iff in H. destruct H as [H|H].
    + destruct (IHl H) as (S & H1 & H2). exists S. split; auto. apply sub_left. auto.
    + destruct (IHr H) as (S & H1 & H2). exists S. split; auto. apply sub_right. auto.
Qed.
Lemma leaf_sub R t : In t (leaves R) <-> subtree (Lf t) R.
Proof.
  induction R as [p|p l IHl r IHr]; simpl.
  - split; [intros [<-|[]]; constructor|]. intros H. inversion H; subst. auto.
  - rewrite in_app_iff, IHl, IHr. split; [intros [H|H]; [apply sub_left|apply sub_right]; auto|].
    intros H. inversion H; subst; auto.
Qed.
Lemma sub_nodup S R : subtree S R -> NoDup (positions R) -> NoDup (positions S).
Proof.
  induction 1 as [|p l r H IH|p l r H IH]; auto; simpl; intros HN; inversion HN as [|? ? _ HN']; subst;
  apply NoDup_app in HN'; apply IH; tauto.
Qed.
Lemma sub_top_inj R : NoDup (positions R) -> forall S S', subtree S R -> subtree S' R -> top S = top S' -> S = S'.
Proof.
  induction R as [p|p l IHl r IHr]; intros HN S S' H H' E.
  - inversion H; inversion H'; subst; auto.
  - simpl in HN. inversion HN as [|? ? HN1 HN2]; subst. apply NoDup_app in HN2. destruct HN2 as (N1 & N2 & N3).
    assert (G : forall X Y, subtree X Y -> In (top X) (positions Y)) by (intros X Y HX; apply (sub_pos HX); apply top_pos).
    inversion H; subst; inversion H'; subst; auto; simpl in *.
    + exfalso. apply HN1. rewrite E. apply in_app_iff. auto.
    + exfalso. apply HN1. rewrite E. apply in_app_iff. auto.
    + exfalso. apply HN1. rewrite <- E. apply in_app_iff. auto.
    + exfalso. apply (N3 (top S)); auto. rewrite E. auto.
    + exfalso. apply HN1. rewrite <- E. apply in_app_iff. auto.
    + exfalso. apply (N3 (top S')); auto. rewrite <- E. auto.
Qed.

Fixpoint relabel (f : nat -> nat) (S : bt) : bt :=
  match S with Lf p => Lf (f p) | Nd p l r => Nd (f p) (relabel f l) (relabel f r) end.
Lemma relabel_top f S : top (relabel f S) = f (top S). Proof. destruct S; auto. Qed.
Lemma relabel_pos f S : positions (relabel f S) = map f (positions S).
Proof. induction S; simpl; auto. rewrite IHS1, IHS2, map_app. auto. Qed.
Lemma relabel_leaves f S : leaves (relabel f S) = map f (leaves S).
Proof. induction S; simpl; auto. rewrite IHS1, IHS2, map_app. auto. Qed.
Lemma relabel_sub f R S' : subtree S' (relabel f R) <-> exists S, subtree S R /\ S' = relabel f S.
Proof.
  split.
  - induction R as [p|p l IHl r IHr]; simpl; intros H; inversion H as [|? ? ? H2|? ? ? H2]; subst.
    + exists (Lf p). split; auto. constructor.
    + exists (Nd p l r). split; auto. constructor.
    + destruct (IHl H2) as (S & H1 & ->). exists S. split; auto. apply sub_left. auto.
    + destruct (IHr H2) as (S & H1 & ->). exists S. split; auto. apply sub_right. auto.
  - intros (S & H & ->). induction H; simpl; [constructor|apply sub_left|apply sub_right]; auto.
Qed.

(** ** Positions of a root tree *)
Section Pos.
Variables (n : nat) (p : path) (cs rest : list term) (root : term) (bs : list bt) (R : bt).
Hypothesis HRT : root_tree n p cs root bs R.
Hypothesis Hne : p <> [].

Lemma in_flatten3 c v : In v (flatten3 c) <-> exists x y z, In (x, y, z) c /\ (v = x \/ v = y \/ v = z).
Proof.
  unfold flatten3. rewrite in_flat_map. split.
  - intros (((x, y), z) & H & Hv). exists x, y, z. simpl in Hv. intuition.
  - intros (x & y & z & H & Hv). exists (x, y, z). split; auto. simpl. intuition.
Qed.
Lemma tri_in x y z : In (x, y, z) (map tri bs) <-> exists l r, In (Nd z l r) bs /\ x = top l /\ y = top r.
Proof.
  rewrite in_map_iff. split.
  - intros (S & E & HS). destruct (rt_bs HRT HS) as (_ & q & l & r & ->). simpl in E. inversion E; subst. eauto.
  - intros (l & r & H & -> & ->). exists (Nd z l r). auto.
Qed.
Lemma bs_top S : In S bs -> n <= top S < n + length p.
Proof. intros HS. assert (H : In (top S) (map top bs)) by (apply in_map; auto). rewrite (rt_tops HRT) in H. apply in_seq in H. lia. Qed.
Lemma plen : 0 < length p. Proof. clear HRT. destruct p; [congruence|simpl; lia]. Qed.
Lemma root_in : In R bs.
Proof.
  destruct (rt_int HRT (sub_here R)) as [H|(t & -> & Ht)]; auto. exfalso. pose proof (rt_top HRT) as E. simpl in E. pose proof plen. lia.
Qed.

Lemma flat_pos v : In v (flatten3 (map tri bs)) <-> In v (positions R).
Proof.
  rewrite in_flatten3. split.
  - intros (x & y & z & H & Hv). apply tri_in in H. destruct H as (l & r & H & -> & ->). destruct (rt_bs HRT H) as (HS & _).
    apply (sub_pos HS). simpl. rewrite in_app_iff. destruct Hv as [->|[->| ->]]; auto; pose proof (top_pos l); pose proof (top_pos r); auto.
  - intros H. destruct (pos_sub H) as (S & HS & <-). destruct (sub_parent HS) as [->|(q & l & r & HP & E)].
    + pose proof root_in as Hr. destruct (rt_bs HRT Hr) as (_ & q & l & r & E). exists (top l), (top r), q.
      split; [apply tri_in; exists l, r; rewrite <- E; auto|rewrite E; auto].
    + destruct (rt_int HRT HP) as [Hb|(t & E' & _)]; [|discriminate]. exists (top l), (top r), q. split; [apply tri_in; eauto|].
      destruct E as [->| ->]; auto.
Qed.

Lemma pos_small v : In v (positions R) -> v < n -> In v (leaves R).
Proof.
  intros H Hv. destruct (pos_sub H) as (S & HS & <-). destruct (rt_int HRT HS) as [Hb|(t & -> & _)]; [apply bs_top in Hb; lia|].
  apply leaf_sub. auto.
Qed.
Lemma pos_big v : In v (positions R) -> n <= v -> v < n + length p.
Proof.
  intros H Hv. destruct (pos_sub H) as (S & HS & <-). destruct (rt_int HRT HS) as [Hb|(t & -> & Ht)]; [apply bs_top in Hb; lia|].
  simpl in *. lia.
Qed.

Definition used := used_tensors n (map tri bs).
Definition posl := sort (unique (flatten3 (map tri bs))).

Lemma used_in v : In v used <-> In v (leaves R).
Proof.
  unfold used, used_tensors. rewrite sort_in, filter_In, unique_in, flat_pos, Nat.ltb_lt. split.
  - intros (H1 & H2). apply pos_small; auto.
  - intros H. split; [apply leaves_pos; auto|apply (rt_lv HRT); auto].
Qed.
Lemma used_nodup : NoDup used.
Proof. apply sort_nodup, NoDup_filter, unique_nodup. Qed.
Lemma posl_in v : In v posl <-> In v (positions R).
Proof. unfold posl. rewrite sort_in, unique_in. apply flat_pos. Qed.
Lemma posl_nodup : NoDup posl.
Proof. apply sort_nodup, unique_nodup. Qed.
Lemma posl_eq : posl = used ++ seq n (length p).
Proof.
  apply sorted_ext.
  - apply sort_sorted.
  - apply app_sorted; [apply sort_sorted|apply seq_sorted|]. intros x y Hx Hy. apply used_in in Hx. apply (rt_lv HRT) in Hx. apply in_seq in Hy. lia.
  - apply posl_nodup.
  - apply NoDup_app. split; [apply used_nodup|]. split; [apply seq_NoDup|]. intros x Hx Hy. apply used_in in Hx. apply (rt_lv HRT) in Hx. apply in_seq in Hy. lia.
  - intros v. rewrite posl_in, in_app_iff, used_in, in_seq. split.
    + intros H. destruct (Nat.lt_ge_cases v n); [left; apply pos_small; auto|right; split; auto; apply pos_big; auto].
    + intros [H|H]; [apply leaves_pos; auto|]. assert (Hv : In v (map top bs)) by (rewrite (rt_tops HRT); apply in_seq; auto).
      apply in_map_iff in Hv. destruct Hv as (S & <- & HS). destruct (rt_bs HRT HS) as (HS' & _). apply (sub_pos HS'). apply top_pos.
Qed.
Lemma posl_perm : Permutation posl (positions R).
Proof. apply NoDup_Permutation; [apply posl_nodup|apply (rt_nd HRT)|apply posl_in]. Qed.
Lemma used_perm : Permutation used (leaves R).
Proof. apply NoDup_Permutation; [apply used_nodup|apply leaves_nodup, (rt_nd HRT)|apply used_in]. Qed.

(** rank *)
Definition rk (v : nat) : nat := match rank posl v with Ok i => i | Err _ => 0 end.
Lemma rk_ok v : In v (positions R) -> rank posl v = Ok (rk v) /\ nth_error posl (rk v) = Some v.
Proof.
  intros H. apply posl_in in H. destruct (index_ok Nat.eqb_eq H) as (i & E & Hi). unfold rk, rank. rewrite E. auto.
Qed.
Lemma rk_inj v w : In v (positions R) -> In w (positions R) -> rk v = rk w -> v = w.
Proof. intros Hv Hw E. destruct (rk_ok Hv) as (_ & H1). destruct (rk_ok Hw) as (_ & H2). congruence. Qed.
Lemma rk_lt v : In v (positions R) -> rk v < length posl.
Proof. intros Hv. destruct (rk_ok Hv) as (_ & H1). eapply nth_error_lt; eauto. Qed.
Lemma rk_of i v : nth_error posl i = Some v -> rk v = i.
Proof. intros H. unfold rk, rank. rewrite (index_first Nat.eqb_eq posl_nodup H). auto. Qed.
Lemma rk_map : map rk posl = seq 0 (length posl).
Proof.
  apply nth_error_ext. intros i. rewrite nth_error_map. destruct (nth_error posl i) as [v|] eqn:E; simpl.
    - pose proof (nth_error_lt E) as Hi. rewrite (rk_of E). symmetry. rewrite nth_error_nth' with (d := 0) by (rewrite seq_length; auto).
      rewrite seq_nth; auto.
    - symmetry. apply nth_error_None. rewrite seq_length. apply nth_error_None. auto.
Qed.
Lemma posl_length : length posl = 2 * length used - 1 /\ 0 < length used.
Proof.
  rewrite (Permutation_length posl_perm), (Permutation_length used_perm). rewrite bsize_positions.
  pose proof (leaves_size R). pose proof (bsize_pos R). lia.
Qed.
Lemma rk_leaf v : In v (leaves R) -> rk v < length used /\ nth_error used (rk v) = Some v.
Proof.
  intros H. destruct (In_nth_error used v) as (i & Hi); [apply used_in; auto|].
  assert (Hi' : nth_error posl i = Some v).
  { rewrite posl_eq, nth_error_app1; auto. eapply nth_error_lt; eauto. }
  rewrite (rk_of Hi'). split; auto. eapply nth_error_lt; eauto.
Qed.
Lemma rk_root : rk (top R) = length posl - 1.
Proof.
  apply rk_of. rewrite posl_eq, app_length, seq_length. pose proof plen. rewrite nth_error_app2 by lia.
  rewrite nth_error_nth' with (d := 0) by (rewrite seq_length; lia). rewrite seq_nth by lia. f_equal. rewrite (rt_top HRT). lia.
Qed.

(** *** Links *)
Lemma nth_upd (A : Type) (l : list A) i j x d : i < length l -> nth j (upd l i x) d = if j =? i then x else nth j l d.
Proof.
  intros Hi. destruct (Nat.eqb_spec j i) as [->|Hn].
  - apply nth_error_nth. apply upd_eq. auto.
  - destruct (nth_error l j) as [a|] eqn:E.
    + rewrite (nth_error_nth _ _ d E). apply nth_error_nth. rewrite upd_neq; auto.
    + apply nth_error_None in E. rewrite !nth_overflow; auto. rewrite upd_length. auto.
Qed.

Definition zd : znode := (-1, -1, -1)%Z.
Lemma link_ok c : forall ns, (forall v, In v (flatten3 c) -> rank posl v = Ok (rk v) /\ rk v < length ns) ->
  NoDup (map (fun t => rk (snd t)) c) -> NoDup (flat_map (fun t => let '(x, y, z) := t in [rk x; rk y]) c) ->
  exists ns', link_all posl c ns = Ok ns' /\ length ns' = length ns /\
    (forall x y z, In (x, y, z) c -> fst (nth (rk z) ns' zd) = (Z.of_nat (rk x), Z.of_nat (rk y)) /\
        snd (nth (rk x) ns' zd) = Z.of_nat (rk z) /\ snd (nth (rk y) ns' zd) = Z.of_nat (rk z)) /\
    (forall i, ~ In i (map (fun t => rk (snd t)) c) -> fst (nth i ns' zd) = fst (nth i ns zd)) /\
    (forall i, ~ In i (flat_map (fun t => let '(x, y, z) := t in [rk x; rk y]) c) -> snd (nth i ns' zd) = snd (nth i ns zd)).
Proof.
  induction c as [|((x, y), z) c IH]; intros ns Hr Hz Hxy.
  - exists ns. simpl. split; auto. split; auto. split; [intros ? ? ? []|auto].
  - simpl in Hr, Hz, Hxy. inversion Hz as [|? ? Z1 Z2]; subst. inversion Hxy as [|? ? X1 X2]; subst. inversion X2 as [|? ? Y1 Y2]; subst.
    destruct (Hr x) as (Ex & Lx); auto. destruct (Hr y) as (Ey & Ly); auto. destruct (Hr z) as (Ez & Lz); auto.
    set (ns1 := upd ns (rk x) (fst (nth (rk x) ns zd), Z.of_nat (rk z))).
    assert (L1 : length ns1 = length ns) by (unfold ns1; apply upd_length).
    set (ns2 := upd ns1 (rk y) (fst (nth (rk y) ns1 zd), Z.of_nat (rk z))).
    assert (L2 : length ns2 = length ns) by (unfold ns2; rewrite upd_length; auto).
    set (ns3 := upd ns2 (rk z) (Z.of_nat (rk x), Z.of_nat (rk y), snd (nth (rk z) ns2 zd))).
    assert (L3 : length ns3 = length ns) by (unfold ns3; rewrite upd_length; auto).
    assert (GS : forall (l : list znode) i, i < length l -> get l i = Ok (nth i l zd)).
    { intros l i Hi. apply get_some. apply nth_error_nth'. auto. }
    destruct (IH ns3) as (ns' & E & L & H1 & H2 & H3); auto.
    { intros v Hv. rewrite L3. apply Hr. auto. }
    assert (F3 : forall i, fst (nth i ns3 zd) = if i =? rk z then (Z.of_nat (rk x), Z.of_nat (rk y)) else fst (nth i ns zd)).
    { intros i. unfold ns3. rewrite nth_upd by lia. destruct (Nat.eqb_spec i (rk z)); auto. unfold ns2. rewrite nth_upd by lia.
      assert (N1 : forall j, fst (nth j ns1 zd) = fst (nth j ns zd)).
      { intros j. unfold ns1. rewrite nth_upd by lia. destruct (Nat.eqb_spec j (rk x)); subst; auto. }
      destruct (Nat.eqb_spec i (rk y)); subst; simpl; auto. }
    assert (S3 : forall i, snd (nth i ns3 zd) = if (i =? rk x) || (i =? rk y) then Z.of_nat (rk z) else snd (nth i ns zd)).
    { intros i. assert (E3 : snd (nth i ns3 zd) = snd (nth i ns2 zd)).
      { unfold ns3. rewrite nth_upd by lia. destruct (Nat.eqb_spec i (rk z)); subst; auto. }
      rewrite E3. unfold ns2. rewrite nth_upd by lia. destruct (Nat.eqb_spec i (rk y)); [rewrite orb_true_r; auto|]. rewrite orb_false_r.
      unfold ns1. rewrite nth_upd by lia. destruct (Nat.eqb_spec i (rk x)); auto. }
    exists ns'. split; [|split; [congruence|split; [|split]]].
    + cbn [link_all]. rewrite Ex. cbn [bind]. rewrite Ey. cbn [bind]. rewrite Ez. cbn [bind].
      rewrite GS by auto. cbn [bind]. rewrite set_ok by auto. cbn [bind]. fold ns1.
      rewrite GS by lia. cbn [bind]. rewrite set_ok by lia. cbn [bind]. fold ns2.
      rewrite GS by lia. cbn [bind]. rewrite set_ok by lia. cbn [bind]. exact E.
    + intros a b w [Ew|Hin].
      * inversion Ew; subst a b w. rewrite (H2 (rk z) Z1), F3, Nat.eqb_refl. split; auto. simpl in X1.
        rewrite (H3 (rk x)), S3, Nat.eqb_refl by tauto. rewrite (H3 (rk y)), S3, Nat.eqb_refl, orb_true_r by tauto. auto.
      * apply H1. auto.
    + simpl. intros i Hi. rewrite (H2 i) by tauto. rewrite F3. destruct (Nat.eqb_spec i (rk z)); auto. subst. tauto.
    + simpl. intros i Hi. rewrite (H3 i) by tauto. rewrite S3. destruct (Nat.eqb_spec i (rk x)); [subst; tauto|].
      destruct (Nat.eqb_spec i (rk y)); auto. subst; tauto.
Qed.

(** *** Nodes *)
Definition to_node (z : znode) : node := let '(x, y, q) := z in mkNode (opt_of_Z x) (opt_of_Z y) (opt_of_Z q).
Lemma make_nodes_ok ns : (forall z, In z ns -> node_is_valid (to_node z) = true) -> make_nodes ns = Ok (map to_node ns).
Proof.
  induction ns as [|((x, y), q) ns IH]; simpl; auto. intros H. unfold node_make. specialize (H (x, y, q)) as H'. simpl in H'.
  rewrite H' by auto. cbn [bind]. rewrite IH by auto. auto.
Qed.
Lemma opt_nat i : opt_of_Z (Z.of_nat i) = Some i.
Proof. unfold opt_of_Z. destruct (Z.ltb_spec (Z.of_nat i) 0); [lia|]. rewrite Nat2Z.id. auto. Qed.

Lemma NoDup_map_inj (A B : Type) (f : A -> B) (l : list A) : NoDup l -> (forall x y, In x l -> In y l -> f x = f y -> x = y) -> NoDup (map f l).
Proof.
  induction 1 as [|x l H HN IH]; simpl; intros Hi; constructor; auto.
  intros Hx. apply in_map_iff in Hx. destruct Hx as (y & E & Hy). apply H. rewrite (Hi x y); auto.
Qed.

Lemma bs_nodup : NoDup (map top bs). Proof. rewrite (rt_tops HRT). apply seq_NoDup. Qed.

Lemma children_nodup : forall l, (forall S, In S l -> In S bs) -> NoDup (map top l) ->
  NoDup (flat_map (fun t => let '(x, y, z) := t in [rk x; rk y]) (map tri l)).
Proof.
  assert (NR := rt_nd HRT).
  assert (Hd : forall p1 l1 r1, In (Nd p1 l1 r1) bs -> subtree l1 R /\ subtree r1 R /\ top l1 <> top r1).
  { intros p1 l1 r1 H. destruct (rt_bs HRT H) as (HS & _). split; [|split].
    - eapply sub_trans; [apply sub_left; constructor|eauto].
    - eapply sub_trans; [apply sub_right; constructor|eauto].
    - pose proof (sub_nodup HS NR) as HN. simpl in HN. inversion HN as [|? ? _ HN']; subst. apply NoDup_app in HN'. destruct HN' as (_ & _ & HD).
      intros E. apply (HD (top l1)); [apply top_pos|rewrite E; apply top_pos]. }
  assert (Hu : forall p1 l1 r1 p2 l2 r2 c, In (Nd p1 l1 r1) bs -> In (Nd p2 l2 r2) bs -> (c = l1 \/ c = r1) -> (c = l2 \/ c = r2) -> p1 = p2).
  { intros p1 l1 r1 p2 l2 r2 c H1 H2 C1 C2. destruct (rt_bs HRT H1) as (S1 & _). destruct (rt_bs HRT H2) as (S2 & _).
    assert (G : forall X, NoDup (positions X) -> forall p1 l1 r1 p2 l2 r2 c, subtree (Nd p1 l1 r1) X -> subtree (Nd p2 l2 r2) X -> (c = l1 \/ c = r1) -> (c = l2 \/ c = r2) -> p1 = p2).
    { clear. induction X as [q|q a IHa b IHb]; intros HN p1 l1 r1 p2 l2 r2 c S1 S2 C1 C2; [inversion S1|].
      simpl in HN. inversion HN as [|? ? _ HN']; subst. apply NoDup_app in HN'. destruct HN' as (Na & Nb & D).
      assert (IN : forall p l r X, subtree (Nd p l r) X -> (c = l \/ c = r) -> In (top c) (positions X)).
      { intros p l r X H Hc. apply (sub_pos H). simpl. rewrite in_app_iff. destruct Hc as [->| ->]; pose proof (top_pos l); pose proof (top_pos r); auto. }
      assert (NI : forall p l r X, NoDup (positions X) -> subtree (Nd p l r) X -> (c = l \/ c = r) -> c <> X).
      { intros p l r X HX H Hc ->. pose proof (sub_nodup H HX) as HN2. simpl in HN2. inversion HN2 as [|? ? HN3 HN4]; subst.
        apply HN3. apply in_app_iff.
        destruct Hc as [E|E].
        - assert (H3 : subtree (Nd p l r) l) by (clear -H E; subst; exact H). left. apply (sub_pos H3). simpl. auto.
        - assert (H3 : subtree (Nd p l r) r) by (clear -H E; subst; exact H). right. apply (sub_pos H3). simpl. auto. }
      inversion S1 as [|? ? ? S1'|? ? ? S1']; subst; inversion S2 as [|? ? ? S2'|? ? ? S2']; subst; auto.
      - exfalso. destruct C1 as [->| ->]; [apply (NI _ _ _ _ Na S2' C2); auto|]. apply (D (top b)); [apply (IN _ _ _ _ S2' C2)|apply top_pos].
      - exfalso. destruct C1 as [->| ->]; [|apply (NI _ _ _ _ Nb S2' C2); auto]. apply (D (top a)); [apply top_pos|apply (IN _ _ _ _ S2' C2)].
      - exfalso. destruct C2 as [->| ->]; [apply (NI _ _ _ _ Na S1' C1); auto|]. apply (D (top b)); [apply (IN _ _ _ _ S1' C1)|apply top_pos].
      - eapply IHa; eauto.
      - exfalso. apply (D (top c)); [apply (IN _ _ _ _ S1' C1)|apply (IN _ _ _ _ S2' C2)].
      - exfalso. destruct C2 as [->| ->]; [|apply (NI _ _ _ _ Nb S1' C1); auto]. apply (D (top a)); [apply top_pos|apply (IN _ _ _ _ S1' C1)].
      - exfalso. apply (D (top c)); [apply (IN _ _ _ _ S2' C2)|apply (IN _ _ _ _ S1' C1)].
      - eapply IHb; eauto. }
    eapply (G R NR); eauto. }
  induction l as [|S l IH]; intros Hl HN; simpl; [constructor|]. simpl in HN. inversion HN as [|? ? N1 N2]; subst.
  destruct (rt_bs HRT (Hl S (or_introl eq_refl))) as (_ & q & a & b & ->). simpl.
  assert (Hin : In (Nd q a b) bs) by (apply Hl; simpl; auto). destruct (Hd _ _ _ Hin) as (Sa & Sb & Hab).
  assert (IP : forall X, subtree X R -> In (top X) (positions R)) by (intros X HX; apply (sub_pos HX), top_pos).
  assert (Hnot : forall c, c = a \/ c = b -> ~ In (rk (top c)) (flat_map (fun t => let '(x, y, z) := t in [rk x; rk y]) (map tri l))).
  { intros c Hc Hx. apply in_flat_map in Hx. destruct Hx as (t & Ht & Hx). apply in_map_iff in Ht. destruct Ht as (S' & <- & HS').
    assert (Hin' : In S' bs) by (apply Hl; simpl; auto). destruct (rt_bs HRT Hin') as (_ & q' & a' & b' & ->). simpl in Hx.
    destruct (Hd _ _ _ Hin') as (Sa' & Sb' & _).
    assert (Sc : subtree c R) by (destruct Hc as [->| ->]; auto).
    assert (E : c = a' \/ c = b').
    { destruct Hx as [E|[E|[]]]; [left|right]; symmetry; apply (sub_top_inj NR); auto; apply rk_inj; auto. }
    assert (q = q') by (eapply Hu; eauto). subst q'. apply N1. apply in_map_iff. exists (Nd q a' b'). auto. }
  constructor; [|constructor; [apply (Hnot b); auto|apply IH; auto; intros X HX; apply Hl; simpl; auto]].
  simpl. intros [E|Hx]; [|apply (Hnot a); auto]. apply Hab. symmetry. apply rk_inj; auto.
Qed.

Definition built_nodes (ns : list node) : Prop :=
  length ns = length posl /\ tree_of ns (relabel rk R).

Lemma nodes_ok : exists zn ns, link_all posl (map tri bs) (repeat (-1, -1, -1)%Z (length posl)) = Ok zn /\ make_nodes zn = Ok ns /\ length ns = length posl /\ tree_of ns (relabel rk R).
Proof.
  assert (NR := rt_nd HRT).
  destruct (@link_ok (map tri bs) (repeat (-1, -1, -1)%Z (length posl))) as (zn & E & L & H1 & H2 & H3).
  - intros v Hv. apply flat_pos in Hv. rewrite repeat_length. split; [apply rk_ok; auto|apply rk_lt; auto].
  - rewrite map_map. rewrite (map_ext_in _ (fun S => rk (top S))).
    + rewrite <- map_map. apply NoDup_map_inj; [apply bs_nodup|]. intros x y Hx Hy. apply rk_inj.
      * apply in_map_iff in Hx. destruct Hx as (S & <- & HS). destruct (rt_bs HRT HS) as (HS' & _). apply (sub_pos HS'), top_pos.
      * apply in_map_iff in Hy. destruct Hy as (S & <- & HS). destruct (rt_bs HRT HS) as (HS' & _). apply (sub_pos HS'), top_pos.
    + intros S HS. destruct (rt_bs HRT HS) as (_ & q & l & r & ->). auto.
  - apply children_nodup; auto. apply bs_nodup.
  - rewrite repeat_length in L.
    assert (Hrep : forall i, nth i (repeat (-1, -1, -1)%Z (length posl)) zd = zd).
    { intros i. destruct (Nat.lt_ge_cases i (length posl)); [apply nth_repeat|apply nth_overflow; rewrite repeat_length; auto]. }
    assert (IP : forall X, subtree X R -> In (top X) (positions R)) by (intros X HX; apply (sub_pos HX), top_pos).
    (* what is at the rank of each node *)
    assert (Hnd : forall q l r, subtree (Nd q l r) R ->
       fst (nth (rk q) zn zd) = (Z.of_nat (rk (top l)), Z.of_nat (rk (top r))) /\ snd (nth (rk (top l)) zn zd) = Z.of_nat (rk q) /\ snd (nth (rk (top r)) zn zd) = Z.of_nat (rk q)).
    { intros q l r HS. destruct (rt_int HRT HS) as [Hb|(t & E' & _)]; [|discriminate]. apply H1. apply tri_in. eauto. }
    assert (Hlf : forall t, subtree (Lf t) R -> fst (nth (rk t) zn zd) = (-1, -1)%Z).
    { intros t HS. rewrite (H2 (rk t)), Hrep; auto. intros Hx. rewrite map_map in Hx. apply in_map_iff in Hx. destruct Hx as (S & Ex & HS').
      destruct (rt_bs HRT HS') as (HS'' & q & l & r & ->). simpl in Ex. pose proof (bs_top HS') as Hb. simpl in Hb.
      assert (q = t) by (apply rk_inj; auto; [apply (IP _ HS'')|apply (IP _ HS)]). subst q.
      apply leaf_sub in HS. apply (rt_lv HRT) in HS. lia. }
    assert (Hrt : snd (nth (rk (top R)) zn zd) = (-1)%Z).
    { rewrite (H3 (rk (top R))), Hrep; auto. intros Hx. apply in_flat_map in Hx. destruct Hx as (t & Ht & Hx). apply in_map_iff in Ht.
      destruct Ht as (S & <- & HS). destruct (rt_bs HRT HS) as (HS' & q & l & r & ->). simpl in Hx.
      assert (Sl : subtree l R) by (eapply sub_trans; [apply sub_left; constructor|eauto]).
      assert (Sr : subtree r R) by (eapply sub_trans; [apply sub_right; constructor|eauto]).
      pose proof (rt_hp HRT) as Hh. 
      assert (Hq : In q (positions R)) by (apply (IP _ HS')).
      assert (Hlq : forall X, heap X -> subtree (Nd q l r) X -> top l < q /\ top r < q).
      { clear. induction X as [w|w a IHa b IHb]; intros HX H; inversion H; subst; destruct HX as (G1 & G2 & G3); auto.
        split; apply G1; [left|right]; apply top_pos. }
      destruct (Hlq R Hh HS'). pose proof (heap_top Hh Hq).
      destruct Hx as [Ex|[Ex|[]]]; apply rk_inj in Ex; auto using top_pos; lia. }
    exists zn, (map to_node zn).
    assert (Hnth : forall i, i < length posl -> nth_error (map to_node zn) i = Some (to_node (nth i zn zd))).
    { intros i Hi. rewrite nth_error_map, (nth_error_nth' zn zd) by lia. auto. }
    assert (Hun : forall S q, subtree S R -> snd (nth (rk (top S)) zn zd) = match q with Some w => Z.of_nat w | None => (-1)%Z end ->
       unfolds (map to_node zn) q (relabel rk S)).
    { assert (Hoq : forall q : option nat, opt_of_Z (match q with Some w => Z.of_nat w | None => (-1)%Z end) = q) by (intros [w|]; [apply opt_nat|auto]).
      induction S as [t|w l IHl r IHr]; intros q HS Hq; simpl in *.
      - rewrite Hnth by (apply rk_lt; apply (IP _ HS)). pose proof (Hlf t HS) as Hf.
        destruct (nth (rk t) zn zd) as ((x, y), z). simpl in *. inversion Hf; subst. rewrite Hoq. auto.
      - destruct (Hnd _ _ _ HS) as (G1 & G2 & G3). split; [|split].
        + rewrite Hnth by (apply rk_lt; apply (IP _ HS)). destruct (nth (rk w) zn zd) as ((x, y), z). simpl in *. inversion G1; subst.
          rewrite Hoq, !opt_nat, !relabel_top. auto.
        + apply IHl; auto. eapply sub_trans; [apply sub_left; constructor|eauto].
        + apply IHr; auto. eapply sub_trans; [apply sub_right; constructor|eauto]. }
    split; auto. split; [|split; [rewrite map_length; auto|]].
    + apply make_nodes_ok. intros z Hz. destruct (In_nth _ _ zd Hz) as (i & Hi & <-). rewrite L in Hi.
      destruct (nth_error posl i) as [v|] eqn:Ev; [|apply nth_error_None in Ev; lia]. rewrite <- (rk_of Ev).
      assert (Hv : In v (positions R)) by (apply posl_in; eapply nth_error_In; eauto). destruct (pos_sub Hv) as (S & HS & <-).
      destruct S as [t|w l r].
      * pose proof (Hlf t HS) as Hf. simpl. destruct (nth (rk t) zn zd) as ((x, y), z). simpl in Hf. inversion Hf; subst. unfold node_is_valid, is_leaf. simpl. auto.
      * destruct (Hnd _ _ _ HS) as (G1 & _ & _). 
        assert (Sl : subtree l R) by (eapply sub_trans; [apply sub_left; constructor|eauto]).
        assert (Sr : subtree r R) by (eapply sub_trans; [apply sub_right; constructor|eauto]).
        assert (Hpar : exists q, snd (nth (rk w) zn zd) = match q with Some w => Z.of_nat w | None => (-1)%Z end /\
          q <> Some (rk (top l)) /\ q <> Some (rk (top r))).
        { destruct (sub_parent HS) as [ER|(q & a & b & HP & Hab)].
          - exists None. split; [|split; discriminate]. rewrite <- ER in Hrt. exact Hrt.
          - exists (Some (rk q)). destruct (Hnd _ _ _ HP) as (_ & G2 & G3). split; [destruct Hab as [<-| <-]; auto|].
            pose proof (sub_nodup HP NR) as HN. simpl in HN. inversion HN as [|? ? HN1 _]; subst.
            assert (Hq : forall X, (X = l \/ X = r) -> top X <> q).
            { intros X HX E'. apply HN1. rewrite <- E'. apply in_app_iff.
              assert (HX' : In (top X) (positions (Nd w l r))).
              { simpl. rewrite in_app_iff. destruct HX as [->| ->]; pose proof (top_pos l); pose proof (top_pos r); auto. }
              destruct Hab as [<-| <-]; auto. }
            split; intros Ex; inversion Ex as [Ex'].
            + apply (Hq l); auto. apply rk_inj; auto. apply (IP _ HP).
            + apply (Hq r); auto. apply rk_inj; auto. apply (IP _ HP). }
        destruct Hpar as (q & Hq & Q1 & Q2). simpl. destruct (nth (rk w) zn zd) as ((x, y), z). simpl in G1, Hq. inversion G1; subst.
        assert (Hoq : opt_of_Z (match q with Some w => Z.of_nat w | None => (-1)%Z end) = q) by (destruct q; [apply opt_nat|auto]).
        simpl. rewrite Hoq, !opt_nat. unfold node_is_valid, is_leaf, is_root. simpl.
        assert (Hlr : rk (top l) <> rk (top r)).
        { intros Ex. apply rk_inj in Ex; auto. pose proof (sub_nodup HS NR) as HN. simpl in HN. inversion HN as [|? ? _ HN1]; subst.
          apply NoDup_app in HN1. destruct HN1 as (_ & _ & D). apply (D (top l)); [apply top_pos|rewrite Ex; apply top_pos]. }
        destruct (Nat.eqb_spec (rk (top l)) (rk (top r))); [contradiction|]. simpl. destruct q as [q|]; simpl; auto.
        destruct (Nat.eqb_spec q (rk (top l))); [congruence|]. destruct (Nat.eqb_spec q (rk (top r))); [congruence|]. auto.
    + destruct posl_length as (PL & PU). split; [|split; [|split]].
      * apply Hun; auto. constructor.
      * rewrite relabel_pos, map_length, L. rewrite <- rk_map. apply Permutation_map. symmetry. apply posl_perm.
      * rewrite relabel_top, map_length, L. apply rk_root.
      * rewrite map_length, L, PL. replace ((2 * length used - 1 + 1) / 2) with (length used).
        2:{ replace (2 * length used - 1 + 1) with (length used * 2) by lia. rewrite Nat.div_mul; auto. }
        intros v. rewrite relabel_leaves. split.
        -- intros Hv. apply in_map_iff in Hv. destruct Hv as (t & <- & Ht). apply rk_leaf. auto.
        -- intros Hv. destruct (nth_error used v) as [t|] eqn:Et; [|apply nth_error_None in Et; lia].
           apply in_map_iff. exists t. assert (Ht : In t (leaves R)) by (apply used_in; eapply nth_error_In; eauto). split; auto.
           apply rk_of. rewrite posl_eq, nth_error_app1 by auto. auto.
Qed.
End Pos.
