(** The constructor check of Tree. *)
From Coq Require Import Permutation.
From Verif Require Import M_Base M_Tree S_Tree P_Base P_Tree P_Shape.
Set Implicit Arguments.
Unset Strict Implicit.

(** ** Sums of naturals *)
Lemma lsum_in (A : Type) (f : A -> nat) l x : In x l -> f x <= list_sum (map f l).
Proof. induction l as [|y l IH]; simpl; [tauto|]. intros [->|H]; [lia|specialize (IH H); lia]. Qed.
Lemma lsum_zero (A : Type) (f : A -> nat) l : (forall x, In x l -> f x = 0) -> list_sum (map f l) = 0.
Proof.
  induction l as [|y l IH]; simpl; intros H; auto. rewrite IH by auto. rewrite (H y); auto.
Qed.
Lemma lsum_add (A : Type) (f g : A -> nat) l :
  list_sum (map (fun x => f x + g x) l) = list_sum (map f l) + list_sum (map g l).
Proof. induction l; simpl; lia. Qed.
Lemma lsum_ext (A : Type) (f g : A -> nat) l : (forall x, In x l -> f x = g x) ->
  list_sum (map f l) = list_sum (map g l).
Proof.
  induction l as [|y l IH]; simpl; intros H; [reflexivity|].
  rewrite (H y) by auto. f_equal. apply IH. auto.
Qed.
Lemma lsum_const0 (A : Type) (l : list A) : list_sum (map (fun _ => 0) l) = 0.
Proof. apply lsum_zero. auto. Qed.
Lemma lsum_swap (A B : Type) (f : A -> B -> nat) (l : list A) (k : list B) :
  list_sum (map (fun x => list_sum (map (f x) k)) l) =
  list_sum (map (fun y => list_sum (map (fun x => f x y) l)) k).
Proof.
  induction l as [|x l IH]; simpl.
  - rewrite lsum_const0. auto.
  - rewrite lsum_add, IH. auto.
Qed.
Lemma lsum_ind n v : list_sum (map (fun i => Nat.b2n (v =? i)) (seq 0 n)) = Nat.b2n (v <? n).
Proof.
  induction n as [|n IH]; auto. rewrite seq_S, map_app, list_sum_app, IH. simpl.
  destruct (Nat.ltb_spec v n), (Nat.ltb_spec v (S n)), (Nat.eqb_spec v n); simpl; lia.
Qed.
Lemma lsum_le (A : Type) (f g : A -> nat) l : (forall x, In x l -> f x <= g x) ->
  list_sum (map f l) <= list_sum (map g l).
Proof.
  induction l as [|y l IH]; simpl; intros H; auto. pose proof (H y). pose proof (IH (fun x Hx => H x (or_intror Hx))).
  intuition.
Qed.
(** Equal sums and pointwise order give pointwise equality. *)
Lemma lsum_eq_pointwise (A : Type) (f g : A -> nat) l : (forall x, In x l -> f x <= g x) ->
  list_sum (map g l) <= list_sum (map f l) -> forall x, In x l -> f x = g x.
Proof.
  induction l as [|y l IH]; simpl; intros H E x Hx; [tauto|].
  pose proof (H y (or_introl eq_refl)).
  pose proof (lsum_le (fun x Hx => H x (or_intror Hx))).
  destruct Hx as [->|Hx]; [lia|]. apply IH; auto. lia.
Qed.

Lemma in_nth (A : Type) (l : list A) x : In x l <-> exists i, nth_error l i = Some x.
Proof.
  split.
  - apply In_nth_error.
  - intros (i & Hi). eapply nth_error_In; eauto.
Qed.

(** ** Completeness *)
Lemma filter_unique (A : Type) (f : A -> bool) (l : list A) k : k < length l ->
  (forall i x, nth_error l i = Some x -> (f x = true <-> i = k)) -> length (filter f l) = 1.
Proof.
  revert k. induction l as [|y l IH]; simpl; intros k Hk H; [lia|].
  destruct k as [|k].
  - rewrite (proj2 (H 0 y eq_refl) eq_refl). simpl. f_equal.
    assert (E : filter f l = []).
    { destruct (filter f l) as [|z r] eqn:E; auto. exfalso.
      assert (Hz : In z (filter f l)) by (rewrite E; simpl; auto).
      apply filter_In in Hz. destruct Hz as (Hz & Fz). apply in_nth in Hz. destruct Hz as (i & Hi).
      apply (H (S i) z) in Fz; auto. discriminate. }
    rewrite E. auto.
  - destruct (f y) eqn:E.
    + apply (H 0 y eq_refl) in E. discriminate.
    + apply (IH k); [lia|]. intros i x Hi. rewrite (H (S i) x Hi). lia.
Qed.

Lemma filter_all (A : Type) (f : A -> bool) l : (forall x, In x l -> f x = true) -> filter f l = l.
Proof. induction l as [|x l IH]; simpl; intros H; auto. rewrite (H x), IH; auto. Qed.

Lemma all_pos_spec t f : all_pos t f = true <-> forall i n, nth_error t i = Some n -> f i n = true.
Proof.
  unfold all_pos. rewrite forallb_forall. split.
  - intros H i n Hn. specialize (H i). rewrite Hn in H. apply H. apply in_seq.
    pose proof (nth_error_lt Hn). lia.
  - intros H i _. destruct (nth_error t i) as [n|] eqn:Hn; auto.
Qed.

Lemma leaves_size T : S (bsize T) = 2 * length (leaves T).
Proof. induction T; simpl; auto. rewrite app_length. lia. Qed.

Lemma leaves_nodup T : NoDup (positions T) -> NoDup (leaves T).
Proof.
  induction T as [a|a l IHl r IHr]; simpl; intros H; auto.
  inversion H; subst. apply nodup_app in H3. destruct H3 as (N1 & N2 & Nd).
  apply nodup_app. repeat split; auto. intros x Hx Hy. eapply Nd; eauto using leaves_in.
Qed.

Lemma tree_of_size t T : tree_of t T -> length (leaves T) = n_leaves t /\ length t = 2 * n_leaves t - 1 /\ 0 < n_leaves t.
Proof.
  intros HT. destruct (tree_of_in HT) as (Hnd & Hin). destruct HT as (HU & Hp & Htop & Hlv).
  assert (E : length (leaves T) = n_leaves t).
  { transitivity (length (seq 0 (n_leaves t))); [|apply seq_length].
    apply Permutation_length. apply NoDup_Permutation; auto using seq_NoDup, leaves_nodup.
    intros x. rewrite Hlv, in_seq. unfold n_leaves. lia. }
  pose proof (leaves_size T) as Es. rewrite <- bsize_positions, (Permutation_length Hp), seq_length in Es.
  rewrite E in Es. repeat split; auto; lia.
Qed.

Lemma wfl_kid_lt t v c : wfl t -> kid t v c -> c < length t.
Proof. intros W H. apply (wl_kp W) in H. destruct H as (n & Hn & _). eapply nth_error_lt; eauto. Qed.

Lemma wfl_valid t : wfl t -> tree_is_valid t = true.
Proof.
  intros W. destruct (wl_rank W) as (h & Hr).
  destruct (wfl_tree_of W) as (T & HT). destruct (tree_of_size HT) as (_ & Hsize & HL).
  pose proof (wl_len W) as Hlen.
  assert (Hroot : forall v n, nth_error t v = Some n -> (is_root n = true <-> v = length t - 1)).
  { intros v n Hn. rewrite <- (wl_root W (nth_error_lt Hn)). unfold is_root. split.
    - intros E p (m & Hm & Hp). assert (m = n) by congruence. subst. rewrite Hp in E. discriminate.
    - intros Hno. destruct (par n) as [p|] eqn:E; auto. exfalso. apply (Hno p). exists n; auto. }
  assert (Hleaf : forall v n, nth_error t v = Some n -> (is_leaf n = true <-> v < n_leaves t)).
  { intros v n Hn. rewrite <- (wl_leaf W Hn). unfold is_leaf. destruct (c0 n); split; congruence. }
  unfold tree_is_valid. rewrite !andb_true_iff. repeat match goal with |- _ /\ _ => split end.
  - apply forallb_forall. intros n Hn. apply in_nth in Hn. destruct Hn as (v & Hn).
    assert (Kp : forall p, par n = Some p -> p < length t).
    { intros p Hp. apply (parent_lt W (v := v)). exists n; auto. }
    assert (K0 : forall c, c0 n = Some c -> c < length t).
    { intros c Hc. apply (wfl_kid_lt W (v := v)). exists n; auto. }
    assert (K1 : forall c, c1 n = Some c -> c < length t).
    { intros c Hc. apply (wfl_kid_lt W (v := v)). exists n; auto. }
    rewrite !andb_true_iff. repeat match goal with |- _ /\ _ => split end.
    + destruct (par n); simpl; auto. apply Nat.ltb_lt. auto.
    + destruct (c0 n); simpl; auto. apply Nat.ltb_lt. auto.
    + destruct (c1 n); simpl; auto. apply Nat.ltb_lt. auto.
    + unfold node_is_valid. unfold is_leaf, is_root.
      destruct (wl_two W Hn) as [(E0 & E1)|(a & b & E0 & E1 & Hab)]; rewrite E0, E1; simpl.
      * reflexivity.
      * rewrite (proj2 (Nat.eqb_neq a b)) by auto. simpl.
        destruct (par n) as [p|] eqn:Ep; simpl; auto.
        assert (Kp' : kid t p v) by (apply (wl_kp W); exists n; auto). apply Hr in Kp'.
        assert (Ka : kid t v a) by (exists n; auto). apply Hr in Ka.
        assert (Kb : kid t v b) by (exists n; auto). apply Hr in Kb.
        rewrite (proj2 (Nat.eqb_neq p a)) by (intros ->; lia).
        rewrite (proj2 (Nat.eqb_neq p b)) by (intros ->; lia). auto.
  - destruct (nth_error t (length t - 1)) as [n|] eqn:Hn.
    + apply (Hroot _ _ Hn). auto.
    + apply nth_error_None in Hn. lia.
  - apply Nat.eqb_eq. apply filter_unique with (k := length t - 1); [lia|]. intros i x Hi. apply Hroot; auto.
  - rewrite filter_all.
    + rewrite firstn_length. apply Nat.eqb_eq. lia.
    + intros n Hn. apply in_nth in Hn. destruct Hn as (i & Hi).
      assert (Hlt : i < n_leaves t).
      { apply nth_error_lt in Hi. rewrite firstn_length in Hi. lia. }
      assert (Hi' : nth_error t i = Some n).
      { rewrite <- (firstn_skipn (n_leaves t) t). rewrite nth_error_app1; auto.
        apply nth_error_lt in Hi. auto. }
      apply (Hleaf _ _ Hi'). auto.
  - apply Nat.eqb_eq. auto.
  - apply all_pos_spec. intros i n Hn. unfold count_parents_ok. apply negb_true_iff. apply Nat.eqb_neq.
    unfold count_parents. destruct (is_leaf n) eqn:El; simpl.
    + rewrite lsum_zero; [lia|]. intros m Hm. apply in_nth in Hm. destruct Hm as (j & Hm).
      destruct (is_root m) eqn:Er; auto. destruct (oeqb (par m) (Some i)) eqn:Eo; auto. exfalso.
      apply oeqb_spec in Eo. assert (Kc : kid t i j) by (apply (wl_kp W); exists m; auto).
      destruct Kc as (n' & Hn' & Hk). assert (n' = n) by congruence. subst n'.
      unfold is_leaf in El. destruct (wl_two W Hn) as [(E0 & E1)|(a & b & E0 & E1 & Hab)];
        rewrite E0 in *; [rewrite E1 in *; intuition congruence|discriminate].
    + destruct (wl_two W Hn) as [(E0 & E1)|(a & b & E0 & E1 & Hab)];
        [unfold is_leaf in El; rewrite E0 in El; discriminate|].
      assert (Ka : kid t i a) by (exists n; auto). destruct (kid_node W Ka) as (na & Hna & Pa).
      pose proof (lsum_in (fun n => if is_root n then 0 else Nat.b2n (oeqb (par n) (Some i)))
                          (nth_error_In _ _ Hna)) as Hle. simpl in Hle.
      unfold is_root in Hle. rewrite Pa in Hle. rewrite oeqb_refl in Hle. simpl in Hle.
      fold is_root in Hle. unfold is_root. lia.
  - apply all_pos_spec. intros i n Hn. unfold count_children_ok. apply negb_true_iff. apply Nat.eqb_neq.
    unfold count_children. destruct (is_root n) eqn:Er; simpl.
    + rewrite lsum_zero; [lia|]. intros m Hm. apply in_nth in Hm. destruct Hm as (j & Hm).
      destruct (is_leaf m) eqn:El; auto.
      assert (Hno : ~ kid t j i).
      { intros Hk. apply (wl_kp W) in Hk. destruct Hk as (n' & Hn' & Hp). assert (n' = n) by congruence.
        subst. unfold is_root in Er. rewrite Hp in Er. discriminate. }
      destruct (oeqb (c0 m) (Some i)) eqn:Eo; [exfalso; apply Hno; apply oeqb_spec in Eo; exists m; auto|].
      destruct (oeqb (c1 m) (Some i)) eqn:Eo1; [exfalso; apply Hno; apply oeqb_spec in Eo1; exists m; auto|].
      auto.
    + destruct (par n) as [p|] eqn:Ep; [|unfold is_root in Er; rewrite Ep in Er; discriminate].
      assert (Kp : kid t p i) by (apply (wl_kp W); exists n; auto). destruct Kp as (m & Hm & Hk).
      pose proof (lsum_in (fun n => if is_leaf n then 0
                          else Nat.b2n (oeqb (c0 n) (Some i)) + Nat.b2n (oeqb (c1 n) (Some i)))
                          (nth_error_In _ _ Hm)) as Hle. cbv beta in Hle.
      assert (El : is_leaf m = false).
      { unfold is_leaf. destruct (wl_two W Hm) as [(E0 & E1)|(a & b & E0 & E1 & Hab)]; rewrite E0; auto.
        intuition congruence. }
      rewrite El in Hle.
      assert (1 <= Nat.b2n (oeqb (c0 m) (Some i)) + Nat.b2n (oeqb (c1 m) (Some i))).
      { destruct Hk as [Hk|Hk]; rewrite Hk, oeqb_refl; simpl; lia. }
      lia.
Qed.

(** ** What acceptance does guarantee *)
Lemma firstn_filter_all (A : Type) (f : A -> bool) l : length (filter f l) = length l -> forall x, In x l -> f x = true.
Proof.
  induction l as [|y l IH]; simpl; [tauto|]. destruct (f y) eqn:E.
  - simpl. intros H x [->|Hx]; auto.
  - intros H. assert (Hle : length (filter f l) <= length l).
    { clear. induction l as [|z l IH]; simpl; auto. destruct (f z); simpl; lia. }
    lia.
Qed.

Lemma filter_one_uniq (A : Type) (f : A -> bool) l i j x y : length (filter f l) = 1 ->
  nth_error l i = Some x -> nth_error l j = Some y -> f x = true -> f y = true -> i = j.
Proof.
  revert i j. induction l as [|z l IH]; simpl; intros i j H Hi Hj Fx Fy; [lia|].
  assert (Hz : length (filter f l) = 0 -> forall k w, nth_error l k = Some w -> f w = true -> False).
  { intros E k w Hk Fw. destruct (filter f l) as [|u r] eqn:Ef; [|discriminate].
    assert (Hi' : In w (filter f l)) by (apply filter_In; split; auto; eapply nth_error_In; eauto).
    rewrite Ef in Hi'. auto. }
  destruct i as [|i], j as [|j]; simpl in *; auto.
  - inversion Hi; subst. rewrite Fx in H. simpl in H. exfalso. eapply Hz; eauto.
  - inversion Hj; subst. rewrite Fy in H. simpl in H. exfalso. eapply Hz; eauto.
  - destruct (f z) eqn:Fz; simpl in H.
    + exfalso. eapply (Hz ltac:(lia)); [exact Hi|auto].
    + f_equal. eapply IH; eauto.
Qed.

Lemma lsum_split (f : nat -> nat) n k : k <= n ->
  list_sum (map f (seq 0 n)) = list_sum (map f (seq 0 k)) + list_sum (map f (seq k (n - k))).
Proof.
  intros H. rewrite <- list_sum_app, <- map_app. replace n with (k + (n - k)) at 1 by lia.
  rewrite seq_app. auto.
Qed.

Lemma lsum_nth (f : node -> nat) (t : tree) :
  list_sum (map f t) = list_sum (map (fun i => match nth_error t i with Some n => f n | None => 0 end) (seq 0 (length t))).
Proof.
  induction t as [|x t IH]; simpl; auto. f_equal. rewrite IH. rewrite <- seq_shift, map_map. reflexivity.
Qed.

Lemma seq_const_le (f : nat -> nat) c s n : (forall i, s <= i < s + n -> f i <= c) -> list_sum (map f (seq s n)) <= c * n.
Proof.
  revert s. induction n as [|n IH]; simpl; intros s H; [lia|].
  pose proof (H s). pose proof (IH (S s) ltac:(intros; apply H; lia)). lia.
Qed.

Lemma lsum_const c s n : list_sum (map (fun _ : nat => c) (seq s n)) = c * n.
Proof. revert s. induction n as [|n IH]; simpl; intros s; [lia|]. rewrite IH. lia. Qed.

Record accepted (t : tree) : Prop := {
  ac_len  : 0 < length t;
  ac_size : length t = 2 * n_leaves t - 1;
  ac_two  : forall v n, nth_error t v = Some n ->
              (c0 n = None /\ c1 n = None) \/ (exists a b, c0 n = Some a /\ c1 n = Some b /\ a <> b);
  ac_in   : forall v n x, nth_error t v = Some n ->
              (par n = Some x \/ c0 n = Some x \/ c1 n = Some x) -> x < length t;
  ac_root : forall v n, nth_error t v = Some n -> (par n = None <-> v = length t - 1);
  ac_leaf : forall v n, nth_error t v = Some n -> (c0 n = None <-> v < n_leaves t);
  ac_one  : forall c, c < length t - 1 -> exists v, kid t v c /\ forall w, kid t w c -> w = v;
  ac_none : forall v, ~ kid t v (length t - 1)
}.

Lemma valid_accepted t : 0 < length t -> tree_is_valid t = true -> accepted t.
Proof.
  intros Hlen H. unfold tree_is_valid in H. repeat (apply andb_prop in H; destruct H as [H ?]).
  rename H into Hn, H5 into Hlast, H4 into Hone, H3 into Hlv, H2 into Hsz, H1 into Hcp, H0 into Hcc.
  rewrite forallb_forall in Hn. apply Nat.eqb_eq in Hone, Hlv, Hsz.
  rewrite all_pos_spec in Hcp, Hcc.
  assert (HL : 0 < n_leaves t) by lia.
  assert (Hroot : forall v n, nth_error t v = Some n -> (par n = None <-> v = length t - 1)).
  { intros v n Hv. destruct (nth_error t (length t - 1)) as [m|] eqn:Hm; [|discriminate]. split.
    - intros E. eapply filter_one_uniq; [exact Hone|exact Hv|exact Hm| |exact Hlast].
      unfold is_root. rewrite E. auto.
    - intros ->. assert (m = n) by congruence. subst. unfold is_root in Hlast. destruct (par n); congruence. }
  assert (Htwo : forall v n, nth_error t v = Some n ->
              (c0 n = None /\ c1 n = None) \/ (exists a b, c0 n = Some a /\ c1 n = Some b /\ a <> b)).
  { intros v n Hv. specialize (Hn n (nth_error_In _ _ Hv)). repeat (apply andb_prop in Hn; destruct Hn as [Hn ?]).
    unfold node_is_valid in H. repeat (apply andb_prop in H; destruct H as [H ?]).
    destruct (c0 n) as [a|] eqn:E0, (c1 n) as [b|] eqn:E1; simpl in *; try discriminate; auto.
    right. exists a, b. repeat split; auto. intros ->.
    unfold is_leaf in H3. rewrite E0 in H3. simpl in H3. rewrite Nat.eqb_refl in H3. discriminate. }
  assert (Hin : forall v n x, nth_error t v = Some n ->
              (par n = Some x \/ c0 n = Some x \/ c1 n = Some x) -> x < length t).
  { intros v n x Hv Hx. specialize (Hn n (nth_error_In _ _ Hv)).
    repeat (apply andb_prop in Hn; destruct Hn as [Hn ?]).
    destruct Hx as [E|[E|E]]; rewrite E in *; simpl in *; apply Nat.ltb_lt; auto. }
  assert (Hfl : forall v n, nth_error t v = Some n -> v < n_leaves t -> is_leaf n = true).
  { intros v n Hv Hlt. apply firstn_filter_all with (l := firstn (n_leaves t) t).
    - rewrite Hlv, firstn_length. lia.
    - apply in_nth. exists v. rewrite <- nth_error_app1 with (l' := skipn (n_leaves t) t).
      + rewrite firstn_skipn. auto.
      + rewrite firstn_length. pose proof (nth_error_lt Hv). lia. }
  (* pigeonhole *)
  set (kids := fun n : node => if is_leaf n then 0 else 2).
  assert (Htot : list_sum (map (count_children t) (seq 0 (length t))) = list_sum (map kids t)).
  { unfold count_children. rewrite <- lsum_swap with (f := fun n v => if is_leaf n then 0
       else Nat.b2n (oeqb (c0 n) (Some v)) + Nat.b2n (oeqb (c1 n) (Some v))).
    apply lsum_ext. intros n Hi. apply in_nth in Hi. destruct Hi as (v & Hv). unfold kids.
    destruct (is_leaf n) eqn:El; [apply lsum_const0|].
    destruct (Htwo _ _ Hv) as [(E0 & _)|(a & b & E0 & E1 & _)].
    { unfold is_leaf in El. rewrite E0 in El. discriminate. }
    rewrite E0, E1. cbn [oeqb]. rewrite lsum_add, !lsum_ind.
    rewrite (proj2 (Nat.ltb_lt a (length t))) by (eapply Hin; eauto).
    rewrite (proj2 (Nat.ltb_lt b (length t))) by (eapply Hin; eauto). auto. }
  set (kat := fun i => match nth_error t i with Some n => kids n | None => 0 end).
  set (L := n_leaves t) in *.
  assert (Hub1 : list_sum (map kat (seq 0 L)) = 0).
  { apply lsum_zero. intros i Hi. apply in_seq in Hi. unfold kat. destruct (nth_error t i) eqn:E; auto.
    unfold kids. rewrite (Hfl _ _ E) by lia. auto. }
  assert (Hub : list_sum (map kids t) = list_sum (map kat (seq L (length t - L)))).
  { rewrite lsum_nth. fold kat. rewrite (lsum_split _ (n := length t) (k := L)) by lia. lia. }
  assert (Hub2 : list_sum (map kat (seq L (length t - L))) <= 2 * (L - 1)).
  { replace (L - 1) with (length t - L) by lia. apply seq_const_le. intros i _. unfold kat, kids.
    destruct (nth_error t i); [destruct (is_leaf n)|]; lia. }
  assert (Hlb : forall i, i < length t - 1 -> 1 <= count_children t i).
  { intros i Hi. destruct (nth_error t i) as [n|] eqn:E; [|apply nth_error_None in E; lia].
    specialize (Hcc _ _ E). unfold count_children_ok in Hcc. apply negb_true_iff in Hcc. apply Nat.eqb_neq in Hcc.
    assert (is_root n = false).
    { unfold is_root. destruct (par n) eqn:Ep; auto. apply (Hroot _ _ E) in Ep. lia. }
    rewrite H in Hcc. simpl in Hcc. lia. }
  assert (Hsp : list_sum (map (count_children t) (seq 0 (length t))) =
                list_sum (map (count_children t) (seq 0 (length t - 1))) + count_children t (length t - 1)).
  { rewrite (lsum_split _ (n := length t) (k := length t - 1)) by lia.
    replace (length t - (length t - 1)) with 1 by lia. simpl. lia. }
  assert (Hones : length t - 1 <= list_sum (map (count_children t) (seq 0 (length t - 1)))).
  { assert (G : forall n s, (forall i, s <= i < s + n -> 1 <= count_children t i) ->
                n <= list_sum (map (count_children t) (seq s n))).
    { induction n as [|n IH]; simpl; intros s Hs; [lia|].
      pose proof (Hs s ltac:(lia)). pose proof (IH (S s) ltac:(intros; apply Hs; lia)). lia. }
    apply G. intros i Hi. apply Hlb. lia. }
  assert (Hr0 : count_children t (length t - 1) = 0) by lia.
  assert (Hall1 : forall i, i < length t - 1 -> count_children t i = 1).
  { intros i Hi. symmetry.
    apply (lsum_eq_pointwise (f := fun _ => 1) (g := count_children t) (l := seq 0 (length t - 1))).
    - intros x Hx. apply in_seq in Hx. apply Hlb. lia.
    - assert (E : list_sum (map (fun _ : nat => 1) (seq 0 (length t - 1))) = length t - 1).
      { rewrite lsum_const. lia. }
      rewrite E. lia.
    - apply in_seq. lia. }
  assert (Hk2 : forall i, L <= i < length t -> kat i = 2).
  { intros i Hi.
    apply (lsum_eq_pointwise (f := kat) (g := fun _ => 2) (l := seq L (length t - L))).
    - intros x _. unfold kat, kids. destruct (nth_error t x); [destruct (is_leaf n)|]; lia.
    - assert (E : list_sum (map (fun _ : nat => 2) (seq L (length t - L))) = 2 * (length t - L)).
      { apply lsum_const. }
      rewrite E. lia.
    - apply in_seq. lia. }
  assert (Hkc : forall v c, kid t v c -> exists n, nth_error t v = Some n /\
     1 <= (if is_leaf n then 0 else Nat.b2n (oeqb (c0 n) (Some c)) + Nat.b2n (oeqb (c1 n) (Some c)))).
  { intros v c (n & Hv & Hk). exists n. split; auto.
    destruct (Htwo _ _ Hv) as [(E0 & E1)|(a & b & E0 & E1 & Hab)]; [intuition congruence|].
    unfold is_leaf. rewrite E0. rewrite <- E0. destruct Hk as [Hk|Hk]; rewrite Hk, oeqb_refl; simpl; lia. }
  constructor; auto.
  - intros v n Hv. split.
    + intros E. destruct (le_lt_dec L v) as [Hle|]; auto.
      pose proof (nth_error_lt Hv). specialize (Hk2 v ltac:(lia)). unfold kat, kids, is_leaf in Hk2.
      rewrite Hv, E in Hk2. discriminate.
    + intros Hlt. specialize (Hfl _ _ Hv Hlt). unfold is_leaf in Hfl. destruct (c0 n); congruence.
  - intros c Hc. specialize (Hall1 c Hc).
    unfold count_children in Hall1. rewrite lsum_nth in Hall1.
    set (g := fun i => match nth_error t i with Some n => if is_leaf n then 0
       else Nat.b2n (oeqb (c0 n) (Some c)) + Nat.b2n (oeqb (c1 n) (Some c)) | None => 0 end) in Hall1.
    assert (Hg : forall w, kid t w c -> w < length t /\ 1 <= g w).
    { intros w Hw. destruct (Hkc _ _ Hw) as (n & Hw' & Hge). split; [eapply nth_error_lt; eauto|].
      unfold g. rewrite Hw'. auto. }
    assert (Hex : exists v, v < length t /\ 1 <= g v).
    { assert (G : forall l : list nat, 1 <= list_sum (map g l) -> exists v, In v l /\ 1 <= g v).
      { induction l as [|z l IH]; simpl; [lia|]. intros Hs. destruct (g z) as [|gz] eqn:Eg.
        - destruct (IH Hs) as (v & Hv & Hgv). eauto.
        - exists z. split; auto. lia. }
      destruct (G (seq 0 (length t)) ltac:(lia)) as (v & Hv & Hgv). apply in_seq in Hv. exists v. split; auto. lia. }
    destruct Hex as (v & Hv & Hgv). exists v. split.
    + unfold g in Hgv. destruct (nth_error t v) as [n|] eqn:E; [|lia]. destruct (is_leaf n); [lia|].
      exists n. split; auto. destruct (oeqb (c0 n) (Some c)) eqn:Eo; [left; apply oeqb_spec; auto|].
      destruct (oeqb (c1 n) (Some c)) eqn:Eo1; [right; apply oeqb_spec; auto|]. simpl in Hgv. lia.
    + intros w Hw. destruct (Hg w Hw) as (Lw & Gw). destruct (Nat.eq_dec w v) as [|Hne]; auto. exfalso.
      assert (G : forall l : list nat, NoDup l -> In v l -> In w l -> 2 <= list_sum (map g l)).
      { induction l as [|z l IH]; simpl; [tauto|]. intros Hnd Hi Hj. inversion Hnd; subst.
        destruct Hi as [->|Hi], Hj as [->|Hj]; try congruence.
        - pose proof (lsum_in (g) Hj). lia.
        - pose proof (lsum_in (g) Hi). lia.
        - specialize (IH H2 Hi Hj). lia. }
      specialize (G (seq 0 (length t)) (seq_NoDup _ _)).
      rewrite !in_seq in G. specialize (G ltac:(lia) ltac:(lia)). lia.
  - intros v Hk. destruct (Hkc _ _ Hk) as (n & Hv & Hge).
    unfold count_children in Hr0.
    pose proof (lsum_in (fun n => if is_leaf n then 0 else
      Nat.b2n (oeqb (c0 n) (Some (length t - 1))) + Nat.b2n (oeqb (c1 n) (Some (length t - 1)))) (nth_error_In _ _ Hv)) as Hle.
    cbv beta in Hle. lia.
Qed.

(** With matching parent links and no cycle, acceptance is well-formedness. *)
Lemma accepted_wfl t : accepted t -> (forall v c, kid t v c -> parent t c v) ->
  (exists h, ranked t h) -> wfl t.
Proof.
  intros A Hkp Hr. constructor; auto; try apply A.
  - intros v c. split; auto. intros (n & Hn & Hp).
    assert (Hc : c < length t - 1).
    { pose proof (nth_error_lt Hn). destruct (Nat.eq_dec c (length t - 1)) as [->|]; [|lia].
      rewrite (proj2 (ac_root A Hn) eq_refl) in Hp. discriminate. }
    destruct (ac_one A Hc) as (w & Hw & _). assert (Hw' := Hkp _ _ Hw).
    assert (w = v); [|subst; auto]. destruct Hw' as (m & Hm & Hq). congruence.
  - intros v Hv. destruct (nth_error t v) as [n|] eqn:Hn; [|apply nth_error_None in Hn; lia].
    rewrite <- (ac_root A Hn). split.
    + intros Hno. destruct (par n) as [p|] eqn:E; auto. exfalso. apply (Hno p). exists n; auto.
    + intros E p (m & Hm & Hp). congruence.
Qed.

Lemma make_valid t t' : tree_make t = Ok t' -> t' = t /\ accepted t.
Proof.
  unfold tree_make. destruct (Nat.eqb_spec (length t) 0) as [E|E]; [discriminate|].
  destruct (tree_is_valid t) eqn:V; [|discriminate]. intros H; inversion H; subst. split; auto.
  apply valid_accepted; auto. lia.
Qed.

Lemma make_complete t : well_formed t -> tree_make t = Ok t.
Proof.
  intros W. apply wf_iff in W. unfold tree_make.
  pose proof (wl_len W). rewrite (proj2 (Nat.eqb_neq _ _)) by lia. rewrite (wfl_valid W). auto.
Qed.
