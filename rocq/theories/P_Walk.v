(** Proofs about walks with callbacks that act. *)
From Coq Require Import List Arith Lia Permutation Bool.
Import ListNotations.
From Verif Require Import M_Base M_Tree S_Tree P_Base P_Tree P_TreeProps P_TreeMain P_Shape P_TreeValid M_Walk S_Walk.
Set Implicit Arguments.
Unset Strict Implicit.

Section Calls.
Variable A : Type.
Variable tree_in : A -> tree.
Variable cb : A -> nat -> A * bool.

Fixpoint run (ps : list nat) (a : A) : A * bool :=
  match ps with
  | [] => (a, false)
  | p :: ps' => let '(a1, r) := cb a p in if r then (a1, true) else run ps' a1
  end.
Lemma run_app ps qs a : run (ps ++ qs) a = let '(a1, r) := run ps a in if r then (a1, true) else run qs a1.
Proof.
  revert a. induction ps as [|p ps IH]; intros a; cbn [app run]; auto. destruct (cb a p) as (a1, r). destruct r; auto.
Qed.

(** ** The tree stays *)
Hypothesis K : leaves_tree tree_in cb.
Lemma run_tree ps a : tree_in (fst (run ps a)) = tree_in a.
Proof.
  revert a. induction ps as [|p ps IH]; intros a; cbn [run]; auto. pose proof (K a p) as H. destruct (cb a p) as (a1, r). cbn [fst] in H.
  destruct r; auto. rewrite IH. auto.
Qed.
Lemma walk_bt t T : forall q f stack vis a,
  tree_in a = t -> unfolds t q T -> NoDup (positions T) -> length vis = length t ->
  (forall p, In p (positions T) -> nth_error vis p = Some false) ->
  exists vis', length vis' = length t /\
    (forall p, ~ In p (positions T) -> nth_error vis' p = nth_error vis p) /\
    walk_loop tree_in cb (tcost T + f) (top T :: stack) vis a =
    let '(a', r) := run (postorder T) a in if r then Ok (a', true) else walk_loop tree_in cb f stack vis' a'.
Proof.
  induction T as [x|x l IHl r IHr]; intros q f stack vis a Ht HU Hnd Hlen Hv.
  - simpl in HU. exists vis. repeat split; auto. cbn [tcost top plus walk_loop postorder run].
    rewrite Ht, (get_some HU). cbn [bind]. rewrite (get_some (Hv x (or_introl eq_refl))). cbn [bind]. unfold is_leaf. cbn [c0 orb].
    destruct (cb a x) as (a1, b). destruct b; auto.
  - destruct HU as (Ha & Ul & Ur). simpl in Hnd. inversion Hnd as [|? ? Hni Hnd']; subst.
    apply nodup_app in Hnd'. destruct Hnd' as (N1 & N2 & Ndj). rewrite in_app_iff in Hni.
    pose proof (nth_error_lt Ha) as La.
    cbn [tcost top postorder].
    replace (S (S (tcost l + tcost r)) + f) with (S (tcost l + (tcost r + S f))) by lia.
    cbn [walk_loop]. rewrite (get_some Ha). cbn [bind].
    rewrite (get_some (Hv x (or_introl eq_refl))). cbn [bind].
    unfold is_leaf. cbn [c0 c1 orb]. rewrite set_ok by (rewrite Hlen; auto). cbn [bind].
    set (vis1 := upd vis x true).
    assert (L1 : length vis1 = length (tree_in a)) by (unfold vis1; rewrite upd_length; auto).
    destruct (IHl (Some x) (tcost r + S f) (top r :: x :: stack) vis1 a eq_refl Ul N1 L1) as (vis2 & L2 & F2 & E2).
    { intros p Hp. unfold vis1. rewrite upd_neq by (intros ->; tauto). apply Hv. simpl. rewrite in_app_iff. auto. }
    rewrite E2, run_app. pose proof (run_tree (postorder l) a) as T1. destruct (run (postorder l) a) as (a1, b1). cbn [fst] in T1.
    destruct (IHr (Some x) (S f) (x :: stack) vis2 a1 T1 Ur N2 L2) as (vis3 & L3 & F3 & E3).
    { intros p Hp. rewrite F2 by (intros ?; eauto). unfold vis1. rewrite upd_neq by (intros ->; tauto). apply Hv. simpl. rewrite in_app_iff. auto. }
    assert (Va : nth_error vis3 x = Some true). { rewrite F3 by tauto. rewrite F2 by tauto. apply upd_eq. rewrite Hlen; auto. }
    exists vis3. split; auto. split.
    + intros p Hp. simpl in Hp. rewrite in_app_iff in Hp. rewrite F3 by tauto. rewrite F2 by tauto. apply upd_neq. tauto.
    + destruct b1; auto. rewrite E3, run_app. pose proof (run_tree (postorder r) a1) as T2. destruct (run (postorder r) a1) as (a2, b2). cbn [fst] in T2.
      destruct b2; auto. cbn [walk_loop run]. rewrite T2, T1, (get_some Ha). cbn [bind]. rewrite (get_some Va). cbn [bind orb].
      destruct (cb a2 x) as (a3, b3). destruct b3; auto.
Qed.
Lemma walk_run T a : tree_of (tree_in a) T -> walk tree_in cb a = Ok (run (postorder T) a).
Proof.
  intros HT. destruct (tree_of_in HT) as (Hnd & Hin). destruct HT as (HU & Hp & Htop & _). unfold walk.
  assert (Hs : bsize T = length (tree_in a)) by (rewrite <- bsize_positions, (Permutation_length Hp), seq_length; auto).
  pose proof (tcost_le T) as Hc. rewrite Hs in Hc. set (n := length (tree_in a)) in *.
  replace (3 * n + 1) with (tcost T + (3 * n + 1 - tcost T)) by lia. rewrite <- Htop.
  destruct (@walk_bt (tree_in a) T None (3 * n + 1 - tcost T) [] (repeat false n) a) as (vis' & _ & _ & E); auto.
  - apply repeat_length.
  - intros p Hi. apply nth_error_repeat. apply Hin; auto.
  - rewrite E. destruct (run (postorder T) a) as (a', r). destruct r; auto. destruct (3 * n + 1 - tcost T); reflexivity.
Qed.
End Calls.

(** ** The progress *)
Definition counted (A : Type) (cb : A -> nat -> A * bool) : A * nat -> nat -> A * nat * bool :=
  fun s pos => let '(a', raised) := cb (fst s) pos in (a', S (snd s), raised).
Lemma run_counted (A : Type) (cb : A -> nat -> A * bool) ps : forall a k, exists j, calls cb ps a j (fst (run cb ps a)) (snd (run cb ps a)) /\
  run (counted cb) ps (a, k) = (fst (run cb ps a), k + j, snd (run cb ps a)).
Proof.
  induction ps as [|p ps IH]; intros a k; cbn [run].
  - exists 0. split; [constructor|]. cbn. rewrite Nat.add_0_r. auto.
  - unfold counted at 1. cbn [fst snd]. destruct (cb a p) as (a1, r) eqn:E. destruct r.
    + exists 1. split; [constructor; auto|]. cbn. rewrite Nat.add_1_r. auto.
    + destruct (IH a1 (S k)) as (j & Hj & E'). exists (S j). split; [econstructor; eauto|]. rewrite E'. do 2 f_equal. lia.
Qed.
Lemma calls_all (A : Type) (cb : A -> nat -> A * bool) ps a k a' : calls cb ps a k a' false -> k = length ps.
Proof.
  remember false as r. intros H. induction H; auto; [discriminate|]. cbn. f_equal. auto.
Qed.
Lemma traverse_tree_ok (A : Type) (tree_in : A -> tree) cb a : leaves_tree tree_in cb -> well_formed (tree_in a) ->
  exists order k a' raised, children_first (tree_in a) order /\ traverse_tree tree_in cb a = Ok (a', k, raised) /\
    calls cb order a k a' raised /\ (raised = false -> k = length (tree_in a)).
Proof.
  intros K (T & HT). destruct (run_counted cb (postorder T) a 0) as (j & Hj & E).
  destruct (tree_of_in HT) as (Hnd & Hin). pose proof HT as (HU & Hp & Htop & _).
  assert (P : Permutation (postorder T) (seq 0 (length (tree_in a)))) by (eapply Permutation_trans; [apply postorder_perm|auto]).
  exists (postorder T), j, (fst (run cb (postorder T) a)), (snd (run cb (postorder T) a)). split; [|split; [|split; auto]].
  - split; [|split].
    + intros v. split; intros H.
      * apply (Permutation_in _ P) in H. apply in_seq in H. lia.
      * apply (Permutation_in _ (Permutation_sym P)). apply in_seq. lia.
    + apply (Permutation_NoDup (Permutation_sym P)). apply seq_NoDup.
    + intros k1 v k2 n c E1 Hn Hk. eapply postorder_kids; eauto. exists n; auto.
  - unfold traverse_tree. change (fun s pos => let '(a', raised) := cb (fst s) pos in (a', S (snd s), raised)) with (counted cb).
    rewrite (@walk_run (A * nat) (fun s => tree_in (fst s)) (counted cb)) with (T := T); auto.
    + rewrite E. cbn [plus]. auto.
    + intros s p. unfold counted. pose proof (K (fst s) p) as H. destruct (cb (fst s) p). auto.
  - intros Hr. rewrite Hr in Hj. rewrite (calls_all Hj), (Permutation_length P), seq_length. auto.
Qed.

(** ** The tree changes *)
Definition open_ (L : nat) (vis : list bool) : nat := length (filter negb (skipn L vis)).
Lemma count_upd l : forall i, nth_error l i = Some false -> S (length (filter negb (upd l i true))) = length (filter negb l).
Proof.
  induction l as [|b l IH]; intros [|i] H; simpl in H; try discriminate.
  - injection H as ->. reflexivity.
  - cbn [upd filter]. destruct b; cbn [negb]; [apply IH; auto|]. cbn [length]. f_equal. apply IH; auto.
Qed.
Lemma skipn_upd (l : list bool) : forall L i x, L <= i -> skipn L (upd l i x) = upd (skipn L l) (i - L) x.
Proof.
  induction l as [|b l IH]; intros [|L] [|i] x H; try lia; try reflexivity; cbn [upd skipn Nat.sub]; auto; apply IH; lia.
Qed.
Lemma nth_skipn (l : list bool) : forall L i, L <= i -> nth_error (skipn L l) (i - L) = nth_error l i.
Proof.
  induction l as [|b l IH]; intros [|L] [|i] H; try lia; try reflexivity; cbn [skipn Nat.sub nth_error]; [destruct (i - L); reflexivity|apply IH; lia].
Qed.
Lemma open_upd L vis i : L <= i -> nth_error vis i = Some false -> S (open_ L (upd vis i true)) = open_ L vis.
Proof. intros H E. unfold open_. rewrite skipn_upd by auto. apply count_upd. rewrite nth_skipn; auto. Qed.

Section Changes.
Variable A : Type.
Variable tree_in : A -> tree.
Variable cb : A -> nat -> A * bool.
Hypothesis K : leaves_a_tree tree_in cb.
Variable n : nat.
Lemma walk_counted f : forall stack vis a k, well_formed (tree_in a) -> length (tree_in a) = n -> length vis = n -> (forall v, In v stack -> v < n) ->
  length stack + 3 * open_ ((n + 1) / 2) vis <= f ->
  exists a' j r, walk_loop (fun s => tree_in (fst s)) (counted cb) f stack vis (a, k) = Ok (a', j, r) /\
    j <= k + length stack + 2 * open_ ((n + 1) / 2) vis /\ well_formed (tree_in a') /\ length (tree_in a') = n.
Proof.
  induction f as [|f IH]; intros stack vis a k W Ln Lv Hs Hf; (destruct stack as [|v stack]; [exists a, k, false; cbn; split; auto; split; [lia|auto]|]).
  { cbn in Hf. lia. }
  cbn [walk_loop fst]. assert (Hv : v < n) by (apply Hs; left; auto).
  destruct (nth_error (tree_in a) v) as [nd|] eqn:En; [|apply nth_error_None in En; lia]. rewrite (get_some En). cbn [bind].
  destruct (nth_error vis v) as [b|] eqn:Eb; [|apply nth_error_None in Eb; lia]. rewrite (get_some Eb). cbn [bind].
  destruct (b || is_leaf nd) eqn:Eo.
  - unfold counted at 1. cbn [fst snd]. pose proof (K v W) as (W1 & L1). destruct (cb a v) as (a1, r). cbn [fst] in W1, L1. destruct r.
    + exists a1, (S k), true. split; auto. cbn [length]. split; [lia|]. split; auto. congruence.
    + destruct (IH stack vis a1 (S k)) as (a' & j & r & E & Hj & W' & L'); auto; [congruence|intros w Hw; apply Hs; right; auto|cbn [length] in Hf; lia|].
      exists a', j, r. split; auto. cbn [length]. split; [lia|auto].
  - apply orb_false_iff in Eo. destruct Eo as (-> & Eo). apply wf_iff in W. assert (W' := W).
    destruct (wl_two W En) as [(E0 & _)|(x & y & E0 & E1 & _)]; [unfold is_leaf in Eo; rewrite E0 in Eo; discriminate|]. rewrite E0, E1.
    rewrite set_ok by lia. cbn [bind].
    assert (HL : (n + 1) / 2 <= v).
    { destruct (le_lt_dec ((n + 1) / 2) v) as [H|H]; auto. exfalso. rewrite <- Ln in H. apply (wl_leaf W En) in H. congruence. }
    assert (Hk : forall c, c0 nd = Some c \/ c1 nd = Some c -> c < n).
    { intros c Hc. assert (Kd : kid (tree_in a) v c) by (exists nd; auto). apply (wl_kp W) in Kd. destruct Kd as (m & Em & _). rewrite <- Ln. apply nth_error_Some. congruence. }
    pose proof (open_upd HL Eb) as Ho.
    destruct (IH (x :: y :: v :: stack) (upd vis v true) a k) as (a' & j & r & E & Hj & W2 & L2).
    + apply wf_iff; auto.
    + auto.
    + rewrite upd_length; auto.
    + intros w [<- | [<- | Hw]]; auto.
    + cbn [length] in *. lia.
    + exists a', j, r. split; auto. cbn [length] in *. split; [lia|auto].
Qed.
End Changes.
Lemma open_repeat L n : open_ L (repeat false n) = n - L.
Proof.
  unfold open_. revert n. induction L as [|L IH]; intros n; cbn [skipn].
  - rewrite Nat.sub_0_r. induction n; cbn; auto.
  - destruct n; cbn [repeat]; auto. rewrite IH. lia.
Qed.
Lemma traverse_tree_ends (A : Type) (tree_in : A -> tree) cb a : leaves_a_tree tree_in cb -> well_formed (tree_in a) ->
  exists a' k raised, traverse_tree tree_in cb a = Ok (a', k, raised) /\ k <= length (tree_in a) /\ well_formed (tree_in a').
Proof.
  intros K W. pose proof W as (T & HT). destruct (tree_of_size HT) as (_ & Hl & H0). unfold n_leaves in *.
  set (n := length (tree_in a)) in *.
  destruct (@walk_counted A tree_in cb K n (3 * n + 1) [n - 1] (repeat false n) a 0) as (a' & j & r & E & Hj & W' & _); auto.
  - apply repeat_length.
  - intros v [<- | []]. lia.
  - rewrite open_repeat. cbn [length]. lia.
  - rewrite open_repeat in Hj. cbn [length] in Hj. exists a', j, r. split; [exact E|]. split; [lia|auto].
Qed.
Lemma shallow_dec d T : {shallow d T} + {~ shallow d T}.
Proof.
  unfold shallow. destruct (in_dec Nat.eq_dec d (positions T)) as [H|H]; [|left; auto].
  destruct (Nat.eq_dec d (top T)) as [E|E]; [left; auto|]. destruct T as [p|p l r].
  - right. intros [F|[F|(p' & l' & r' & F & _)]]; auto. discriminate.
  - destruct (Nat.eq_dec d (top l)) as [E1|E1]; [left; right; right; exists p, l, r; auto|].
    destruct (Nat.eq_dec d (top r)) as [E2|E2]; [left; right; right; exists p, l, r; auto|].
    right. intros [F|[F|(p' & l' & r' & F & [G|G])]]; auto; injection F as -> -> ->; auto.
Qed.
