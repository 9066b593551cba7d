(** Rebuilding a Python contraction tree from its nodes. *)
From Coq Require Import Permutation.
From Verif Require Import P_Base P_Opt P_PyMain.
From Verif Require Import M_Base M_Bitset M_Tree M_CTree M_Cost M_InfMem M_FinWidth M_Path M_PyTree M_PyNodes S_Tree S_Opt S_Path S_PyTree.
From Verif Require Import P_Bitset P_TreeValid P_Path P_Split P_PyBuild P_PyPath P_ContractMain P_DecomposeNet P_InfMem P_InfMemFinal P_TreeMain P_Tree P_Shape P_TreeProps P_Shape M_Path M_PyTree.
Set Implicit Arguments.
Unset Strict Implicit.

(** [c] is a tree over the indices of [t], with the dimensions of [t]; every index
    occurs. *)
Record over (t : pytree) (c : ctree) : Prop := {
  ov_nodup : NoDup (inds_order t);
  ov_some  : nodes c <> [];
  ov_valid : ctree_is_valid c false = true;
  ov_len   : forall b, In b (inds c) -> length b = length (inds_order t);
  ov_all   : forall i, i < length (inds_order t) -> exists b, In b (inds c) /\ btest b i = true;
  ov_dims  : exists ds, length ds = length (inds_order t) /\ dims (core t) = collapse_dims (DVec ds) /\ dims c = dims (core t)
}.

Lemma expand_dims ds n : length ds = n ->
  match collapse_dims (DVec ds) with DInt k => repeat k n | DVec l => l end = ds.
Proof.
  intros <-. destruct ds as [|x l]; [reflexivity|]. cbn [collapse_dims]. destruct (forallb (fun y => (y =? x)%N) (x :: l)) eqn:E; [|reflexivity].
  rewrite forallb_forall in E. assert (H : forall y, In y (x :: l) -> y = x) by (intros y Hy; apply N.eqb_eq; auto). clear E.
  remember (x :: l) as k eqn:Ek. clear Ek. induction k as [|y k IH]; [reflexivity|]. simpl. f_equal; [symmetry; apply H; simpl; auto|]. apply IH. intros z Hz. apply H. simpl. auto.
Qed.

Lemma btest_eq a b : length a = length b -> (forall i, btest a i = true <-> btest b i = true) -> a = b.
Proof.
  intros L H. apply nth_ext with (d := false) (d' := false); auto. intros i _. specialize (H i). unfold btest in H.
  destruct (nth i a false), (nth i b false); auto; [symmetry; apply H; auto|apply H; auto].
Qed.

Lemma dict_combine_all (V : Type) o : forall (k : list V), NoDup o -> length k = length o -> Forall2 (fun x v => dict_get (combine o k) x = Ok v) o k.
Proof.
  induction o as [|x o IH]; intros k N L; destruct k as [|v k]; try discriminate; [constructor|]. inversion N as [|? ? N1 N2]; subst.
  constructor; [simpl; rewrite Nat.eqb_refl; auto|]. simpl in L. specialize (IH k N2 ltac:(lia)).
  assert (X : forall y, In y o -> (y =? x) = false) by (intros y Hy; apply Nat.eqb_neq; intros ->; auto). clear N N1 N2 L.
  change (combine (x :: o) (v :: k)) with ((x, v) :: combine o k). revert X IH. generalize (combine o k) as cc. intros cc X F. induction F; constructor.
  - simpl. rewrite X by (simpl; auto). auto.
  - apply IHF. intros z Hz. apply X. simpl. auto.
Qed.

Section Rebuild.
Variables (t : pytree) (c : ctree) (ord : list nat -> list nat).
Hypothesis O : over t c.
Hypothesis Hord : forall l, Permutation (ord l) l.
Let order := inds_order t.
Definition names_at (b : bitset) : list nat := map (fun i => nth i order 0) (bpositions b).

Lemma pos_lt b i : In b (inds c) -> btest b i = true -> i < length order.
Proof.
  intros Hb H. unfold order. rewrite <- (ov_len O Hb). destruct (Nat.lt_ge_cases i (length b)) as [L|L]; auto.
  unfold btest in H. rewrite nth_overflow in H by lia. discriminate.
Qed.
Lemma names_all : mapM (names_of order) (inds c) = Ok (map names_at (inds c)).
Proof.
  apply mapM_ok. intros b Hb. unfold names_of, names_at. apply mapM_ok. intros i Hi. apply bpositions_in in Hi.
  apply get_some. apply nth_error_nth'. eapply pos_lt; eauto.
Qed.
Lemma names_in b x : In b (inds c) -> In x (ord (names_at b)) <-> exists i, nth_error order i = Some x /\ btest b i = true.
Proof.
  intros Hb. assert (E : In x (ord (names_at b)) <-> In x (names_at b)).
  { split; apply Permutation_in; auto. apply Permutation_sym. auto. }
  rewrite E. unfold names_at. rewrite in_map_iff. split.
  - intros (i & <- & Hi). apply bpositions_in in Hi. exists i. split; auto. apply nth_error_nth'. eapply pos_lt; eauto.
  - intros (i & Ei & Hi). exists i. split; [apply nth_error_nth; auto|apply bpositions_in; auto].
Qed.
Lemma names_order x : In x order <-> In x (concat (map ord (map names_at (inds c)))).
Proof.
  rewrite in_concat. split.
  - intros H. destruct (In_nth_error _ _ H) as (i & Ei). destruct (ov_all O (i := i)) as (b & Hb & Hi); [eapply nth_error_lt; eauto|].
    exists (ord (names_at b)). split; [rewrite map_map; apply in_map_iff; exists b; auto|]. apply names_in; eauto.
  - intros (l & Hl & Hx). rewrite map_map in Hl. apply in_map_iff in Hl. destruct Hl as (b & <- & Hb). apply names_in in Hx; auto.
    destruct Hx as (i & Ei & _). eapply nth_error_In; eauto.
Qed.

Lemma rebuild_ok : pytree_of_nodes (nodes c) (map ord (map names_at (inds c))) (py_dims t) (cache_of t)
  = Ok (mkPT c (n_tensors t) (tensors_pos t) (inds_order t)).
Proof.
  pose proof (ov_nodup O) as HN. fold order in HN. destruct (ov_dims O) as (ds & Lds & Ed & Edc). fold order in Lds.
  unfold pytree_of_nodes, cache_of. fold order.
  assert (SS : same_set order (concat (map ord (map names_at (inds c)))) = true).
  { unfold same_set. rewrite andb_true_iff, !forallb_forall. split; intros x Hx; apply memb_In; apply names_order; auto. }
  rewrite SS. cbn [negb].
  rewrite (@mapM_ok _ _ (rank_all order) (map (rf order))).
  2:{ intros xs Hxs. apply rank_all_ok; auto. intros x Hx. apply names_order. apply in_concat. eauto. }
  cbn [bind].
  assert (ED : dims_of (PyDict (py_dims t)) order = Ok ds).
  { apply dims_of_val. unfold py_dims. rewrite Ed. fold order. rewrite expand_dims by auto.
    apply dict_combine_all; auto. }
  rewrite ED. cbn [bind]. unfold ctree_make_pos, tree_make.
  assert (V := ov_valid O). assert (Vt : tree_is_valid (nodes c) = true).
  { unfold ctree_is_valid in V. rewrite !andb_true_iff in V. tauto. }
  rewrite (proj2 (Nat.eqb_neq _ _)) by (intros E; apply (ov_some O); destruct (nodes c); auto; discriminate). rewrite Vt. cbn [bind].
  rewrite max_pos_eq; auto; [|intros x; apply names_order].
  destruct (@build_inds_ok (map (map (rf order)) (map ord (map names_at (inds c)))) (length order)) as (bs & Eb & Lb & Hb).
  { intros l Hl i Hi. rewrite <- (@max_pos_eq order HN (map ord (map names_at (inds c)))); [|intros x; apply names_order]. eapply max_pos_ge; eauto. }
  rewrite Eb. cbn [bind]. assert (E : bs = inds c).
  { rewrite !map_length in Lb. apply nth_ext with (d := []) (d' := []); auto. intros v Hv.
    assert (Hv' : v < length (inds c)) by lia. pose proof (nth_error_nth' (inds c) [] Hv') as Ev.
    assert (Ib : In (nth v (inds c) []) (inds c)) by (apply nth_In; auto).
    assert (El : nth_error (map (map (rf order)) (map ord (map names_at (inds c)))) v = Some (map (rf order) (ord (names_at (nth v (inds c) []))))).
    { rewrite !nth_error_map, Ev. reflexivity. }
    destruct (Hb v _ El) as (b & E1 & L1 & H1). rewrite (nth_error_nth _ _ _ E1). apply btest_eq; [rewrite L1; symmetry; apply (ov_len O); auto|].
    intros i. rewrite H1, rf_in; auto.
    - split.
      + intros (x & Ei & Hx). apply names_in in Hx; auto. destruct Hx as (j & Ej & Hj). assert (i = j); [|subst; auto].
        rewrite NoDup_nth_error in HN. apply HN; [eapply nth_error_lt; eauto|congruence].
      + intros Hi. exists (nth i order 0). assert (L : i < length order) by (eapply pos_lt; eauto). split; [apply nth_error_nth'; auto|].
        apply names_in; auto. exists i. split; auto. apply nth_error_nth'. auto.
    - intros x Hx. apply names_order. apply in_concat. exists (ord (names_at (nth v (inds c) []))). split; auto. apply in_map. apply in_map. auto. }
  subst bs. rewrite <- Ed, <- Edc. destruct c as [cn ci cd]; cbn [nodes inds dims] in *. rewrite V. reflexivity.
Qed.
End Rebuild.

Lemma get_ctree_ok t c : over t c -> get_ctree t c = Ok (mkPT c (n_tensors t) (tensors_pos t) (inds_order t)).
Proof.
  intros O. unfold get_ctree. rewrite (names_all O). cbn [bind].
  rewrite <- (map_id (map (names_at t) (inds c))). apply (@rebuild_ok t c (fun l => l) O). auto.
Qed.
Lemma pickle_ok t ord : over t (core t) -> (forall l, Permutation (ord l) l) ->
  exists x, tree_reduce ord t = Ok x /\ tree_build x = Ok t.
Proof.
  intros O Ho. unfold tree_reduce. rewrite (names_all O). cbn [bind]. eexists. split; [reflexivity|]. unfold tree_build.
  rewrite (@rebuild_ok t (core t) ord O Ho). destruct t. reflexivity.
Qed.

(** ** Which trees are over their indices *)
Lemma leaf_below c n T : tree_of (nodes c) T -> P_Opt.core (nodes c) (inds c) n -> forall i q S, unfolds (nodes c) q S ->
  btest (ix (inds c) (top S)) i = true -> exists l, In l (leaves S) /\ btest (ix (inds c) l) i = true.
Proof.
  intros HT HC i q S. revert q. induction S as [p|p l IHl r IHr]; intros q HU H; simpl in *.
  - exists p. auto.
  - destruct HU as (HN & Ul & Ur). assert (K : kids2 (nodes c) p (top l) (top r)) by (exists q; auto).
    destruct (co_loc HC K i) as (_ & G). specialize (G H). apply orb_true_iff in G. destruct G as [G|G].
    + destruct (IHl _ Ul G) as (k & A & B). exists k. split; auto. apply in_or_app. auto.
    + destruct (IHr _ Ur G) as (k & A & B). exists k. split; auto. apply in_or_app. auto.
Qed.

Lemma over_make p ts d output chk t : pytree_make p ts d output chk = Ok t -> over t (core t).
Proof.
  unfold pytree_make. destruct (length p =? 0); [discriminate|]. cbn zeta.
  destruct (contraction_from p (length ts) (seq 0 (length ts))) as [c|]; [|discriminate]. cbn [bind].
  destruct (get_all ts (used_tensors (length ts) c)) as [uts|]; [|discriminate]. cbn [bind].
  destruct (outputs (concat uts) output) as [out|]; [|discriminate]. cbn [bind].
  destruct (build_tensors _ _ _ _) as [ts1|]; [|discriminate]. cbn [bind].
  destruct (link_all _ _ _) as [zn|]; [|discriminate]. cbn [bind].
  destruct (get_all ts1 _) as [ts2|]; [|discriminate]. cbn [bind].
  set (order := unique (concat ts2)).
  assert (HN : NoDup order) by (apply unique_nodup).
  assert (HO : forall x, In x order <-> In x (concat ts2)) by (intros x; apply unique_in).
  destruct (dims_of d order) as [ds|] eqn:Ed; [|discriminate]. cbn [bind].
  destruct (make_nodes zn) as [ns|]; [|discriminate]. cbn [bind].
  rewrite (@mapM_ok _ _ (rank_all order) (map (rf order))).
  2:{ intros xs Hxs. apply rank_all_ok; auto. intros x Hx. apply HO. apply in_concat. eauto. }
  cbn [bind]. destruct (ctree_make_pos _ _ _ _) as [ct|] eqn:Ec; [|discriminate]. cbn [bind]. intros H. inversion H; subst t. clear H.
  unfold ctree_make_pos in Ec. destruct (tree_make ns) as [tr|] eqn:Et; [|discriminate]. cbn [bind] in Ec.
  rewrite max_pos_eq in Ec; auto.
  destruct (@build_inds_ok (map (map (rf order)) ts2) (length order)) as (bs & Eb & Lb & Hb).
  { intros l Hl i Hi. rewrite <- (@max_pos_eq order HN ts2); auto. eapply max_pos_ge; eauto. }
  rewrite Eb in Ec. cbn [bind] in Ec. destruct (ctree_is_valid (mkCT tr bs (collapse_dims (DVec ds))) chk) eqn:V; [|discriminate]. inversion Ec; subst ct. clear Ec.
  constructor; cbn [core inds_order nodes inds dims].
  - auto.
  - unfold tree_make in Et. destruct ns; [discriminate|]. simpl in Et. destruct (tree_is_valid _); inversion Et. discriminate.
  - eapply valid_weaken; eauto.
  - intros b I. destruct (In_nth_error _ _ I) as (v & Ev). destruct (nth_error (map (map (rf order)) ts2) v) as [l|] eqn:El.
    + destruct (Hb v l El) as (b' & E1 & L1 & _). congruence.
    + apply nth_error_None in El. rewrite <- Lb in El. apply nth_error_lt in Ev. lia.
  - intros i Hi. pose proof (nth_error_nth' order 0 Hi) as Ei. assert (I : In (nth i order 0) (concat ts2)) by (apply HO, nth_In; auto).
    apply in_concat in I. destruct I as (xs & Ixs & Ix). destruct (In_nth_error _ _ Ixs) as (v & Ev).
    destruct (Hb v (map (rf order) xs)) as (b & E1 & _ & H1); [rewrite nth_error_map, Ev; auto|]. exists b. split; [eapply nth_error_In; eauto|].
    apply H1. apply rf_in; eauto. intros x Hx. apply HO. apply in_concat. eauto.
  - exists ds. split; [|auto]. apply dims_of_val in Ed. symmetry. eapply forall2_len; eauto.
Qed.

Lemma over_moves t c : over t (core t) -> well_formed (nodes (core t)) -> same_problem (core t) c -> ctree_is_valid c false = true -> over t c.
Proof.
  intros O W (_ & Wc & Ed & Ln & Li & Hl & _) V. pose proof W as (T & HT). apply wf_iff in W. destruct (valid_core W (ov_valid O)) as (HC & _).
  pose proof Wc as Wc'. apply wf_iff in Wc'. destruct (valid_core Wc' V) as (HC' & _).
  pose proof (wl_len W) as L0.
  assert (H0 : 0 < (length (nodes (core t)) + 1) / 2). { apply Nat.div_str_pos. lia. }
  assert (E0 : n_inds c = length (inds_order t)).
  { unfold n_inds. specialize (Hl 0 H0). destruct (nth_error (inds (core t)) 0) as [b|] eqn:Eb.
    - rewrite (nth_error_nth _ _ _ Hl). apply (ov_len O). eapply nth_error_In; eauto.
    - apply nth_error_None in Eb. rewrite (co_len HC) in Eb. lia. }
  constructor.
  - apply O.
  - intros E. rewrite E in Ln. simpl in Ln. lia.
  - auto.
  - intros b I. destruct (In_nth _ _ [] I) as (v & Hv & <-). rewrite <- E0. apply (co_sz HC'). rewrite <- (co_len HC'). auto.
  - intros i Hi. destruct (ov_all O Hi) as (b & I & Hb). destruct (In_nth _ _ [] I) as (v & Hv & Ev).
    assert (S : exists S q, top S = v /\ unfolds (nodes (core t)) q S /\ subtree S T).
    { assert (Hv1 : v < length (nodes (core t))) by (rewrite <- (co_len HC); exact Hv). destruct HT as (HU & HP & _). assert (Ip : In v (positions T)).
      { apply (Permutation_in v (Permutation_sym HP)). apply in_seq. lia. }
      clear - HU Ip. revert HU Ip. generalize (@None nat) as q. induction T as [p|p l IHl r IHr]; intros q HU Ip; simpl in *.
      - destruct Ip as [<-|[]]. exists (Lf p), q. split; auto. split; auto. constructor.
      - destruct HU as (HN & Ul & Ur). destruct Ip as [<-|Ip]; [exists (Nd p l r), q; split; [auto|]; split; [simpl; auto|constructor]|].
        apply in_app_or in Ip. destruct Ip as [Ip|Ip]; [destruct (IHl _ Ul Ip) as (S & q' & A & B & D)|destruct (IHr _ Ur Ip) as (S & q' & A & B & D)];
          exists S, q'; split; auto; split; auto; solve [apply sub_left; auto|apply sub_right; auto]. }
    destruct S as (S & q & Et & HU & HS). destruct (@leaf_below (core t) (n_inds (core t)) T HT HC i q S HU) as (l & Il & Hil).
    { rewrite Et. change (btest (nth v (inds (core t)) []) i = true). rewrite <- Ev in Hb. exact Hb. }
    assert (Hll : l < (length (nodes (core t)) + 1) / 2). { apply HT. clear - HS Il. induction HS; auto; simpl; apply in_or_app; auto. }
    specialize (Hl l Hll). exists (ix (inds c) l). split; [|].
    + apply nth_In. rewrite Li, (co_len HC). pose proof (Nat.div_lt (length (nodes (core t)) + 1) 2). lia.
    + unfold ix in *. destruct (nth_error (inds (core t)) l) as [b'|] eqn:E'.
      * rewrite (nth_error_nth _ _ _ Hl). rewrite (nth_error_nth _ _ _ E') in Hil. auto.
      * rewrite (nth_overflow (inds (core t))) in Hil; [destruct i; discriminate|]. apply nth_error_None. auto.
  - destruct (ov_dims O) as (ds & A & B & _). exists ds. auto.
Qed.
