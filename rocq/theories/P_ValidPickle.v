(** Pickling a contraction tree decides whether it is valid. *)
From Coq Require Import Permutation.
From Verif Require Import P_Base P_Opt P_PyMain.
From Verif Require Import M_Base M_Bitset M_Tree M_CTree M_Cost M_InfMem M_FinWidth M_Path M_PyTree M_PyNodes M_PyViews M_ValidTree S_Tree S_Opt S_Path S_PyTree S_ValidTree.
From Verif Require Import P_Bitset P_TreeValid P_Path P_Split P_PyBuild P_PyPath P_ContractMain P_DecomposeNet P_InfMem P_InfMemFinal P_TreeMain P_Tree P_Shape P_TreeProps P_Shape P_PyNodes M_Path M_PyTree.
Set Implicit Arguments.
Unset Strict Implicit.

Record over0 (t : pytree) (c : ctree) : Prop := {
  ov_nodup0 : NoDup (inds_order t);
  ov_some0  : nodes c <> [];
  ov_tree0  : tree_is_valid (nodes c) = true;
  ov_len0   : forall b, In b (inds c) -> length b = length (inds_order t);
  ov_all0   : forall i, i < length (inds_order t) -> exists b, In b (inds c) /\ btest b i = true;
  ov_dims0  : exists ds, length ds = length (inds_order t) /\ dims (core t) = collapse_dims (DVec ds) /\ dims c = dims (core t)
}.

Section Rebuild0.
Variables (t : pytree) (c : ctree) (ord : list nat -> list nat).
Hypothesis O : over0 t c.
Hypothesis Hord : forall l, Permutation (ord l) l.
Let order := inds_order t.
Local Notation names_at := (names_at t).

Lemma pos_lt0 b i : In b (inds c) -> btest b i = true -> i < length order.
Proof.
  intros Hb H. unfold order. rewrite <- (ov_len0 O Hb). destruct (Nat.lt_ge_cases i (length b)) as [L|L]; auto.
  unfold btest in H. rewrite nth_overflow in H by lia. discriminate.
Qed.
Lemma names_all0 : mapM (names_of order) (inds c) = Ok (map names_at (inds c)).
Proof.
  apply mapM_ok. intros b Hb. unfold names_of, names_at. apply mapM_ok. intros i Hi. apply bpositions_in in Hi.
  apply get_some. apply nth_error_nth'. eapply pos_lt0; eauto.
Qed.
Lemma names_in0 b x : In b (inds c) -> In x (ord (names_at b)) <-> exists i, nth_error order i = Some x /\ btest b i = true.
Proof.
  intros Hb. assert (E : In x (ord (names_at b)) <-> In x (names_at b)).
  { split; apply Permutation_in; auto. apply Permutation_sym. auto. }
  rewrite E. unfold names_at. rewrite in_map_iff. split.
  - intros (i & <- & Hi). apply bpositions_in in Hi. exists i. split; auto. apply nth_error_nth'. eapply pos_lt0; eauto.
  - intros (i & Ei & Hi). exists i. split; [apply nth_error_nth; auto|apply bpositions_in; auto].
Qed.
Lemma names_order0 x : In x order <-> In x (concat (map ord (map names_at (inds c)))).
Proof.
  rewrite in_concat. split.
  - intros H. destruct (In_nth_error _ _ H) as (i & Ei). destruct (ov_all0 O (i := i)) as (b & Hb & Hi); [eapply nth_error_lt; eauto|].
    exists (ord (names_at b)). split; [rewrite map_map; apply in_map_iff; exists b; auto|]. apply names_in0; eauto.
  - intros (l & Hl & Hx). rewrite map_map in Hl. apply in_map_iff in Hl. destruct Hl as (b & <- & Hb). apply names_in0 in Hx; auto.
    destruct Hx as (i & Ei & _). eapply nth_error_In; eauto.
Qed.

Lemma rebuild_ok0 : pytree_of_nodes (nodes c) (map ord (map names_at (inds c))) (py_dims t) (cache_of t)
  = if ctree_is_valid c false then Ok (mkPT c (n_tensors t) (tensors_pos t) (inds_order t)) else Err Throw.
Proof.
  pose proof (ov_nodup0 O) as HN. fold order in HN. destruct (ov_dims0 O) as (ds & Lds & Ed & Edc). fold order in Lds.
  unfold pytree_of_nodes, cache_of. fold order.
  assert (SS : same_set order (concat (map ord (map names_at (inds c)))) = true).
  { unfold same_set. rewrite andb_true_iff, !forallb_forall. split; intros x Hx; apply memb_In; apply names_order0; auto. }
  rewrite SS. cbn [negb].
  rewrite (@mapM_ok _ _ (rank_all order) (map (rf order))).
  2:{ intros xs Hxs. apply rank_all_ok; auto. intros x Hx. apply names_order0. apply in_concat. eauto. }
  cbn [bind].
  assert (ED : dims_of (PyDict (py_dims t)) order = Ok ds).
  { apply dims_of_val. unfold py_dims. rewrite Ed. fold order. rewrite expand_dims by auto.
    apply dict_combine_all; auto. }
  rewrite ED. cbn [bind]. unfold ctree_make_pos, tree_make.
  assert (Vt := ov_tree0 O).
  rewrite (proj2 (Nat.eqb_neq _ _)) by (intros E; apply (ov_some0 O); destruct (nodes c); auto; discriminate). rewrite Vt. cbn [bind].
  rewrite max_pos_eq; auto; [|intros x; apply names_order0].
  destruct (@build_inds_ok (map (map (rf order)) (map ord (map names_at (inds c)))) (length order)) as (bs & Eb & Lb & Hb).
  { intros l Hl i Hi. rewrite <- (@max_pos_eq order HN (map ord (map names_at (inds c)))); [|intros x; apply names_order0]. eapply max_pos_ge; eauto. }
  rewrite Eb. cbn [bind]. assert (E : bs = inds c).
  { rewrite !map_length in Lb. apply nth_ext with (d := []) (d' := []); auto. intros v Hv.
    assert (Hv' : v < length (inds c)) by lia. pose proof (nth_error_nth' (inds c) [] Hv') as Ev.
    assert (Ib : In (nth v (inds c) []) (inds c)) by (apply nth_In; auto).
    assert (El : nth_error (map (map (rf order)) (map ord (map names_at (inds c)))) v = Some (map (rf order) (ord (names_at (nth v (inds c) []))))).
    { rewrite !nth_error_map, Ev. reflexivity. }
    destruct (Hb v _ El) as (b & E1 & L1 & H1). rewrite (nth_error_nth _ _ _ E1). apply btest_eq; [rewrite L1; symmetry; apply (ov_len0 O); auto|].
    intros i. rewrite H1, rf_in; auto.
    - split.
      + intros (x & Ei & Hx). apply names_in0 in Hx; auto. destruct Hx as (j & Ej & Hj). assert (i = j); [|subst; auto].
        rewrite NoDup_nth_error in HN. apply HN; [eapply nth_error_lt; eauto|congruence].
      + intros Hi. exists (nth i order 0). assert (L : i < length order) by (eapply pos_lt0; eauto). split; [apply nth_error_nth'; auto|].
        apply names_in0; auto. exists i. split; auto. apply nth_error_nth'. auto.
    - intros x Hx. apply names_order0. apply in_concat. exists (ord (names_at (nth v (inds c) []))). split; auto. apply in_map. apply in_map. auto. }
  subst bs. rewrite <- Ed, <- Edc. destruct c as [cn ci cd]; cbn [nodes inds dims] in *. destruct (ctree_is_valid _ false); reflexivity.
Qed.
End Rebuild0.


Lemma pickle_decides t T ord : object_of t T -> (forall l, Permutation (ord l) l) ->
  exists x, tree_reduce ord t = Ok x /\ (tree_build x = Ok t /\ over t (core t) \/ tree_build x = Err Throw /\ ~ over t (core t)).
Proof.
  intros (HT & HN & HL & HB & ds & Lds & Pds & Ed) Ho. assert (HTV : tree_is_valid (nodes (core t)) = true) by (apply wfl_valid; apply tree_of_wfl with T; auto).
  assert (NE : nodes (core t) <> []). { intros E. destruct HT as (U & _). destruct T; simpl in U; rewrite E in U; [destruct p; discriminate|destruct U as [U _]; destruct p; discriminate]. }
  assert (NA : mapM (names_of (inds_order t)) (inds (core t)) = Ok (map (names_at t) (inds (core t)))).
  { apply mapM_ok. intros b Hb. unfold names_of, names_at. apply mapM_ok. intros i Hi. apply bpositions_in in Hi.
    apply get_some. apply nth_error_nth'. rewrite <- (HB _ Hb). destruct (Nat.lt_ge_cases i (length b)) as [L|L]; auto. unfold btest in Hi. rewrite nth_overflow in Hi by lia. discriminate. }
  unfold tree_reduce. rewrite NA. cbn [bind]. eexists. split; [reflexivity|]. unfold tree_build.
  destruct (same_set (inds_order t) (concat (map ord (map (names_at t) (inds (core t)))))) eqn:SS.
  - assert (O : over0 t (core t)).
    { split; auto; [|exists ds; auto]. intros i Hi. unfold same_set in SS. apply andb_true_iff in SS. destruct SS as [SS _]. rewrite forallb_forall in SS.
      specialize (SS _ (nth_In _ 0 Hi)). apply memb_In in SS. apply in_concat in SS. destruct SS as (l & Hl & Hx). rewrite map_map in Hl. apply in_map_iff in Hl.
      destruct Hl as (b & <- & Hb). apply (Permutation_in _ (Ho _)) in Hx. unfold names_at in Hx. apply in_map_iff in Hx. destruct Hx as (j & Ej & Hj). apply bpositions_in in Hj.
      exists b. split; auto. assert (Lj : j < length (inds_order t)). { rewrite <- (HB _ Hb). destruct (Nat.lt_ge_cases j (length b)) as [L|L]; auto. unfold btest in Hj. rewrite nth_overflow in Hj by lia. discriminate. }
      rewrite NoDup_nth in HN. rewrite <- (HN j i Lj Hi Ej). auto. }
    rewrite (@rebuild_ok0 t (core t) ord O Ho). destruct (ctree_is_valid (core t) false) eqn:V.
    + left. split; [destruct t; reflexivity|]. destruct O. split; auto.
    + right. split; auto. intros O'. rewrite (ov_valid O') in V. discriminate.
  - right. unfold pytree_of_nodes, cache_of. rewrite SS. split; auto. intros O'.
    assert (X := fun x => @names_order t (core t) ord O' Ho x). apply not_true_iff_false in SS. apply SS. unfold same_set.
    rewrite andb_true_iff, !forallb_forall. split; intros x Hx; apply memb_In; apply X; auto.
Qed.
