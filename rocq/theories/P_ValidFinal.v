(** A tree that belongs to a network passes the comparison with its copy. *)
From Coq Require Import QArith ZArith NArith List Permutation Lia Bool.
From Verif Require Import P_Base P_Opt P_PyMain.
From Verif Require Import M_Base M_Bitset M_Tree M_CTree M_Path M_PyTree M_PyNodes M_PyViews M_ValidTree S_Tree S_Opt S_Path S_PyTree S_PyViews S_ValidTree.
From Verif Require Import P_Bitset P_Split P_Path P_PathMain P_Canon P_Shape P_TreeValid P_TreeProps P_TreeMain P_PyRun P_PyPath P_PyFinal P_InfMem P_InfMemFinal P_PyNodes P_PyViews P_ValidCount P_ValidPickle P_ValidTree P_ValidMain.
From Verif Require P_Fuse P_Amplitude P_Kronecker P_AppTree.
From Verif Require Import M_Path M_PyTree.
Import ListNotations.
Set Implicit Arguments. Unset Strict Implicit.
Local Open Scope nat_scope.
Local Notation core := M_PyTree.core.

Section Belongs.
Variables (t : pytree) (T : bt) (ts : list (list nat)) (d : pydims) (out : list nat).
Hypothesis HO : object_of t T.
Hypothesis HB : belongs t T ts d out.
Let c := core t.
Let order := inds_order t.

Lemma rep_bit v i x : v < length (nodes c) -> nth_error order i = Some x -> reported t v x <-> btest (ix (inds c) v) i = true.
Proof.
  destruct HO as (HT & HN & HL & HS & _). intros Hv Ei. unfold reported, py_inds. fold c. assert (Hv' : v < length (inds c)) by (unfold c in *; lia).
  rewrite (get_some (nth_error_nth' (inds c) [] Hv')). cbn [bind]. assert (Hb : In (nth v (inds c) []) (inds c)) by (apply nth_In; auto).
  assert (E : names_of order (nth v (inds c) []) = Ok (names_at t (nth v (inds c) []))).
  { unfold names_of, names_at. apply mapM_ok. intros j Hj. apply bpositions_in in Hj. apply get_some. apply nth_error_nth'. unfold order. rewrite <- (HS _ Hb).
    destruct (Nat.lt_ge_cases j (length (nth v (inds c) []))) as [L|L]; auto. unfold btest in Hj. rewrite nth_overflow in Hj by lia. discriminate. }
  fold order. rewrite E. assert (Li : i < length order) by (eapply nth_error_lt; eauto). unfold names_at. split.
  - intros (xs & Ex & Hx). injection Ex as <-. apply in_map_iff in Hx. destruct Hx as (j & Ej & Hj). apply bpositions_in in Hj.
    assert (Lj : j < length order). { unfold order. rewrite <- (HS _ Hb). destruct (Nat.lt_ge_cases j (length (nth v (inds c) []))) as [L|L]; auto. unfold btest in Hj. rewrite nth_overflow in Hj by lia. discriminate. }
    assert (j = i). { rewrite NoDup_nth in HN. apply (HN j i Lj Li). transitivity x; [exact Ej|symmetry; exact (nth_error_nth _ _ 0 Ei)]. } subst. unfold ix. auto.
  - intros B. eexists. split; [reflexivity|]. apply in_map_iff. exists i. split; [apply nth_error_nth; auto|]. apply bpositions_in. auto.
Qed.

Lemma belongs_over : over t c.
Proof.
  pose proof HO as (HT & HN & HL & HS & ds & Lds & Pds & Ed). destruct HB as (B1 & B2 & B3 & B4 & B5 & B6).
  assert (HP : NoDup (leaves T)) by (apply leaves_nodup; apply (tree_of_in HT)).
  assert (NE : nodes c <> []). { intros E. destruct HT as (U & _). fold c in U. destruct T; simpl in U; rewrite E in U; [destruct p; discriminate|destruct U as [U _]; destruct p; discriminate]. }
  assert (Hix : forall v, v < length (nodes c) -> length (ix (inds c) v) = length order). { intros v Hv. apply HS. apply nth_In. unfold c in *. lia. }
  assert (W := tree_of_wfl HT).
  assert (L1 : forall v a b q, nth_error (nodes c) v = Some (mkNode (Some a) (Some b) q) -> loc (ix (inds c) v) (ix (inds c) a) (ix (inds c) b)).
  { intros v a b q E. pose proof HT as (U & _). destruct (node_inner U (p := v) (a := a) (b := b) (q' := q)) as (l & r & HSub & <- & <-); auto.
    { apply (tree_of_in HT). eapply nth_error_lt; eauto. }
    destruct (@kids2_lt (nodes c) v (top l) (top r) W (ex_intro _ q (or_introl E))) as (Lv & La & Lb). intros i.
    destruct (nth_error order i) as [x|] eqn:Ei.
    2:{ apply nth_error_None in Ei. assert (Z : forall v, v < length (nodes c) -> btest (ix (inds c) v) i = false) by (intros u Hu; unfold btest; apply nth_overflow; rewrite Hix; auto). rewrite !Z by auto. simpl. split; discriminate. }
    assert (Sl : subtree l T) by (eapply subtree_trans; [apply sub_left; apply sub_here|exact HSub]). assert (Sr : subtree r T) by (eapply subtree_trans; [apply sub_right; apply sub_here|exact HSub]).
    assert (Dj : forall u, In u (leaves l) -> In u (leaves r) -> False).
    { destruct (sub_split HSub) as (rest & P). assert (N : NoDup (leaves (Nd v l r) ++ rest)) by (eapply Permutation_NoDup; eauto). apply nodup_app in N. destruct N as (N & _). simpl in N. apply nodup_app in N. destruct N as (_ & _ & N). eauto. }
    assert (Rv := rep_bit Lv Ei). assert (Ra := rep_bit La Ei). assert (Rb := rep_bit Lb Ei). assert (Gv := B6 _ x HSub). assert (Ga := B6 _ x Sl). assert (Gb := B6 _ x Sr). simpl in Gv.
    assert (In1 : forall u, In u (leaves l) -> In u (leaves T)) by (intros u; apply (sub_leaves Sl)). assert (In2 : forall u, In u (leaves r) -> In u (leaves T)) by (intros u; apply (sub_leaves Sr)).
    split.
    - intros X. apply Rv, Gv. destruct (btest (ix (inds c) (top l)) i) eqn:Ba, (btest (ix (inds c) (top r)) i) eqn:Bb; try discriminate.
      + destruct (proj1 Ga (proj2 Ra eq_refl)) as ((u & Hu & Hx) & K). split; [exists u; split; auto; apply in_or_app; auto|].
        destruct K as [(w & H1 & H2 & H3)|K]; [|auto]. left. exists w. split; auto. split; auto. intros H4. apply in_app_or in H4. destruct H4 as [H4|H4]; [auto|].
        assert (F : reported t (top r) x) by (apply Gb; split; [exists w; auto|left; exists u; split; auto; split; auto; intros H5; eauto]). apply Rb in F. congruence.
      + destruct (proj1 Gb (proj2 Rb eq_refl)) as ((u & Hu & Hx) & K). split; [exists u; split; auto; apply in_or_app; auto|].
        destruct K as [(w & H1 & H2 & H3)|K]; [|auto]. left. exists w. split; auto. split; auto. intros H4. apply in_app_or in H4. destruct H4 as [H4|H4]; [|auto].
        assert (F : reported t (top l) x) by (apply Ga; split; [exists w; auto|left; exists u; split; auto; split; auto; intros H5; eauto]). apply Ra in F. congruence.
    - intros X. destruct (proj1 Gv (proj2 Rv X)) as ((u & Hu & Hx) & K). apply in_app_or in Hu. apply orb_true_iff. destruct Hu as [Hu|Hu]; [left; apply Ra, Ga|right; apply Rb, Gb]; (split; [exists u; auto|]);
      (destruct K as [(w & H1 & H2 & H3)|K]; [left; exists w; split; auto; split; auto; intros H4; apply H2; apply in_or_app; auto|auto]). }
  assert (HC : P_Opt.core (nodes c) (inds c) (length order)).
  { split; auto. intros v a b (q & [E|E]); [eauto|apply loc_sym; eauto]. }
  split; auto.
  - apply (core_valid (cs := false) HC); [|discriminate]. unfold dims_ok. fold c in Ed. rewrite Ed. rewrite (core_n_inds HC). unfold collapse_dims. destruct ds as [|k ds].
    + simpl. rewrite andb_true_r. change (inds_order t) with order in Lds. simpl in Lds. rewrite <- Lds. reflexivity.
    + destruct (forallb _ _) eqn:F; [apply negb_true_iff, N.eqb_neq; apply Pds; left; auto|]. apply andb_true_iff. split; [apply Nat.eqb_eq; exact Lds|]. apply forallb_forall. intros y Hy. apply negb_true_iff, N.eqb_neq. auto.
  - intros i Hi. destruct (nth_error order i) as [x|] eqn:Ei; [|apply nth_error_None in Ei; unfold order in Ei; lia].
    assert (Hx : In x (concat ts)) by (apply B2; eapply nth_error_In; eauto). apply in_concat in Hx. destruct Hx as (xs & H1 & H2). apply In_nth with (d := []) in H1. destruct H1 as (v & Lv & Ev).
    assert (Hv : In v (leaves T)). { apply (Permutation_in _ (Permutation_sym (leaves_seq HT))). apply in_seq. rewrite B1, (Permutation_length (leaves_seq HT)), seq_length in Lv. lia. }
    assert (Lv' : v < length (nodes c)) by (apply (tree_of_in HT); apply leaves_in; auto). exists (ix (inds c) v). split; [apply nth_In; unfold c in *; lia|].
    apply (rep_bit Lv' Ei). apply B4; auto. rewrite Ev. auto.
  - exists ds. auto.
Qed.
End Belongs.

Lemma swaps_ok ks : forall t T, tree_of t T -> exists t' T', swaps ks t = Ok t' /\ tree_of t' T'.
Proof.
  induction ks as [|k ks IH]; intros t T HT; simpl; [eauto|]. unfold swap_with_nn. assert (E : (Z.of_nat k <? 0)%Z = false) by (apply Z.ltb_ge; lia). rewrite E, Nat2Z.id.
  destruct (P_Tree.swap_wfl k (tree_of_wfl HT)) as (t' & E' & W & _). rewrite E'. cbn [bind]. destruct (wfl_tree_of W) as (T' & HT'). eauto.
Qed.
Lemma oeqb_eq a b : oeqb a b = true -> a = b.
Proof. destruct a, b; simpl; intros H; try discriminate; auto. apply Nat.eqb_eq in H. subst. auto. Qed.
Lemma node_eqb_eq a b : node_eqb a b = true -> a = b.
Proof. unfold node_eqb. rewrite !andb_true_iff. intros [[H1 H2] H3]. destruct a, b; simpl in *. apply oeqb_eq in H1, H2, H3. subst. auto. Qed.
Lemma all2_eq A (f : A -> A -> bool) : (forall x y, f x y = true -> x = y) -> forall l k, all2 f l k = true -> l = k.
Proof. intros H. induction l as [|x l IH]; intros [|y k] E; simpl in *; try discriminate; auto. apply andb_true_iff in E. destruct E as [E1 E2]. f_equal; auto. Qed.
Lemma same_nodes t ns : pytree_eqb (with_nodes t ns) t = true <-> ns = nodes (core t).
Proof.
  split.
  - unfold pytree_eqb, ctree_eqb. simpl. rewrite !andb_true_iff. intros [[[H _] _] _]. eapply all2_eq; [exact node_eqb_eq|auto].
  - intros ->. replace (with_nodes t (nodes (core t))) with t by (destruct t as [[? ? ?] ? ? ?]; reflexivity). apply pytree_eqb_refl.
Qed.

Theorem valid_tree_accepts t T ts d out h chk ord : object_of t T -> (forall l, Permutation (ord l) l) -> counts ts out h ->
  belongs t T ts d out -> (chk = true -> shares t T) ->
  exists ns, swaps (seq 0 (length (nodes (core t)))) (nodes (core t)) = Ok ns /\
    (ns <> nodes (core t) -> is_valid_contraction_tree ord t (Some ts) (Some d) (Some out) (Some h) chk = Ok true) /\
    (ns = nodes (core t) -> is_valid_contraction_tree ord t (Some ts) (Some d) (Some out) (Some h) chk = Err Crash).
Proof.
  intros HO Ho Hc HB HS. assert (O := belongs_over HO HB). pose proof HO as (HT & _). destruct (swaps_ok (seq 0 (length (nodes (core t)))) HT) as (ns & T' & Es & _). exists ns. split; auto.
  destruct (pickle_decides HO Ho) as (x & Er & [[Eb _]|[_ N]]); [|contradiction].
  destruct (@checks_decide t T ord Ho O HT ts d out h chk Hc) as [C1 C2]. destruct C2 as (b & Eb'); auto. assert (b = true) by (apply C1; auto). subst b.
  unfold is_valid_contraction_tree. rewrite Er. cbn [bind]. rewrite Eb. cbn [bind]. rewrite pytree_eqb_refl. cbn [negb]. rewrite Es. cbn [bind]. split; intros Hns.
  - destruct (pytree_eqb (with_nodes t ns) t) eqn:Q; [apply same_nodes in Q; contradiction|]. rewrite <- Eb'. unfold checks. destruct d; reflexivity.
  - rewrite (proj2 (same_nodes t ns) Hns). auto.
Qed.

(** What is not locally consistent cannot be copied. *)
Theorem valid_tree_raises t T ts d out h chk ord : object_of t T -> (forall l, Permutation (ord l) l) -> ctree_is_valid (core t) false = false ->
  is_valid_contraction_tree ord t ts d out h chk = Err Throw.
Proof.
  intros HO Ho V. destruct (pickle_decides HO Ho) as (x & Er & [[_ O]|[Eb _]]); [rewrite (ov_valid O) in V; discriminate|].
  unfold is_valid_contraction_tree. rewrite Er. cbn [bind]. rewrite Eb. auto.
Qed.

(** The objects *)
Lemma over_object t T : over t (core t) -> tree_of (nodes (core t)) T -> object_of t T.
Proof.
  intros O HT. split; auto. split; [apply (ov_nodup O)|]. assert (HC := proj1 (valid_core (tree_of_wfl HT) (ov_valid O))). assert (HD := proj1 (proj2 (valid_core (tree_of_wfl HT) (ov_valid O)))).
  split; [apply (co_len HC)|]. split; [apply (ov_len O)|]. destruct (ov_dims O) as (ds & L & E & _). exists ds. split; auto. split; auto.
  unfold dims_ok in HD. rewrite E in HD. clear - HD. intros k Hk. destruct ds as [|x l]; [contradiction|]. cbn [collapse_dims] in HD. destruct (forallb (fun y => (y =? x)%N) (x :: l)) eqn:F.
  - rewrite forallb_forall in F. apply F in Hk. apply N.eqb_eq in Hk. subst. apply negb_true_iff, N.eqb_neq in HD. auto.
  - apply andb_true_iff in HD. destruct HD as [_ HD]. rewrite forallb_forall in HD. apply HD in Hk. apply negb_true_iff, N.eqb_neq in Hk. auto.
Qed.
Theorem swap_object t T ks ns : object_of t T -> swaps ks (nodes (core t)) = Ok ns -> exists T', object_of (with_nodes t ns) T'.
Proof.
  intros (HT & HN & HL & HS & HD) E. destruct (swaps_ok ks HT) as (ns' & T' & E' & HT'). rewrite E in E'. injection E' as <-. exists T'. split; [exact HT'|]. split; [exact HN|]. split; [|split; [exact HS|exact HD]].
  simpl. rewrite HL. clear - E HT. revert T HT E. generalize (nodes (core t)) as u. induction ks as [|k ks IH]; intros u T HT E; simpl in E; [congruence|].
  unfold swap_with_nn in E. assert (Z : (Z.of_nat k <? 0)%Z = false) by (apply Z.ltb_ge; lia). rewrite Z, Nat2Z.id in E.
  destruct (P_Tree.swap_wfl k (tree_of_wfl HT)) as (t' & E' & W & L). rewrite E' in E. cbn [bind] in E. destruct (wfl_tree_of W) as (T' & HT'). rewrite <- L. eauto.
Qed.

(** ** A tree that is made from a path belongs to the network *)
Section Made.
Variables (ts : list (list nat)) (p : path) (cs : list term) (rest : list term) (root : term) (d : pydims) (output : option (list nat)) (chk : bool).
Hypothesis Hnd : forall xs, In xs ts -> NoDup xs.
Hypothesis Hpf : performs (length ts) p cs rest.
Hypothesis Hne : p <> [].
Hypothesis Hr : In root rest.
Hypothesis Hin : forall c, In c cs -> incl (tensors c) (tensors root).
Hypothesis Hdim : forall x, occurs ts (tensors root) x -> exists k, dim_is d x k /\ k <> 0%N.
Hypothesis Hth : output = None -> forall x, ~ thrice ts (tensors root) x.
Hypothesis Hsh : chk = true -> forall a b, In (C a b) cs -> exists x, occurs ts (tensors a) x /\ occurs ts (tensors b) x.

Theorem made_belongs t out : pytree_make p ts d output chk = Ok t -> (forall x, In x out <-> occurs ts (tensors root) x /\ open ts (tensors root) output x) ->
  exists T, object_of t T /\ belongs t T (map (fun v => nth v ts []) (tensors_pos t)) d out.
Proof.
  intros E Hout. destruct (@made_uniq ts p cs rest root d output chk Hnd Hpf Hne Hr Hin Hdim Hth Hsh t E) as [M (T & HT)]. exists T.
  assert (O := m_over M). split; [apply over_object; auto|].
  destruct (@made_views ts root d output Hdim t T M HT) as ((_ & V1) & V2 & (os & Eo & (_ & V3)) & V4 & _).
  assert (HL : forall l, In l (leaves T) <-> l < length (tensors_pos t)). { intros l. rewrite (m_len M). unfold n_leaves. apply HT. }
  assert (Nth : forall l, l < length (tensors_pos t) -> nth l (map (fun v => nth v ts []) (tensors_pos t)) [] = nth (nth l (tensors_pos t) 0) ts []).
  { intros l Hl. rewrite (nth_indep _ [] (nth 0 ts [])) by (rewrite map_length; auto). rewrite (map_nth (fun v => nth v ts [])). auto. }
  assert (Hs : forall v x, S_Random.has ts v x <-> In x (nth v ts [])).
  { intros v x. unfold S_Random.has. split; [intros (xs & E1 & H); rewrite (nth_error_nth _ _ _ E1); auto|]. intros H. destruct (nth_error ts v) as [xs|] eqn:E1; [rewrite (nth_error_nth _ _ _ E1) in H; eauto|].
    apply nth_error_None in E1. rewrite nth_overflow in H by auto. contradiction. }
  assert (Oc : forall l x, occurs ts l x <-> exists v, In v l /\ In x (nth v ts [])).
  { intros l x. unfold occurs. split; [intros (v & xs & H1 & H2 & H3); exists v; split; auto; apply Hs; exists xs; auto|intros (v & H1 & H2); apply Hs in H2; destruct H2 as (xs & H2 & H3); eauto 6]. }
  assert (Rk : forall S x, subtree S T -> reported t (top S) x <-> kept ts (tensors root) output (tensors (term_of (tensors_pos t) S)) x).
  { intros S x HS. destruct (V2 S HS) as (xs & E1 & (_ & H)). rewrite <- H. split; [intros (ys & E2 & H2); congruence|intros H2; exists xs; auto]. }
  assert (Bl : forall l x, (exists v, In v (map (fun l => nth l (tensors_pos t) 0) l) /\ In x (nth v ts [])) <-> exists v, In v l /\ In x (nth (nth v (tensors_pos t) 0) ts [])).
  { intros l x. split; [intros (v & H1 & H2); apply in_map_iff in H1; destruct H1 as (u & <- & H1); eauto|intros (v & H1 & H2); eexists; split; [apply in_map_iff; eauto|auto]]. }
  split; [rewrite map_length, (m_len M), (Permutation_length (leaves_seq HT)), seq_length; auto|].
  split. { intros x. rewrite V1, Oc, in_concat. split.
    - intros (v & H1 & H2). apply (m_in M) in H1. exists (nth v ts []). split; auto. apply in_map_iff. eauto.
    - intros (xs & H1 & H2). apply in_map_iff in H1. destruct H1 as (v & <- & H1). exists v. split; auto. apply (m_in M). auto. }
  split. { intros x k H. apply V4 in H. apply H. }
  split. { intros v x Hv. assert (Hv' := proj1 (HL v) Hv). assert (Lv : v < length (nodes (core t))) by (apply (leaf_lt HT); auto). rewrite Nth by auto. rewrite <- Hs. split.
    - intros R. destruct (reported_known O R) as (i & Ei). apply (reported_bit O Lv Ei) in R. assert (H : has (core t) v i) by (apply has_ix; split; [rewrite (len_inds O); auto|exact R]).
      apply (m_leaf M i) in H; [|rewrite <- (m_len M); auto]. destruct H as (y & Ey & H). replace x with y by congruence. auto.
    - intros H. assert (Hx : In x (inds_order t)). { apply (m_occ M). apply Oc. exists (nth v (tensors_pos t) 0). split; [apply (m_in M); apply nth_In; auto|apply Hs; auto]. }
      apply In_nth_error in Hx. destruct Hx as (i & Ei). apply (reported_bit O Lv Ei). assert (G : has (core t) v i) by (apply (m_leaf M i); [rewrite <- (m_len M); auto|eauto]). apply has_ix in G. apply G. }
  split. { intros x. rewrite Hout, <- V3. destruct (out_check O HT) as (os' & E1 & _ & H). rewrite <- H. replace os' with os by congruence. tauto. }
  intros S x HS. rewrite (Rk S x HS). unfold kept, in_tensors. rewrite Oc.
  assert (B : (exists v, In v (tensors (term_of (tensors_pos t) S)) /\ In x (nth v ts [])) <-> exists v, In v (leaves S) /\ In x (nth v (map (fun v => nth v ts []) (tensors_pos t)) [])).
  { split.
    - intros (v & H1 & H2). apply P_AppTree.term_in in H1. destruct H1 as (l & Hl & ->). exists l. split; auto. rewrite Nth by (apply HL; eapply sub_leaves; eauto). auto.
    - intros (l & H1 & H2). rewrite Nth in H2 by (apply HL; eapply sub_leaves; eauto). eexists. split; [apply P_AppTree.term_in; eauto|auto]. }
  rewrite B. assert (D : (exists v xs, In v (tensors root) /\ ~ In v (tensors (term_of (tensors_pos t) S)) /\ nth_error ts v = Some xs /\ In x xs) <->
    exists v, In v (leaves T) /\ ~ In v (leaves S) /\ In x (nth v (map (fun v => nth v ts []) (tensors_pos t)) [])).
  { split.
    - intros (v & xs & H1 & H2 & H3). apply (m_in M) in H1. apply (In_nth _ _ 0) in H1. destruct H1 as (l & Hl & <-). exists l. split; [apply HL; auto|]. split; [intros H4; apply H2; apply P_AppTree.term_in; eauto|].
      rewrite Nth by auto. apply Hs. exists xs. auto.
    - intros (l & H1 & H2 & H3). apply HL in H1. rewrite Nth in H3 by auto. apply Hs in H3. destruct H3 as (xs & H3 & H4). exists (nth l (tensors_pos t) 0), xs. split; [apply (m_in M); apply nth_In; auto|]. split; auto.
      intros H5. apply P_AppTree.term_in in H5. destruct H5 as (l' & Hl' & El). apply H2. assert (L' : l' < length (tensors_pos t)) by (apply HL; eapply sub_leaves; eauto).
      pose proof (m_nodup M) as N. rewrite NoDup_nth in N. rewrite (N l l' H1 L' El). auto. }
  rewrite D, Hout. split; intros [H1 H2]; split; auto.
  - destruct H2 as [H2|H2]; [auto|right; split; auto]. apply Oc. destruct H1 as (l & H1 & H3). assert (L : l < length (tensors_pos t)) by (apply HL; eapply sub_leaves; eauto). rewrite Nth in H3 by auto.
    exists (nth l (tensors_pos t) 0). split; auto. apply (m_in M). apply nth_In. auto.
  - destruct H2 as [H2|[_ H2]]; auto.
Qed.
End Made.
