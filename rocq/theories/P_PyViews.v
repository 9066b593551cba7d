(** Proofs about what a Python contraction tree reports. *)
From Coq Require Import QArith ZArith NArith List Permutation Sorted Lia Bool.
From Verif Require Import P_Base P_Opt P_PyMain.
From Verif Require Import M_Base M_Bitset M_Tree M_CTree M_Path M_PyTree M_PyNodes M_PyViews S_Tree S_Opt S_Path S_PyTree S_PyViews.
From Verif Require Import P_Bitset P_Path P_PathMain P_Canon P_Shape P_TreeValid P_PyRun P_PyPath P_PyFinal P_PyNodes P_AppTree.
From Verif Require P_PyBuild P_AppMain.
From Verif Require Import P_ContractMain M_Opt M_InfMem M_FinWidth S_FinWidth S_App M_App P_InfMemFinal P_FinWidthFinal.
From Verif Require Import M_Path M_PyTree.
Import ListNotations.
Set Implicit Arguments. Unset Strict Implicit.
Local Open Scope nat_scope.
Local Notation core := M_PyTree.core.

Lemma first_max_spec ws : forall w, (forall v, In v (w :: ws) -> (v <= first_max w ws)%Q) /\ In (first_max w ws) (w :: ws).
Proof.
  induction ws as [|v ws IH]; intros w; cbn [first_max].
  - split; [intros v [<-|[]]; apply Qle_refl|left; auto].
  - set (m := if Qlt_le_dec w v then v else w). destruct (IH m) as [A B].
    assert (L : (w <= m)%Q /\ (v <= m)%Q) by (unfold m; destruct (Qlt_le_dec w v) as [H|H]; split; auto using Qle_refl, Qlt_le_weak).
    split.
    + intros x [<-|[<-|H]].
      * eapply Qle_trans; [apply L|apply A; left; auto].
      * eapply Qle_trans; [apply L|apply A; left; auto].
      * apply A. right. auto.
    + destruct B as [B|B]; [|right; right; auto]. unfold m in B. destruct (Qlt_le_dec w v); rewrite B; simpl; auto.
Qed.

Lemma fold_left_mul ks : forall a, fold_left N.mul ks a = (a * fold_right N.mul 1 ks)%N.
Proof. induction ks as [|k ks IH]; intros a; simpl; [lia|]. rewrite IH. lia. Qed.

Section Sizes.
Variable d : pydims.
Lemma dim_fun x k k' : dim_is d x k -> dim_is d x k' -> k = k'.
Proof. unfold dim_is. destruct d; congruence. Qed.

Lemma dims_fun l l1 : Forall2 (dim_is d) l l1 -> forall l2, Forall2 (dim_is d) l l2 -> l1 = l2.
Proof. intros B. induction B as [|a b l l' H B IH]; intros l2 B4; inversion B4; subst; auto. f_equal; [eapply dim_fun; eauto|auto]. Qed.

Lemma entries_fun P s s' : entries d P s -> entries d P s' -> s = s'.
Proof.
  intros (xs & ks & [N H] & F & ->) (xs' & ks' & [N' H'] & F' & ->).
  assert (PP : Permutation xs xs') by (apply NoDup_Permutation; auto; intros x; rewrite H, H'; tauto).
  clear N H N' H'. revert ks ks' F F'. induction PP; intros ks ks' F F'.
  - inversion F; inversion F'; subst. auto.
  - inversion F; inversion F'; subst. simpl. f_equal; [eapply dim_fun; eauto|]. eapply IHPP; eauto.
  - inversion F as [|? ? ? ? A1 B1]; subst. inversion B1 as [|? ? ? ? A2 B2]; subst. inversion F' as [|? ? ? ? A3 B3]; subst. inversion B3 as [|? ? ? ? A4 B4]; subst.
    simpl. rewrite (dim_fun A1 A4), (dim_fun A2 A3), (dims_fun B2 B4). lia.
  - assert (exists ks1, Forall2 (dim_is d) l' ks1) as (ks1 & F1).
    { assert (forall x, In x l' -> exists k, dim_is d x k).
      { intros x Hx. apply (Permutation_in _ (Permutation_sym PP1)) in Hx. clear - F Hx. induction F; [contradiction|]. destruct Hx as [<-|Hx]; eauto. }
      clear - H. induction l' as [|x l' IH]; [exists []; constructor|]. destruct (H x (or_introl eq_refl)) as (k & Hk'). destruct IH as (ks & F); [intros; apply H; right; auto|]. exists (k :: ks). constructor; auto. }
    transitivity (fold_right N.mul 1%N ks1); eauto.
Qed.

End Sizes.

Section Views.
Variables (ts : list (list nat)) (d : pydims) (output : option (list nat)) (all : list nat).
Variables (t : pytree) (c : ctree) (T : bt).
Hypothesis O : over t c.
Hypothesis HT : tree_of (nodes c) T.
Let order := inds_order t.
Let tp := tensors_pos t.
Hypothesis Hall : forall v, In v all <-> In v (tensors (term_of tp T)).
Hypothesis Hk : forall S, subtree S T -> forall i, has c (top S) i <->
  exists x, nth_error order i = Some x /\ kept ts all output (tensors (term_of tp S)) x.
Hypothesis Ho : forall x, In x order <-> occurs ts all x.
Hypothesis Hd : forall i x k, nth_error order i = Some x -> dim_is d x k -> dimension (dims (core t)) i = Z.of_N k.
Hypothesis Hdk : forall x, occurs ts all x -> exists k, dim_is d x k.
Let t' := mkPT c (n_tensors t) tp order.

Lemma v_inds_len : length (inds c) = length (nodes c).
Proof. pose proof (ov_valid O) as V. unfold ctree_is_valid in V. rewrite !andb_true_iff in V. apply Nat.eqb_eq. tauto. Qed.

Lemma v_node S : subtree S T -> exists b, nth_error (inds c) (top S) = Some b /\ length b = length order.
Proof.
  intros HS. destruct HT as (_ & HP & _). assert (Hin : In (top S) (positions T)).
  { eapply subtree_in; [exact HS|]. destruct S; simpl; auto. }
  apply (Permutation_in _ HP) in Hin. apply in_seq in Hin.
  destruct (nth_error (inds c) (top S)) as [b|] eqn:E.
  - exists b. split; auto. apply (ov_len O). eapply nth_error_In; eauto.
  - apply nth_error_None in E. rewrite v_inds_len in E. lia.
Qed.

Lemma names_list b : length b = length order -> exists l, names_of order b = Ok l /\ NoDup l /\
  forall x, In x l <-> exists i, nth_error order i = Some x /\ btest b i = true.
Proof.
  intros L. exists (map (fun i => nth i order 0) (bpositions b)).
  assert (Hlt : forall i, btest b i = true -> i < length order) by (intros i Hi; rewrite <- L; apply btest_lt; auto).
  split; [|split].
  - unfold names_of. apply mapM_ok. intros i Hi. apply bpositions_in in Hi. apply get_some. apply nth_error_nth'. auto.
  - pose proof (bpositions_nodup b) as N. assert (Hin : forall i, In i (bpositions b) -> i < length order) by (intros i Hi; apply Hlt, bpositions_in; auto).
    induction (bpositions b) as [|i l IH]; [constructor|]. inversion N; subst. simpl. constructor; [|apply IH; auto; intros; apply Hin; right; auto].
    rewrite in_map_iff. intros (j & E & Hj). assert (j = i); [|subst; auto].
    apply (proj1 (NoDup_nth order 0) (ov_nodup O)); auto; apply Hin; simpl; auto.
  - intros x. rewrite in_map_iff. split.
    + intros (i & <- & Hi). apply bpositions_in in Hi. exists i. split; auto. apply nth_error_nth'. auto.
    + intros (i & Ei & Hi). exists i. split; [apply nth_error_nth; auto|apply bpositions_in; auto].
Qed.

Lemma btest_nth b i : btest b i = true <-> nth_error b i = Some true.
Proof.
  unfold btest. split.
  - intros H. destruct (nth_error b i) as [y|] eqn:E; [rewrite (nth_error_nth _ _ false E) in H; subst; auto|].
    apply nth_error_None in E. rewrite nth_overflow in H by auto. discriminate.
  - intros H. apply (nth_error_nth _ _ false H).
Qed.

Lemma v_inds S : subtree S T -> exists xs, py_inds t' (top S) = Ok xs /\ lists_set xs (kept ts all output (tensors (term_of tp S))).
Proof.
  intros HS. destruct (v_node HS) as (b & Eb & L). destruct (names_list L) as (l & El & N & Hl).
  exists l. split; [unfold py_inds; simpl; rewrite (get_some Eb); exact El|]. split; [exact N|]. intros x. rewrite Hl. split.
  - intros (i & Ei & Hi). assert (H : has c (top S) i) by (exists b; split; auto; apply btest_nth; auto).
    apply (Hk HS) in H. destruct H as (y & Ey & H). assert (y = x) by congruence. subst. auto.
  - intros H. assert (Hx : In x order).
    { apply Ho. destruct H as [(v & xs & H1 & H2 & H3) _]. exists v, xs. split; auto. apply Hall.
      apply term_in in H1. destruct H1 as (l' & Hl' & ->). apply term_in. exists l'. split; auto. eapply sub_leaves; eauto. }
    apply In_nth_error in Hx. destruct Hx as (i & Ei). exists i. split; auto.
    assert (Hh : has c (top S) i) by (apply (Hk HS); eauto). destruct Hh as (b' & Eb' & Hb'). assert (b' = b) by congruence. subst. apply btest_nth. auto.
Qed.

Lemma v_out : exists xs, output_inds t' = Ok xs /\ lists_set xs (fun x => occurs ts all x /\ open ts all output x).
Proof.
  destruct (@v_inds T (sub_here T)) as (xs & E & N & H). exists xs. split.
  - unfold output_inds. simpl. destruct HT as (_ & HP & Htop & _). rewrite v_inds_len. rewrite Htop in E.
    destruct (length (nodes c)) as [|k] eqn:L.
    + exfalso. apply (ov_some O). destruct (nodes c); auto. discriminate.
    + simpl in E. rewrite Nat.sub_0_r in E. exact E.
  - split; auto. intros x. rewrite H. unfold kept. split.
    + intros [(v & ys & H1 & H2) [(u & zs & G1 & G2 & _)|G]]; [exfalso; apply G2; apply Hall; auto|].
      split; auto. exists v, ys. split; [apply Hall; auto|auto].
    + intros [(v & ys & H1 & H2) G]. split; auto. exists v, ys. split; [apply Hall; auto|auto].
Qed.

Lemma v_dims_list : exists ds, length ds = length order /\ py_dims t' = combine order ds /\
  forall i, i < length order -> dimension (dims (core t)) i = Z.of_N (nth i ds 1%N).
Proof.
  destruct (ov_dims O) as (ds & L & E & Ec). exists ds. split; auto. split.
  - unfold py_dims. simpl. rewrite Ec, E. f_equal. apply expand_dims. auto.
  - intros i Hi. rewrite E. pose proof (@expand_dims ds (length ds) eq_refl) as X. destruct (collapse_dims (DVec ds)) as [k|l] eqn:C; simpl.
    + rewrite <- X. f_equal. rewrite (nth_indep (repeat k (length ds)) 1%N k) by (rewrite repeat_length; unfold order in *; lia).
      symmetry. apply nth_repeat.
    + rewrite X. reflexivity.
Qed.

Lemma dict_get_nth (ds : list N) x k : NoDup order -> length ds = length order ->
  dict_get (combine order ds) x = Ok k <-> exists i, nth_error order i = Some x /\ nth_error ds i = Some k.
Proof.
  intros N L. pose proof (@dict_combine_all _ order ds N L) as F.
  assert (G : forall i y v, nth_error order i = Some y -> nth_error ds i = Some v -> dict_get (combine order ds) y = Ok v).
  { intros i y v. generalize dependent i. clear - F. remember (fun x v => dict_get (combine order ds) x = Ok v) as R eqn:ER.
    assert (HR : forall a b, R a b -> dict_get (combine order ds) a = Ok b) by (intros; subst R; auto). clear ER. revert F HR.
    generalize (combine order ds) as D. intros D F HR. induction F as [|a b l l' H F IH]; intros i; destruct i; simpl; try discriminate; eauto.
    intros E1 E2. injection E1 as <-. injection E2 as <-. auto. }
  split.
  - intros H. assert (Hx : In x order).
    { destruct (in_dec Nat.eq_dec x order) as [Hx|Hx]; auto. exfalso. clear - H Hx. revert ds H. induction order as [|y l IH]; intros ds H; [discriminate|].
      destruct ds as [|v ds]; [discriminate|]. simpl in H. destruct (x =? y) eqn:E; [apply Nat.eqb_eq in E; apply Hx; left; auto|]. eapply IH; eauto. intros C. apply Hx. right. auto. }
    apply In_nth_error in Hx. destruct Hx as (i & Ei). exists i. split; auto. destruct (nth_error ds i) as [v|] eqn:Ev.
    + rewrite (G _ _ _ Ei Ev) in H. congruence.
    + apply nth_error_None in Ev. assert (i < length order) by (eapply nth_error_lt; eauto). lia.
  - intros (i & E1 & E2). eauto.
Qed.

Lemma v_dims x k : dict_get (py_dims t') x = Ok k <-> occurs ts all x /\ dim_is d x k.
Proof.
  destruct v_dims_list as (ds & L & E & Hn). rewrite E. rewrite dict_get_nth by (auto; apply (ov_nodup O)). split.
  - intros (i & Ei & Ek). assert (Hx : occurs ts all x) by (apply Ho; eapply nth_error_In; eauto). split; auto.
    destruct (Hdk Hx) as (k' & Hk'). pose proof (Hd Ei Hk') as D. rewrite Hn in D by (eapply nth_error_lt; eauto).
    rewrite (nth_error_nth _ _ _ Ek) in D. apply N2Z.inj in D. subst. auto.
  - intros [Hx Hk']. apply Ho in Hx. apply In_nth_error in Hx. destruct Hx as (i & Ei). exists i. split; auto.
    pose proof (Hd Ei Hk') as D. assert (Hi : i < length order) by (eapply nth_error_lt; eauto). rewrite Hn in D by auto. apply N2Z.inj in D.
    rewrite <- D. apply nth_error_nth'. lia.
Qed.

Lemma sizes_of xs : (forall x, In x xs -> occurs ts all x) -> exists ks, mapM (dict_get (py_dims t')) xs = Ok ks /\ Forall2 (dim_is d) xs ks.
Proof.
  induction xs as [|x xs IH]; intros H; [exists []; split; constructor|].
  destruct IH as (ks & E & F); [intros; apply H; right; auto|].
  destruct (Hdk (H x (or_introl eq_refl))) as (k & Hk'). assert (G : dict_get (py_dims t') x = Ok k) by (apply v_dims; split; auto; apply H; left; auto).
  exists (k :: ks). cbn [mapM]. rewrite G. cbn [bind]. rewrite E. split; auto.
Qed.

Lemma v_width lg : exists w, max_width lg t' = Ok w /\
  (forall S s, subtree S T -> entries d (kept ts all output (tensors (term_of tp S))) s -> (lg s <= w)%Q) /\
  (exists S s, subtree S T /\ entries d (kept ts all output (tensors (term_of tp S))) s /\ w = lg s).
Proof.
  (* node by node *)
  assert (Node : forall v b, nth_error (inds c) v = Some b -> exists S xs s, subtree S T /\ top S = v /\ names_of order b = Ok xs /\ node_size t' xs = Ok s /\
            entries d (kept ts all output (tensors (term_of tp S))) s).
  { intros v b Eb. assert (Hv : v < length (nodes c)) by (rewrite <- v_inds_len; eapply nth_error_lt; eauto).
    assert (Hin : In v (positions T)). { destruct HT as (_ & HP & _). eapply Permutation_in; [symmetry; exact HP|]. apply in_seq. lia. }
    destruct (in_subtree Hin) as (S & HS & <-). destruct (v_inds HS) as (xs & E & N & H). unfold py_inds in E. simpl in E. rewrite (get_some Eb) in E. cbn [bind] in E.
    destruct (@sizes_of xs) as (ks & Ek & F).
    { intros x Hx. apply H in Hx. destruct Hx as [(v & ys & H1 & H2 & H3) _]. exists v, ys. split; auto. apply Hall. apply term_in in H1. destruct H1 as (l' & Hl' & ->).
      apply term_in. exists l'. split; auto. eapply sub_leaves; eauto. }
    exists S, xs, (fold_right N.mul 1%N ks). split; auto. split; auto. split; auto. split.
    - unfold node_size. rewrite Ek. cbn [bind]. rewrite fold_left_mul, N.mul_1_l. auto.
    - exists xs, ks. split; [split; auto|]. auto. }
  destruct (@P_AppMain.mapM_forall2 _ _ (names_of order) (inds c)) as (xss & Ex & Fx).
  { intros b Hb. apply In_nth_error in Hb. destruct Hb as (v & Eb). destruct (Node _ _ Eb) as (S & xs & s & _ & _ & E & _). eauto. }
  destruct (@P_AppMain.mapM_forall2 _ _ (node_size t') xss) as (sizes & Es & Fs).
  { intros xs Hxs. apply In_nth_error in Hxs. destruct Hxs as (v & Ev). destruct (nth_error (inds c) v) as [b|] eqn:Eb.
    - destruct (Node _ _ Eb) as (S & xs' & s & _ & _ & E & E2 & _).
      assert (X : names_of order b = Ok xs).
      { clear - Fx Ev Eb. revert v Ev Eb. induction Fx as [|? ? ? ? H F IH]; intros v Ev Eb; destruct v; simpl in *; try discriminate; [congruence|eauto]. }
      exists s. congruence.
    - apply nth_error_None in Eb. assert (v < length xss) by (eapply nth_error_lt; eauto). apply forall2_len in Fx. lia. }
  assert (Size : forall v s, nth_error sizes v = Some s -> exists S, subtree S T /\ top S = v /\ entries d (kept ts all output (tensors (term_of tp S))) s).
  { intros v s Ev. assert (Lx := forall2_len Fx). assert (Ls := forall2_len Fs). assert (Hv : v < length sizes) by (eapply nth_error_lt; eauto).
    destruct (nth_error (inds c) v) as [b|] eqn:Eb; [|apply nth_error_None in Eb; lia].
    destruct (nth_error xss v) as [xs|] eqn:Exs; [|apply nth_error_None in Exs; lia].
    destruct (Node _ _ Eb) as (S & xs' & s' & HS & Et & E & E2 & HE).
    assert (X : names_of order b = Ok xs).
    { clear - Fx Exs Eb. revert v Exs Eb. induction Fx as [|? ? ? ? H F IH]; intros v Ev Eb; destruct v; simpl in *; try discriminate; [congruence|eauto]. }
    assert (Y : node_size t' xs = Ok s).
    { clear - Fs Exs Ev. revert v Exs Ev. induction Fs as [|? ? ? ? H F IH]; intros v Exs Ev; destruct v; simpl in *; try discriminate; [congruence|eauto]. }
    assert (xs' = xs) by congruence. subst xs'. assert (s' = s) by congruence. subst s'. eauto. }
  unfold max_width. simpl inds_order. simpl M_PyTree.core. rewrite Ex. cbn [bind]. rewrite Es. cbn [bind].
  assert (Lx := forall2_len Fx). assert (Ls := forall2_len Fs).
  destruct (map lg sizes) as [|w ws] eqn:Em.
  - exfalso. apply (f_equal (@length _)) in Em. rewrite map_length in Em. simpl in Em. apply (ov_some O). rewrite v_inds_len in Lx. destruct (nodes c); auto. simpl in *. lia.
  - exists (first_max w ws). split; auto. destruct (first_max_spec ws w) as [A B]. rewrite <- Em in A, B. split.
    + intros S s HS HE. apply A. destruct (v_node HS) as (b & Eb & _). assert (Hv : top S < length sizes) by (pose proof (nth_error_lt Eb); lia).
      destruct (nth_error sizes (top S)) as [s'|] eqn:Ev; [|apply nth_error_None in Ev; lia].
      destruct (Size _ _ Ev) as (S' & HS' & Et & HE').
      assert (S' = S) by (destruct HT as (U & HP & _); eapply P_PyBuild.sub_top_inj; eauto; eapply Permutation_NoDup; [symmetry; exact HP|apply seq_NoDup]). subst S'.
      rewrite (entries_fun HE HE'). apply in_map. eapply nth_error_In; eauto.
    + apply in_map_iff in B. destruct B as (s & Hs & Hin). apply In_nth_error in Hin. destruct Hin as (v & Ev). destruct (Size _ _ Ev) as (S & HS & _ & HE). exists S, s. auto.
Qed.

Lemma views : reports ts d output all t' T.
Proof.
  split; [split; [apply (ov_nodup O)|exact Ho]|]. split; [exact v_inds|]. split; [exact v_out|]. split; [exact v_dims|]. exact v_width.
Qed.
End Views.

(** ** The tree that is built, and those of an optimizer *)
Section Made.
Variables (ts : list (list nat)) (p : path) (cs : list term) (rest : list term) (root : term) (d : pydims) (output : option (list nat)) (chk : bool).
Hypothesis Hnd : forall xs, In xs ts -> NoDup xs.
Hypothesis Hpf : performs (length ts) p cs rest.
Hypothesis Hne : p <> [].
Hypothesis Hr : In root rest.
Hypothesis Hin : forall c, In c cs -> incl (tensors c) (tensors root).
Hypothesis Hdim : forall x, occurs ts (tensors root) x -> exists k, dim_is d x k /\ k <> 0%N.
Hypothesis Hth : output = None -> forall x, ~ thrice ts (tensors root) x.
Hypothesis Hsh : chk = true -> forall a b, In (C a b) cs -> exists x, occurs ts (tensors a) x /\ occurs ts (tensors b) x.
Let all := tensors root.

(** What is known of the tree that is built. *)
Record made (t : pytree) : Prop := {
  m_over  : over t (core t);
  m_nodup : NoDup (tensors_pos t);
  m_in    : forall v, In v (tensors_pos t) <-> In v all;
  m_len   : length (tensors_pos t) = n_leaves (nodes (core t));
  m_leaf  : forall l i, l < n_leaves (nodes (core t)) ->
              (has (core t) l i <-> exists x, nth_error (inds_order t) i = Some x /\ S_Random.has ts (nth l (tensors_pos t) 0) x);
  m_exact : exact_inds (core t) (fun i => exists x, nth_error (inds_order t) i = Some x /\ open ts all output x);
  m_occ   : forall x, In x (inds_order t) <-> occurs ts all x;
  m_dims  : forall i x k, nth_error (inds_order t) i = Some x -> dim_is d x k -> dimension (dims (core t)) i = Z.of_N k
}.

Lemma kept_exact order tp (c : ctree) T :
  NoDup tp -> (forall l, In l (leaves T) <-> l < length tp) -> (forall v, In v tp <-> In v all) ->
  (forall l i, In l (leaves T) -> (has c l i <-> exists x, nth_error order i = Some x /\ S_Random.has ts (nth l tp 0) x)) ->
  forall S, subtree S T -> forall i,
  (below c S i /\ (outside c T S i \/ exists x, nth_error order i = Some x /\ open ts all output x)) <->
  exists x, nth_error order i = Some x /\ kept ts all output (tensors (term_of tp S)) x.
Proof.
  intros N HL HA Hleaf S HS i.
  assert (Hall : forall v, In v all <-> exists l, In l (leaves T) /\ v = nth l tp 0).
  { intros v. rewrite <- HA. split.
    - intros H. apply (In_nth _ _ 0) in H. destruct H as (l & Hl & <-). exists l. split; auto. apply HL. auto.
    - intros (l & Hl & ->). apply nth_In. apply HL. auto. }
  split.
  - intros ((l & Hl & Hx) & H). assert (HlT : In l (leaves T)) by (eapply sub_leaves; eauto).
    apply Hleaf in Hx; auto. destruct Hx as (x & Ex & Hx). exists x. split; auto.
    split; [apply occ_has; eexists; split; [apply term_in; eauto|eauto]|].
    destruct H as [(k & Hk & Hk' & Hh)|(y & Ey & H)].
    + left. apply Hleaf in Hh; auto. destruct Hh as (y & Ey & ys & H1 & H2). assert (y = x) by congruence. subst y.
      exists (nth k tp 0), ys. split; [apply Hall; eauto|]. split; auto.
      intros Hk2. apply term_in in Hk2. destruct Hk2 as (k2 & Hk2 & E2). assert (k = k2); [|subst; auto].
      apply (proj1 (NoDup_nth tp 0) N); auto; apply HL; auto. eapply sub_leaves; eauto.
    + assert (y = x) by congruence. subst y. right. auto.
  - intros (x & Ex & Ho & H). apply occ_has in Ho. destruct Ho as (v & Hv & Hx). apply term_in in Hv. destruct Hv as (l & Hl & ->).
    assert (HlT : In l (leaves T)) by (eapply sub_leaves; eauto). split; [exists l; split; auto; apply Hleaf; eauto|].
    destruct H as [(v & xs & H1 & H2 & H3 & H4)|H]; [left|right; eauto].
    apply Hall in H1. destruct H1 as (k & Hk & ->). exists k. split; auto. split.
    + intros Hk'. apply H2. apply term_in. eauto.
    + apply Hleaf; auto. exists x. split; auto. exists xs. auto.
Qed.

Lemma make_ok : exists t T, pytree_make p ts d output chk = Ok t /\ made t /\
  tree_of (nodes (core t)) T /\ term_of (tensors_pos t) T = root.
Proof.
  destruct (@c21_tree ts p cs rest root d output chk) as (t & T & E & En & Hsrt & Htp & HT & Et & Hc & HN & HO & Hinds & Hdims); auto.
  assert (HNt : NoDup (tensors_pos t)).
  { clear -Hsrt. induction Hsrt as [|a l H IH F]; constructor; auto. rewrite Forall_forall in F. intros Ha. specialize (F a Ha). lia. }
  destruct (build_root Hpf Hr Hin Hne) as (bs & R & HRT).
  assert (HL : length (tensors_pos t) = n_leaves (nodes (core t))).
  { pose proof (tree_of_size HT) as (SL & _). rewrite <- SL.
    assert (Permutation (tensors_pos t) (map (fun i => nth i (tensors_pos t) 0) (leaves T))) as PP; [|rewrite (Permutation_length PP), map_length; auto].
    rewrite <- (term_tensors (tensors_pos t) T), Et. apply NoDup_Permutation; auto. rewrite <- (rt_tm HRT).
    eapply Permutation_NoDup; [symmetry; apply tm_leaves|]. apply leaves_nodup, (rt_nd HRT). }
  assert (HLv : forall l, In l (leaves T) <-> l < n_leaves (nodes (core t))) by (intros l; apply HT).
  assert (Hroot : forall v, In v (tensors root) <-> exists l, In l (leaves T) /\ v = nth l (tensors_pos t) 0) by (intros v; rewrite <- Et; apply term_in).
  assert (Hleaf : forall l i, l < n_leaves (nodes (core t)) ->
              (has (core t) l i <-> exists x, nth_error (inds_order t) i = Some x /\ S_Random.has ts (nth l (tensors_pos t) 0) x)).
  { intros l i Hl. assert (HS : subtree (Lf l) T) by (apply P_PyBuild.leaf_sub; apply HLv; auto).
    specialize (Hinds _ HS i). simpl in Hinds. rewrite Hinds. set (v := nth l (tensors_pos t) 0) in *.
    assert (Hv : In v (tensors root)) by (apply Hroot; exists l; split; auto; apply HLv; auto).
    split; intros (x & Ex & H); exists x; (split; [auto|]).
    - destruct H as (H & _). apply occ_has in H. destruct H as (w & [<-|[]] & H). auto.
    - split; [apply occ_has; exists v; simpl; auto|].
      destruct (other_dec ts x v (tensors root)) as [(u & H1 & H2 & ys & H3 & H4)|Ho].
      + left. exists u, ys. split; auto. split; auto. simpl. intros [E'|[]]; auto.
      + right. left. exists v. intros u. split; [intros (H1 & H2); apply Ho; auto|]. intros ->. split; auto. }
  exists t, T. split; auto. split; [|auto]. constructor; auto.
  - eapply over_make; eauto.
  - exists T. split; auto. intros S HS i. rewrite (Hinds S HS i). symmetry. apply (@kept_exact (inds_order t) (tensors_pos t) (core t) T); auto.
    + intros l. rewrite HL. apply HLv.
    + intros l j Hl. apply Hleaf. apply HLv. auto.
Qed.

Lemma made_reports t c : made t -> same_problem (core t) c -> ctree_is_valid c false = true ->
  exact_inds c (fun i => exists x, nth_error (inds_order t) i = Some x /\ open ts all output x) ->
  forall T, tree_of (nodes c) T -> reports ts d output all (mkPT c (n_tensors t) (tensors_pos t) (inds_order t)) T.
Proof.
  intros M SP V HE T HT. pose proof SP as (W & _ & Ed & Ln & _ & Hl & _).
  assert (HL : forall l, In l (leaves T) <-> l < length (tensors_pos t)).
  { intros l. rewrite (m_len M). unfold n_leaves. rewrite <- Ln. apply HT. }
  apply views.
  - eapply over_moves; eauto. apply (m_over M).
  - exact HT.
  - intros v. rewrite <- (m_in M), term_in. split.
    + intros H. apply (In_nth _ _ 0) in H. destruct H as (l & Hl' & <-). exists l. split; auto. apply HL. auto.
    + intros (l & Hl' & ->). apply nth_In. apply HL. auto.
  - intros S HS i. destruct HE as (T' & HT' & Hex). rewrite (tree_uniq HT' HT) in Hex. rewrite (Hex S HS i).
    apply kept_exact; auto; [apply (m_nodup M)|apply (m_in M)|].
    intros l j Hlj. apply HL in Hlj. rewrite (m_len M) in Hlj. rewrite <- (m_leaf M j Hlj). unfold has, n_leaves in *. rewrite Hl by auto. tauto.
  - apply (m_occ M).
  - apply (m_dims M).
  - intros x Hx. destruct (Hdim Hx) as (k & H & _). eauto.
Qed.

Lemma made_views t T : made t -> tree_of (nodes (core t)) T -> reports ts d output all t T.
Proof.
  intros M HT. pose proof (ov_valid (m_over M)) as V. destruct t as [c n tp o]. apply (@made_reports (mkPT c n tp o) c); auto; [|apply (m_exact M)].
  simpl. assert (W : well_formed (nodes c)) by (exists T; auto). split; auto. split; auto.
Qed.

Lemma made_uniq t : pytree_make p ts d output chk = Ok t -> made t /\ well_formed (nodes (core t)).
Proof. intros E. destruct make_ok as (t' & T & E' & M & HT & _). rewrite E in E'. injection E' as <-. split; auto. exists T. auto. Qed.

Lemma im_views (R : Type) t m (r : R) ds s0 rds s c : pytree_make p ts d output chk = Ok t ->
  im_make (core t) m r ds None = Ok s0 -> im_run rds s0 = Ok s -> c = im_ct s \/ c = im_min_ct s ->
  exists t' T, get_ctree t c = Ok t' /\ core t' = c /\ tree_of (nodes c) T /\ reports ts d output all t' T.
Proof.
  intros E Hm Hrun Hc. destruct (made_uniq E) as (M & W). pose proof (P_AppMain.im_trees (m_over M) W Hm Hrun) as (G1 & G2).
  destruct (c08 W Hm Hrun) as (V1 & V2). destruct (c11 W Hm Hrun) as (S1 & _ & S2 & _). specialize (S2 eq_refl).
  destruct (c07 Hm (m_exact M) Hrun) as (X1 & X2). specialize (X2 eq_refl).
  exists (mkPT c (n_tensors t) (tensors_pos t) (inds_order t)).
  destruct Hc as [-> | ->].
  - destruct S1 as (S1a & (T & HT) & S1c) eqn:ES. exists T. split; auto. split; auto. split; auto. apply made_reports; auto.
  - destruct S2 as (S2a & (T & HT) & S2c) eqn:ES. exists T. split; auto. split; auto. split; auto. apply made_reports; auto.
Qed.

Lemma fw_views (R : Type) lg (fr : frand R) t m maxnew r ds skip sl msl s0 us s c : pytree_make p ts d output chk = Ok t ->
  fw_built lg fr (core t) m maxnew r ds skip None sl msl s0 -> all_shuffle us -> fw_run lg us s0 = Ok s -> c = fw_ct s \/ c = fw_min_ct s ->
  exists t' T, get_ctree t c = Ok t' /\ core t' = c /\ tree_of (nodes c) T /\ reports ts d output all t' T.
Proof.
  intros E HB Hs Hrun Hc. destruct (made_uniq E) as (M & W). pose proof (P_AppMain.fw_trees (m_over M) HB Hs Hrun) as (G1 & G2).
  destruct (f08 HB Hs Hrun) as (V1 & V2). destruct (f11 HB Hs Hrun) as (S1 & _ & S2 & _). specialize (S2 eq_refl).
  destruct (f07 HB Hs Hrun (m_exact M)) as (X1 & X2). specialize (X2 eq_refl).
  exists (mkPT c (n_tensors t) (tensors_pos t) (inds_order t)).
  destruct Hc as [-> | ->].
  - destruct S1 as (S1a & (T & HT) & S1c) eqn:ES. exists T. split; auto. split; auto. split; auto. apply made_reports; auto.
  - destruct S2 as (S2a & (T & HT) & S2c) eqn:ES. exists T. split; auto. split; auto. split; auto. apply made_reports; auto.
Qed.
End Made.
