(** is_valid_contraction_tree tells whether a tree belongs to a network: the proof. *)
From Coq Require Import QArith ZArith NArith List Permutation Lia Bool.
From Verif Require Import P_Base P_Opt P_PyMain.
From Verif Require Import M_Base M_Bitset M_Tree M_CTree M_Path M_PyTree M_PyNodes M_PyViews M_ValidTree S_Tree S_Opt S_Path S_PyTree S_PyViews S_ValidTree.
From Verif Require Import P_Bitset P_Split P_Path P_PathMain P_Canon P_Shape P_TreeValid P_PyRun P_PyPath P_PyFinal P_InfMem P_InfMemFinal P_PyNodes P_PyViews P_ValidCount P_ValidPickle P_ValidTree.
From Verif Require P_Fuse P_Amplitude P_Kronecker.
From Verif Require Import M_Path M_PyTree.
Import ListNotations.
Set Implicit Arguments. Unset Strict Implicit.
Local Open Scope nat_scope.
Local Notation core := M_PyTree.core.

Lemma sub_split S T : subtree S T -> exists rest, Permutation (leaves T) (leaves S ++ rest).
Proof.
  induction 1 as [|p l r H (rest & IH)|p l r H (rest & IH)]; simpl.
  - exists []. rewrite app_nil_r. auto.
  - exists (rest ++ leaves r). rewrite app_assoc. apply Permutation_app_tail. auto.
  - exists (leaves l ++ rest). rewrite IH. rewrite !app_assoc. apply Permutation_app_tail. apply Permutation_app_comm.
Qed.
Lemma filter_perm A (f : A -> bool) l k : Permutation l k -> length (filter f l) = length (filter f k).
Proof. induction 1 as [|x l k H IH|x y l|l k m H1 IH1 H2 IH2]; simpl; auto; [destruct (f x); simpl; lia|destruct (f x), (f y); auto|lia]. Qed.
Lemma filter_pos A (f : A -> bool) l : 1 <= length (filter f l) <-> exists v, In v l /\ f v = true.
Proof.
  split.
  - destruct (filter f l) as [|v k] eqn:E; simpl; [lia|]. intros _. exists v. apply filter_In. rewrite E. left. auto.
  - intros (v & H). apply filter_In in H. destruct (filter f l); [contradiction|simpl; lia].
Qed.

Lemma map_fst_combine A B (l : list A) : forall k : list B, length k = length l -> map fst (combine l k) = l.
Proof. induction l as [|x l IH]; intros [|y k] H; simpl in *; auto; try discriminate. f_equal. apply IH. lia. Qed.

Lemma forall2_len A B (R : A -> B -> Prop) l k : Forall2 R l k -> length l = length k.
Proof. induction 1; simpl; auto. Qed.

Lemma forall2_nth n : forall l us, (forall v, v < n -> same_set (nth v l []) (nth v us []) = true) -> length l = n -> length us = n -> Forall2 (fun x y => same_set x y = true) l us.
Proof.
  induction n as [|n IH]; intros [|a l] [|u us] F L L'; simpl in *; try discriminate; constructor; [apply (F 0); lia|]. apply IH; try lia. intros v Hv. apply (F (S v)). lia.
Qed.

Section Main.
Variables (t : pytree) (T : bt) (ord : list nat -> list nat).
Hypothesis Hord : forall l, Permutation (ord l) l.
Hypothesis O : over t (core t).
Hypothesis HT : tree_of (nodes (core t)) T.
Let c := core t.
Let order := inds_order t.
Local Notation bit := (bit t).
Variables (ts : list (list nat)) (d : pydims) (out : list nat) (h : list (nat * Z)) (chk : bool).

Lemma leaves_seq : Permutation (leaves T) (seq 0 (n_leaves (nodes c))).
Proof.
  apply NoDup_Permutation; [apply leaves_nodup; apply (tree_of_in HT)|apply seq_NoDup|]. intros p. destruct HT as (_ & _ & _ & H). rewrite H, in_seq. unfold n_leaves, c. lia.
Qed.
Lemma leaf_lt v : In v (leaves T) -> v < length (nodes c).
Proof. intros H. apply (tree_of_in HT). apply leaves_in. auto. Qed.
Lemma n_leaves_le : n_leaves (nodes c) <= length (nodes c).
Proof.
  assert (length (nodes c) <> 0) by (intros E; apply (ov_some O); apply length_zero_iff_nil; exact E).
  unfold n_leaves. apply Nat.div_le_upper_bound; lia.
Qed.

(** ** Each check *)
Lemma dims_check b :
  match d with
  | PyInt k => all_items (fun _ v => Ok (k =? v)%N) (py_dims t)
  | PyDict l => all_items (fun x v => let! k := dict_get l x in Ok (k =? v)%N) (py_dims t)
  end = Ok b -> (b = true <-> forall x k, dict_get (py_dims t) x = Ok k -> dim_is d x k).
Proof.
  assert (N : NoDup (map fst (py_dims t))).
  { unfold py_dims. destruct (ov_dims O) as (ds & L & E & _). rewrite E, expand_dims by auto. rewrite map_fst_combine by auto. apply (ov_nodup O). }
  assert (G : forall x k, In (x, k) (py_dims t) <-> dict_get (py_dims t) x = Ok k).
  { intros x k. split; [apply P_Fuse.dict_get_in; auto|apply P_Fuse.dict_get_key]. }
  intros E. transitivity (match d with
  | PyInt k => all_items (fun _ v => Ok (k =? v)%N) (py_dims t)
  | PyDict l => all_items (fun x v => let! k := dict_get l x in Ok (k =? v)%N) (py_dims t)
  end = Ok true). { rewrite E. split; congruence. }
  destruct d as [l|k0]; rewrite all_items_true; (split; intros H x k Hk; apply G in Hk; specialize (H x k Hk)); simpl in *.
  - destruct (dict_get l x) as [k'|]; [|discriminate]. cbn [bind] in H. injection H as H. apply N.eqb_eq in H. subst. auto.
  - rewrite H. cbn [bind]. rewrite N.eqb_refl. auto.
  - injection H as H. apply N.eqb_eq in H. auto.
  - subst. rewrite N.eqb_refl. auto.
Qed.

Lemma leaf_sets : exists xs, mapM (names_of order) (firstn (n_leaves (nodes c)) (inds c)) = Ok xs /\
  (all2 same_set xs ts = true <-> length ts = length (leaves T) /\ forall v x, In v (leaves T) -> reported t v x <-> In x (nth v ts [])).
Proof.
  set (n := n_leaves (nodes c)). assert (Ln : n <= length (inds c)) by (unfold c; rewrite (len_inds O); apply n_leaves_le).
  exists (map (names_at t) (firstn n (inds c))). split.
  { apply mapM_ok. intros b Hb. assert (Hb' : In b (inds c)) by (rewrite <- (firstn_skipn n (inds c)); apply in_or_app; auto).
    destruct (@names_list t c O b) as (l & El & _); [apply (ov_len O); auto|]. assert (X := names_all O). unfold names_at. unfold names_of. apply mapM_ok. intros i Hi.
    apply bpositions_in in Hi. apply get_some. apply nth_error_nth'. eapply pos_lt; eauto. }
  assert (Lx : length (map (names_at t) (firstn n (inds c))) = n) by (rewrite map_length, firstn_length; lia).
  assert (Ll : length (leaves T) = n) by (rewrite (Permutation_length leaves_seq), seq_length; auto).
  assert (Nx : forall v, v < n -> forall x, In x (nth v (map (names_at t) (firstn n (inds c))) []) <-> reported t v x).
  { intros v Hv x. destruct (node_inds O (v := v)) as (ys & Ey & _ & _); [pose proof n_leaves_le; fold n in H; fold c; lia|].
    assert (Eq : nth v (map (names_at t) (firstn n (inds c))) [] = ys).
    { rewrite (nth_indep _ [] (names_at t [])) by lia. rewrite map_nth. unfold py_inds in Ey. fold c in Ey.
      assert (Hv' : v < length (inds c)) by lia. rewrite (get_some (nth_error_nth' (inds c) [] Hv')) in Ey. cbn [bind] in Ey.
      assert (F : nth v (firstn n (inds c)) [] = nth v (inds c) []). { rewrite <- (firstn_skipn n (inds c)) at 2. rewrite app_nth1 by (rewrite firstn_length; lia). auto. }
      rewrite F. assert (M : mapM (get order) (bpositions (nth v (inds c) [])) = Ok (names_at t (nth v (inds c) []))).
      { apply mapM_ok. intros i Hi. apply bpositions_in in Hi. apply get_some. apply nth_error_nth'. eapply pos_lt; eauto. apply nth_In. auto. }
      unfold names_of in Ey. fold order in Ey. congruence. }
    rewrite Eq. split; [intros H; exists ys; auto|intros (zs & Ez & Hz); congruence]. }
  rewrite all2_forall. split.
  - intros F. pose proof (forall2_len F) as L. split; [lia|]. intros v x Hv. apply (Permutation_in _ leaves_seq) in Hv. apply in_seq in Hv.
    rewrite <- Nx by (fold n in Hv; lia). assert (Fv : same_set (nth v (map (names_at t) (firstn n (inds c))) []) (nth v ts []) = true).
    { assert (Hv' : v < length (map (names_at t) (firstn n (inds c)))) by (fold n in Hv; lia). clear - F Hv'. revert v Hv'. induction F as [|a b l k H F IH]; intros v Hv; simpl in *; [lia|]. destruct v; auto. apply IH. lia. }
    apply (proj1 (same_set_iff _ _) Fv).
  - intros [L H]. assert (F : forall v, v < n -> same_set (nth v (map (names_at t) (firstn n (inds c))) []) (nth v ts []) = true).
    { intros v Hv. apply same_set_iff. intros x. rewrite Nx by auto. apply H. apply (Permutation_in _ (Permutation_sym leaves_seq)). apply in_seq. fold n. lia. }
    apply (@forall2_nth n); auto; lia.
Qed.

Lemma valid_check : ctree_is_valid c chk = true <-> (chk = true -> shares t T).
Proof.
  destruct chk eqn:C; [|split; [discriminate|intros _; exact (ov_valid O)]].
  destruct (valid_core (tree_of_wfl HT) (ov_valid O)) as (HC & HD & _). split.
  - intros V _ p l r HS. destruct HT as (U & _). destruct (inner_node U HS) as (q & E).
    destruct (valid_all_share V E) as (i & A & B). apply has_ix in A. apply has_ix in B. destruct A as [A1 A2], B as [B1 B2].
    assert (Li : i < length order). { unfold c in *. rewrite (len_inds O) in A1. eapply (bit_lt O); eauto. }
    assert (Ei : nth_error order i = Some (nth i order 0)) by (apply nth_error_nth'; auto). unfold c in *. rewrite (len_inds O) in *.
    exists (nth i order 0). split; eapply (reported_bit O); eauto.
  - intros SH. specialize (SH eq_refl). apply (core_valid HC HD). intros _ v a b K.
    assert (X : forall a b q, nth_error (nodes c) v = Some (mkNode (Some a) (Some b) q) -> exists i, btest (ix (inds c) a) i = true /\ btest (ix (inds c) b) i = true).
    { intros x y q E. pose proof HT as (U & _). destruct (node_inner U (p := v) (a := x) (b := y) (q' := q)) as (l & r & HS & <- & <-); auto.
      { apply (tree_of_in HT). eapply nth_error_lt; eauto. }
      assert (Hl : top l < length (nodes (core t))). { eapply (pos_lt_T HT HS). simpl. right. apply in_or_app. left. destruct l; simpl; auto. }
      assert (Hr : top r < length (nodes (core t))). { eapply (pos_lt_T HT HS). simpl. right. apply in_or_app. right. destruct r; simpl; auto. }
      destruct (SH _ _ _ HS) as (z & A & B). destruct (reported_known O A) as (i & Ei). exists i.
      apply (reported_bit O Hl Ei) in A. apply (reported_bit O Hr Ei) in B. auto. }
    destruct (kids2_lt (tree_of_wfl HT) K) as (Lv & La & Lb).
    apply bintersects_spec; [rewrite !(co_sz HC) by auto; auto|]. destruct K as (q & [E|E]); destruct (X _ _ _ E) as (i & A & B); exists i; auto.
Qed.

Lemma out_check : exists xs, output_inds t = Ok xs /\ NoDup xs /\ (forall x, In x xs <-> reported t (top T) x).
Proof.
  destruct (node_inds O (v := top T)) as (xs & E & N & H); [apply (top_lt HT (sub_here T))|]. exists xs. split; [|split; auto].
  - unfold output_inds. fold c. pose proof (len_inds O) as L. fold c in L. rewrite L. destruct HT as (_ & _ & Htop & _). fold c in Htop. rewrite Htop in E.
    destruct (length (nodes c)) as [|k] eqn:Lk; [exfalso; apply (ov_some O); apply length_zero_iff_nil; exact Lk|]. simpl in E. rewrite Nat.sub_0_r in E. auto.
  - intros x. split; [intros Hx; exists xs; auto|intros (ys & Ey & Hy); congruence].
Qed.

(** ** Everything but the dimensions and the sharing *)
Section Exact.
Hypothesis HL : length ts = length (leaves T).
Hypothesis HA : forall x, In x order <-> In x (concat ts).
Hypothesis HV : forall v x, In v (leaves T) -> reported t v x <-> In x (nth v ts []).

Lemma leaf_bit i x v : nth_error order i = Some x -> In v (leaves T) -> bit i v = memb x (nth v ts []).
Proof. intros Ei Hv. apply eq_iff_eq_true. rewrite memb_In, <- HV by auto. symmetry. apply (reported_bit O); auto. apply leaf_lt. auto. Qed.
Lemma having_ts i x : nth_error order i = Some x -> having (bit i) T = length (filter (memb x) ts).
Proof.
  intros Ei. rewrite having_leaves. rewrite (filter_perm (bit i) leaves_seq).
  assert (Ln : n_leaves (nodes c) = length ts) by (rewrite HL, (Permutation_length leaves_seq), seq_length; auto). rewrite Ln.
  assert (E : filter (bit i) (seq 0 (length ts)) = filter (fun v => memb x (nth v ts [])) (seq 0 (length ts))).
  { apply filter_ext_in. intros v Hv. apply leaf_bit; auto. apply (Permutation_in _ (Permutation_sym leaves_seq)). rewrite Ln. auto. }
  rewrite E. clear. assert (G : forall s, length (filter (fun v => memb x (nth (v - s) ts [])) (seq s (length ts))) = length (filter (memb x) ts)).
  { induction ts as [|xs l IH]; intros s; simpl; auto. rewrite Nat.sub_diag. 
    assert (E : filter (fun v => memb x (match v - s with 0 => xs | S m => nth m l [] end)) (seq (S s) (length l)) = filter (fun v => memb x (nth (v - S s) l [])) (seq (S s) (length l))).
    { apply filter_ext_in. intros v Hv. apply in_seq in Hv. replace (v - s) with (S (v - S s)) by lia. auto. }
    destruct (memb x xs); simpl; rewrite E, IH; auto. }
  rewrite <- (G 0). f_equal. apply filter_ext. intros v. rewrite Nat.sub_0_r. auto.
Qed.
Lemma having_one i x : nth_error order i = Some x -> 1 <= having (bit i) T.
Proof.
  intros Ei. rewrite (having_ts Ei). assert (Hx : In x (concat ts)) by (apply HA; eapply nth_error_In; eauto). apply in_concat in Hx. destruct Hx as (xs & H1 & H2).
  apply filter_pos. exists xs. split; auto. apply memb_In. auto.
Qed.
Lemma having_below i x S : nth_error order i = Some x -> subtree S T -> in_tensors ts (leaves S) x <-> 1 <= having (bit i) S.
Proof.
  intros Ei HS. rewrite having_leaves, filter_pos. unfold in_tensors. split; intros (v & Hv & H); exists v; split; auto.
  - rewrite (leaf_bit Ei) by (eapply sub_leaves; eauto). apply memb_In. auto.
  - rewrite (leaf_bit Ei) in H by (eapply sub_leaves; eauto). apply memb_In. auto.
Qed.
Lemma having_outside i x S : nth_error order i = Some x -> subtree S T ->
  (exists v, In v (leaves T) /\ ~ In v (leaves S) /\ In x (nth v ts [])) <-> having (bit i) S < having (bit i) T.
Proof.
  intros Ei HS. destruct (sub_split HS) as (rest & P). rewrite !having_leaves. rewrite (filter_perm (bit i) P), filter_app, app_length.
  assert (N : NoDup (leaves S ++ rest)) by (eapply Permutation_NoDup; [exact P|apply leaves_nodup; apply (tree_of_in HT)]).
  transitivity (1 <= length (filter (bit i) rest)); [|lia]. rewrite filter_pos. split.
  - intros (v & H1 & H2 & H3). exists v. split; [apply (Permutation_in _ P) in H1; apply in_app_or in H1; tauto|]. rewrite (leaf_bit Ei) by auto. apply memb_In. auto.
  - intros (v & H1 & H2). assert (Hv : In v (leaves T)) by (apply (Permutation_in _ (Permutation_sym P)); apply in_or_app; auto).
    exists v. split; auto. split; [apply nodup_app in N; destruct N as (_ & _ & N); intros C; exact (N _ C H1)|]. rewrite (leaf_bit Ei) in H2 by auto. apply memb_In. auto.
Qed.
Lemma exact_iff : (forall x, In x out -> In x order) ->
  (forall S x, subtree S T -> reported t (top S) x <-> in_tensors ts (leaves S) x /\ ((exists v, In v (leaves T) /\ ~ In v (leaves S) /\ In x (nth v ts [])) \/ In x out)) <->
  (forall i x, nth_error order i = Some x -> forall S, subtree S T -> bit i (top S) = true <-> 1 <= having (bit i) S /\ (having (bit i) S < having (bit i) T \/ memb x out = true)).
Proof.
  intros Ho. split.
  - intros H i x Ei S HS. rewrite <- (reported_bit O (top_lt HT HS) Ei), (H S x HS), (having_below Ei HS), (having_outside Ei HS), memb_In. tauto.
  - intros H S x HS. split.
    + intros R. destruct (reported_known O R) as (i & Ei). apply (reported_bit O (top_lt HT HS) Ei) in R. apply (H _ _ Ei S HS) in R.
      rewrite (having_below Ei HS), (having_outside Ei HS), <- memb_In. tauto.
    + intros [A B]. assert (Hx : In x order). { apply HA. destruct A as (v & Hv & Hx). apply in_concat. exists (nth v ts []). split; auto. apply nth_In. rewrite HL.
        assert (Hv' : In v (leaves T)) by (eapply sub_leaves; eauto). apply (Permutation_in _ leaves_seq) in Hv'. apply in_seq in Hv'. rewrite (Permutation_length leaves_seq), seq_length. lia. }
      apply In_nth_error in Hx. destruct Hx as (i & Ei). apply (reported_bit O (top_lt HT HS) Ei). apply (H _ _ Ei S HS).
      rewrite <- (having_below Ei HS), <- (having_outside Ei HS), memb_In. tauto.
Qed.

Hypothesis Hc : counts ts out h.
Hypothesis Hout : forall x, In x out <-> reported t (top T) x.
Lemma root_bit i x : nth_error order i = Some x -> bit i (top T) = memb x out.
Proof. intros Ei. apply eq_iff_eq_true. rewrite memb_In, Hout. symmetry. apply (reported_bit O); auto. apply (top_lt HT (sub_here T)). Qed.
Lemma hyper_check d' xs : positive d' -> (forall i x, nth_error order i = Some x -> val d' x = joins (bit i) T) -> (forall x, ~ In x order -> val d' x = 0) ->
  NoDup xs -> (forall x, In x xs <-> reported t (top T) x) ->
  (forall b, all_items (fun x v => let! k := dict_get h x in Ok (k =? Z.of_nat v)%Z) (fold_left incr (ord xs) d') = Ok b ->
    (b = true <-> forall S x, subtree S T -> reported t (top S) x <-> in_tensors ts (leaves S) x /\ ((exists v, In v (leaves T) /\ ~ In v (leaves S) /\ In x (nth v ts [])) \/ In x out))) /\
  exists b, all_items (fun x v => let! k := dict_get h x in Ok (k =? Z.of_nat v)%Z) (fold_left incr (ord xs) d') = Ok b.
Proof.
  intros P V V0 N Hx. assert (No : NoDup (ord xs)) by (eapply Permutation_NoDup; [apply Permutation_sym, Hord|auto]).
  destruct (fold_incr P No) as [P' V']. set (D := fold_left incr (ord xs) d') in *.
  assert (Hm : forall i x, nth_error order i = Some x -> memb x (ord xs) = bit i (top T)).
  { intros i x Ei. apply eq_iff_eq_true. rewrite memb_In. rewrite <- (reported_bit O (top_lt HT (sub_here T)) Ei), <- Hx. split; apply Permutation_in; [apply Hord|apply Permutation_sym, Hord]. }
  assert (VD : forall i x, nth_error order i = Some x -> val D x = joins (bit i) T + Nat.b2n (memb x out)).
  { intros i x Ei. rewrite V', (V _ _ Ei), (Hm _ _ Ei), (root_bit Ei). destruct (memb x out); simpl; lia. }
  assert (VN : forall x k, In (x, k) D -> In x order).
  { intros x k Hk. destruct (in_dec Nat.eq_dec x order) as [|Hn]; auto. exfalso. assert (1 <= val D x) by (apply (val_in x P'); eauto). rewrite V', V0 in H by auto.
    destruct (memb x (ord xs)) eqn:M; [|lia]. apply memb_In in M. apply (Permutation_in _ (Hord _)) in M. apply Hx in M. destruct (reported_known O M) as (i & Ei). apply Hn. eapply nth_error_In; eauto. }
  assert (Hv : forall x k, In (x, k) D -> k = val D x) by (intros x k Hk; unfold val; rewrite (P_Fuse.dict_get_in (proj1 P') Hk); auto).
  assert (Hh : forall i x, nth_error order i = Some x -> dict_get h x = Ok (Z.of_nat (having (bit i) T) - 1 + (if memb x out then 1 else 0))%Z).
  { intros i x Ei. rewrite (having_ts Ei). apply Hc. apply HA. eapply nth_error_In; eauto. }
  assert (Ho : forall x, In x out -> In x order). { intros x R. apply Hout in R. destruct (reported_known O R) as (i & Ei). eapply nth_error_In; eauto. }
  assert (M : (forall x v, In (x, v) D -> (let! k := dict_get h x in Ok (k =? Z.of_nat v)%Z) = Ok true) <-> forall i x, nth_error order i = Some x -> joins (bit i) T + 1 = having (bit i) T).
  { split.
    - intros H i x Ei. pose proof (having_one Ei) as K. pose proof (balance (local_T O HT i)) as B. pose proof (drops_le (bit i) T) as DL. pose proof (VD _ _ Ei) as Vx. pose proof (root_bit Ei) as Rb.
      destruct (Nat.eq_dec (val D x) 0) as [Z0|Z0].
      + rewrite Rb in B. destruct (memb x out); simpl in *; lia.
      + destruct (proj2 (val_in x P')) as (k & Hk); [lia|]. pose proof (H _ _ Hk) as G. rewrite (Hh _ _ Ei) in G. cbn [bind] in G. injection G as G. apply Z.eqb_eq in G.
        rewrite (Hv _ _ Hk), Vx in G. destruct (memb x out); simpl in *; lia.
    - intros H x v Hk. destruct (In_nth_error _ _ (VN _ _ Hk)) as (i & Ei). rewrite (Hh _ _ Ei). cbn [bind]. f_equal. apply Z.eqb_eq. rewrite (Hv _ _ Hk), (VD _ _ Ei). specialize (H _ _ Ei). destruct (memb x out); simpl; lia. }
  split.
  - intros b E. rewrite (exact_iff Ho). transitivity (all_items (fun x v => let! k := dict_get h x in Ok (k =? Z.of_nat v)%Z) D = Ok true); [rewrite E; split; congruence|].
    rewrite all_items_true, M. split.
    + intros H i x Ei S HS. apply counts_exact; auto; [apply (local_T O HT)|eapply having_one; eauto|apply root_bit; auto|eauto].
    + intros H i x Ei. eapply exact_counts; [apply (local_T O HT)|eapply having_one; eauto|apply H; eauto].
  - assert (G : forall D0, (forall x v, In (x, v) D0 -> In x order) -> exists b, all_items (fun x v => let! k := dict_get h x in Ok (k =? Z.of_nat v)%Z) D0 = Ok b).
    { induction D0 as [|[x v] D0 IH]; intros G; simpl; [eauto|]. destruct (In_nth_error _ _ (G x v (or_introl eq_refl))) as (i & Ei). rewrite (Hh _ _ Ei). cbn [bind].
      destruct (_ =? _)%Z; [|eauto]. apply IH. intros; eapply G; right; eauto. }
    apply G. exact VN.
Qed.
End Exact.

(** ** All the checks after the comparison with the copy *)
Definition checks : res bool :=
  let! b := match d with
            | PyInt k => all_items (fun _ v => Ok (k =? v)%N) (py_dims t)
            | PyDict l => all_items (fun x v => let! k := dict_get l x in Ok (k =? v)%N) (py_dims t)
            end in
  if negb b then Ok false else
  let! b := (let! xs := mapM (names_of (inds_order t)) (firstn (n_leaves (nodes (core t))) (inds (core t))) in
             Ok (all2 same_set xs ts && same_set (concat ts) (M_PyViews.all_inds t))) in
  if negb b then Ok false else
  if negb (ctree_is_valid (core t) chk) then Ok false else
  let! b := (let! xs := output_inds t in Ok (same_set xs out)) in
  if negb b then Ok false else
  let! r := count_shared ord t chk (nodes (core t)) [] in
  match r with
  | None => Ok false
  | Some c =>
      let! xs := output_inds t in
      all_items (fun x v => let! k := dict_get h x in Ok (k =? Z.of_nat v)%Z) (fold_left incr (ord xs) c)
  end.
Lemma checks_decide : counts ts out h ->
  (forall b, checks = Ok b -> (b = true <-> belongs t T ts d out /\ (chk = true -> shares t T))) /\
  (belongs t T ts d out /\ (chk = true -> shares t T) -> exists b, checks = Ok b).
Proof.
  intros Hc. unfold checks. match goal with |- context [bind ?x _] => destruct x as [bd|] eqn:Ed end; cbn [bind].
  2:{ split; [discriminate|]. intros [(_ & _ & B & _) _]. exfalso. clear - O B Ed.
      assert (G : forall x k, In (x, k) (py_dims t) -> dim_is d x k).
      { intros x k Hk. apply B. apply P_Fuse.dict_get_in; auto. unfold py_dims. destruct (ov_dims O) as (ds & L & E & _). rewrite E, expand_dims by auto. rewrite map_fst_combine by auto. apply (ov_nodup O). }
      revert G Ed. generalize (py_dims t) as D. destruct d as [l|k0]; intros D; induction D as [|[x v] D IH]; intros G Ed; simpl in *; try discriminate.
      - rewrite (G x v (or_introl eq_refl)) in Ed. cbn [bind] in Ed. rewrite N.eqb_refl in Ed. apply IH; auto.
      - destruct (k0 =? v)%N; [apply IH; eauto|discriminate].
}
  pose proof (dims_check Ed) as HD. destruct bd; cbn [negb].
  2:{ split; [|eauto]. intros b Eb. injection Eb as <-. split; [discriminate|]. intros [(_ & _ & B & _) _]. apply HD in B. discriminate. }
  destruct leaf_sets as (xs & Exs & HLV). unfold order, c in Exs. rewrite Exs. cbn [bind].
  destruct (all2 same_set xs ts && same_set (concat ts) (M_PyViews.all_inds t)) eqn:El; cbn [negb].
  2:{ split; [|eauto]. intros b Eb. injection Eb as <-. split; [discriminate|]. intros [(B1 & B2 & _ & B3 & _) _]. apply not_true_iff_false in El. exfalso. apply El. rewrite andb_true_iff. split; [apply HLV; auto|].
      apply same_set_iff. intros x. symmetry. apply B2. }
  apply andb_true_iff in El. destruct El as [El1 El2]. apply HLV in El1. destruct El1 as [HL HV]. rewrite same_set_iff in El2. unfold M_PyViews.all_inds in El2.
  assert (HA : forall x, In x order <-> In x (concat ts)) by (intros x; symmetry; apply El2).
  destruct (ctree_is_valid (core t) chk) eqn:Ev; cbn [negb].
  2:{ split; [|eauto]. intros b Eb. injection Eb as <-. split; [discriminate|]. intros [_ B]. apply valid_check in B. unfold c in B. congruence. }
  assert (HS := proj1 valid_check Ev). destruct out_check as (os & Eo & No & Ho). rewrite Eo. cbn [bind].
  destruct (same_set os out) eqn:Es; cbn [negb].
  2:{ split; [|eauto]. intros b Eb. injection Eb as <-. split; [discriminate|]. intros [(_ & _ & _ & _ & B & _) _]. apply not_true_iff_false in Es. exfalso. apply Es. apply same_set_iff. intros x. rewrite B. apply Ho. }
  rewrite same_set_iff in Es. assert (Hout : forall x, In x out <-> reported t (top T) x) by (intros x; rewrite <- Es; apply Ho).
  destruct (@count_loop t ord Hord O chk (nodes (core t)) (nodes_links O) []) as [(d' & E1 & E2 & E3 & E4 & _)|(E1 & E2 & n & Hn & E3)].
  - split; [constructor|intros ? ? []].
  - rewrite E1. cbn [bind]. destruct (@hyper_check HL HA HV Hc Hout d' os) as [H1 H2]; auto.
    { intros i x Ei. rewrite (E3 i x Ei). simpl. apply (joins_sum HT). }
    split; [|intros _; exact H2]. intros b Eb. rewrite (H1 b Eb). unfold belongs, M_PyViews.all_inds. split.
    + intros X. split; [|exact HS]. split; auto. split; auto. split; [apply HD; auto|]. split; auto.
    + tauto.
  - exfalso. specialize (HS E2). apply (shares_nodes O HT) with (n := n) in HS; auto.
Qed.
End Main.

Theorem valid_tree_decides t T ts d out h chk ord b : object_of t T -> (forall l, Permutation (ord l) l) -> counts ts out h ->
  is_valid_contraction_tree ord t (Some ts) (Some d) (Some out) (Some h) chk = Ok b ->
  (b = true <-> belongs t T ts d out /\ (chk = true -> shares t T)).
Proof.
  intros HO Ho Hc H. unfold is_valid_contraction_tree in H. destruct (pickle_decides HO Ho) as (x & Er & [[Eb OV]|[Eb _]]); rewrite Er in H; cbn [bind] in H; rewrite Eb in H; [|discriminate].
  cbn [bind] in H. rewrite pytree_eqb_refl in H. cbn [negb] in H. destruct (swaps _ _) as [ns|]; [|discriminate]. cbn [bind] in H. destruct (pytree_eqb _ t); [discriminate|].
  destruct HO as (HT & _). refine (proj1 (@checks_decide t T ord Ho OV HT ts d out h chk Hc) b _). rewrite <- H. unfold checks. destruct d; reflexivity.
Qed.
