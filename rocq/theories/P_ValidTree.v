(** is_valid_contraction_tree tells whether a tree belongs to a network. *)
From Coq Require Import QArith ZArith NArith List Permutation Lia Bool.
From Verif Require Import P_Base P_Opt P_PyMain.
From Verif Require Import M_Base M_Bitset M_Tree M_CTree M_Path M_PyTree M_PyNodes M_PyViews M_ValidTree S_Tree S_Opt S_Path S_PyTree S_PyViews S_ValidTree.
From Verif Require Import P_Bitset P_Split P_Path P_PathMain P_Canon P_Shape P_TreeValid P_PyRun P_PyPath P_PyFinal P_InfMem P_InfMemFinal P_PyNodes P_PyViews P_ValidCount P_ValidPickle.
From Verif Require P_Fuse P_Amplitude P_Kronecker.
From Verif Require Import M_Path M_PyTree.
Import ListNotations.
Set Implicit Arguments. Unset Strict Implicit.
Local Open Scope nat_scope.
Local Notation core := M_PyTree.core.

Lemma all2_forall A B (f : A -> B -> bool) l : forall k, all2 f l k = true <-> Forall2 (fun x y => f x y = true) l k.
Proof.
  induction l as [|x l IH]; intros [|y k]; simpl; split; intros H; try discriminate; try constructor; auto; try (inversion H; fail).
  - apply andb_true_iff in H. tauto.
  - apply andb_true_iff in H. apply IH. tauto.
  - inversion H; subst. rewrite andb_true_iff. split; auto. apply IH. auto.
Qed.
Lemma all2_refl A (f : A -> A -> bool) l : (forall x, f x x = true) -> all2 f l l = true.
Proof. intros H. induction l; simpl; auto. rewrite H. auto. Qed.
Lemma oeqb_refl a : oeqb a a = true.
Proof. destruct a; simpl; auto. apply Nat.eqb_refl. Qed.
Lemma pytree_eqb_refl t : pytree_eqb t t = true.
Proof.
  unfold pytree_eqb, ctree_eqb. rewrite !andb_true_iff. split; [split; [split|]|].
  - apply all2_refl. intros n. unfold node_eqb. rewrite !oeqb_refl. auto.
  - apply all2_refl. intros b. apply all2_refl. intros []; auto.
  - destruct (dims (core t)); simpl; [apply N.eqb_refl|apply all2_refl; apply N.eqb_refl].
  - apply all2_refl. apply Nat.eqb_refl.
Qed.
Lemma same_set_iff l k : same_set l k = true <-> forall x, In x l <-> In x k.
Proof.
  unfold same_set. rewrite andb_true_iff, !forallb_forall. split.
  - intros [A B] x. split; intros H; [apply A in H|apply B in H]; apply memb_In; auto.
  - intros H. split; intros x Hx; apply memb_In; apply H; auto.
Qed.

(** ** Dictionaries of counts *)
Definition val (d : list (nat * nat)) (x : nat) : nat := match dict_get d x with Ok k => k | Err _ => 0 end.
Definition positive (d : list (nat * nat)) : Prop := NoDup (map fst d) /\ forall x k, In (x, k) d -> 1 <= k.
Lemma val_incr d x y : val (incr d x) y = val d y + (if y =? x then 1 else 0).
Proof. unfold val, incr. rewrite dict_get_set. destruct (Nat.eqb_spec y x) as [->|]; lia. Qed.
Lemma positive_incr d x : positive d -> positive (incr d x).
Proof.
  intros [N H]. split; [apply P_Amplitude.dict_set_nd; auto|]. intros y k Hy. apply P_Kronecker.dict_set_mem in Hy. destruct Hy as [[-> ->]|Hy]; [lia|eauto].
Qed.
Lemma fold_incr l : forall d, positive d -> NoDup l -> positive (fold_left incr l d) /\ forall y, val (fold_left incr l d) y = val d y + (if memb y l then 1 else 0).
Proof.
  induction l as [|x l IH]; intros d P N; simpl; [split; auto|]. inversion N; subst. destruct (IH (incr d x) (positive_incr x P) H2) as [A B].
  split; auto. intros y. rewrite B, val_incr. unfold memb at 2. simpl. fold (memb y l). destruct (Nat.eqb_spec y x) as [->|]; simpl; [|lia].
  destruct (memb x l) eqn:E; [apply memb_In in E; contradiction|lia].
Qed.
Lemma val_in d x : positive d -> (exists k, In (x, k) d) <-> 1 <= val d x.
Proof.
  intros [N H]. unfold val. split.
  - intros (k & Hk). rewrite (P_Fuse.dict_get_in N Hk). eauto.
  - destruct (dict_get d x) as [k|] eqn:E; [|lia]. intros _. exists k. apply P_Fuse.dict_get_key. auto.
Qed.

Lemma all_items_true V (f : nat -> V -> res bool) d : all_items f d = Ok true <-> forall x v, In (x, v) d -> f x v = Ok true.
Proof.
  induction d as [|[x v] d IH]; simpl; [split; auto; intros; contradiction|]. destruct (f x v) as [b|e] eqn:E; cbn [bind].
  - destruct b.
    + rewrite IH. split; intros H; [intros y w [G|G]; [injection G as <- <-; auto|auto]|auto].
    + split; intros H; [discriminate|]. specialize (H x v (or_introl eq_refl)). congruence.
  - split; intros H; [discriminate|]. specialize (H x v (or_introl eq_refl)). congruence.
Qed.

Section Tree.
Variables (t : pytree) (T : bt) (ord : list nat -> list nat).
Hypothesis Hord : forall l, Permutation (ord l) l.
Hypothesis O : over t (core t).
Hypothesis HT : tree_of (nodes (core t)) T.
Let c := core t.
Let order := inds_order t.
Definition bit (i v : nat) : bool := btest (ix (inds c) v) i.

Lemma len_inds : length (inds c) = length (nodes c).
Proof. exact (v_inds_len O). Qed.
Lemma node_inds v : v < length (nodes c) -> exists xs, py_inds t v = Ok xs /\ NoDup xs /\ forall x, In x xs <-> exists i, nth_error order i = Some x /\ bit i v = true.
Proof.
  intros Hv. rewrite <- len_inds in Hv. assert (E := nth_error_nth' (inds c) [] Hv).
  destruct (@names_list t c O (nth v (inds c) [])) as (l & El & N & Hl); [apply (ov_len O); apply nth_In; auto|].
  exists l. split; [|split; auto]. unfold py_inds. fold c. rewrite (get_some E). cbn [bind]. auto.
Qed.
Lemma reported_bit v i x : v < length (nodes c) -> nth_error order i = Some x -> reported t v x <-> bit i v = true.
Proof.
  intros Hv Ei. destruct (node_inds Hv) as (xs & E & N & H). split.
  - intros (ys & Ey & Hy). rewrite E in Ey. injection Ey as <-. apply H in Hy. destruct Hy as (j & Ej & Hb).
    assert (i = j); [|subst; auto]. apply (proj1 (NoDup_nth_error order) (ov_nodup O)); [eapply nth_error_lt; eauto|congruence].
  - intros Hb. exists xs. split; auto. apply H. eauto.
Qed.
Lemma reported_known v x : reported t v x -> exists i, nth_error order i = Some x.
Proof.
  intros (xs & E & Hx). unfold py_inds in E. fold c in E. destruct (get (inds c) v) as [b|] eqn:G; [|discriminate]. cbn [bind] in E.
  assert (Hb : In b (inds c)). { unfold get in G. destruct (nth_error (inds c) v) eqn:Ev; [|discriminate]. injection G as ->. eapply nth_error_In; eauto. }
  destruct (@names_list t c O b) as (l & El & N & Hl); [apply (ov_len O); auto|]. rewrite El in E. injection E as <-. apply Hl in Hx. destruct Hx as (i & Ei & _). eauto.
Qed.
Lemma tree_core : P_Opt.core (nodes c) (inds c) (n_inds c).
Proof. exact (proj1 (valid_core (tree_of_wfl HT) (ov_valid O))). Qed.
Lemma pos_lt_T S : subtree S T -> forall p, In p (positions S) -> p < length (nodes c).
Proof. intros HS p Hp. apply (tree_of_in HT). eapply subtree_in; eauto. Qed.
Lemma top_lt S : subtree S T -> top S < length (nodes c).
Proof. intros HS. eapply pos_lt_T; eauto. destruct S; simpl; auto. Qed.
Lemma unfolds_local i S : forall q, unfolds (nodes c) q S -> local (bit i) S.
Proof.
  induction S as [p|p l IHl r IHr]; intros q HU; simpl in *; auto. destruct HU as (HN & Ul & Ur). split; [eauto|]. split; [eauto|].
  assert (K : kids2 (nodes c) p (top l) (top r)) by (exists q; auto). destruct (co_loc tree_core K i) as (A & B). unfold bit. auto.
Qed.
Lemma local_T i : local (bit i) T.
Proof. destruct HT as (U & _). eapply unfolds_local; eauto. Qed.
Lemma having_leaves h S : having h S = length (filter h (leaves S)).
Proof. induction S as [p|p l IHl r IHr]; simpl; [destruct (h p); auto|]. rewrite filter_app, app_length. lia. Qed.

(** ** The loop over the nodes *)
Definition both (i : nat) (n : node) : nat := match c0 n, c1 n with Some x, Some y => Nat.b2n (bit i x && bit i y) | _, _ => 0 end.
Definition links_ok (n : node) : Prop := match c0 n, c1 n with Some x, Some y => x < length (nodes c) /\ y < length (nodes c) | _, _ => True end.
Definition no_share (n : node) : Prop := match c0 n, c1 n with Some x, Some y => forall i, bit i x && bit i y = false | _, _ => False end.
Lemma bit_lt i v : v < length (nodes c) -> bit i v = true -> i < length order.
Proof.
  intros Hv H. unfold bit, ix in H. apply btest_lt in H. rewrite <- len_inds in Hv. pose proof (ov_len O (nth_In (inds c) [] Hv)) as E. unfold order. rewrite <- E. exact H.
Qed.
Lemma count_loop chk ns : (forall n, In n ns -> links_ok n) -> forall d, positive d ->
  (exists d', count_shared ord t chk ns d = Ok (Some d') /\ positive d' /\ (forall i x, nth_error order i = Some x -> val d' x = val d x + list_sum (map (both i) ns)) /\
     (forall x, ~ In x order -> val d' x = val d x) /\ (chk = true -> forall n, In n ns -> ~ no_share n)) \/
  (count_shared ord t chk ns d = Ok None /\ chk = true /\ exists n, In n ns /\ no_share n).
Proof.
  induction ns as [|n ns IH]; intros HL d P; simpl.
  { left. exists d. split; [reflexivity|]. split; [exact P|]. split; [intros; lia|]. split; [reflexivity|]. intros _ n []. }
  assert (HL' : forall n, In n ns -> links_ok n) by (intros; apply HL; simpl; auto). pose proof (HL n (or_introl eq_refl)) as Ln. unfold links_ok in Ln.
  destruct (c0 n) as [x|] eqn:E0; [destruct (c1 n) as [y|] eqn:E1|].
  2,3: destruct (IH HL' d P) as [(d' & A & B & C & D & E)|(A & -> & n' & B & C)];
    [left; exists d'; split; auto; split; auto; split; [intros i z Hz; rewrite (C i z Hz); unfold both; rewrite ?E0, ?E1; simpl; lia|];
       split; auto; intros Hc m [<-|Hm]; [unfold no_share; rewrite ?E0, ?E1; tauto|apply E; auto]
    |right; split; auto; split; auto; exists n'; auto].
  destruct Ln as [Lx Ly]. destruct (node_inds Lx) as (xs & Ex & Nx & Hx). destruct (node_inds Ly) as (ys & Ey & Ny & Hy). rewrite Ex, Ey. cbn [bind].
  set (l := ord (filter (fun i => memb i ys) xs)).
  assert (Nl : NoDup l) by (unfold l; eapply Permutation_NoDup; [apply Permutation_sym, Hord|apply NoDup_filter; auto]).
  assert (Hl : forall z, In z l <-> exists i, nth_error order i = Some z /\ bit i x && bit i y = true).
  { intros z. assert (Q : In z l <-> In z (filter (fun i => memb i ys) xs)) by (unfold l; split; apply Permutation_in; [apply Hord|apply Permutation_sym, Hord]).
    rewrite Q, filter_In, memb_In, Hx, Hy. split.
    - intros [(i & Ei & Bi) (j & Ej & Bj)]. assert (i = j) by (apply (proj1 (NoDup_nth_error order) (ov_nodup O)); [eapply nth_error_lt; eauto|congruence]).
      subst j. exists i. rewrite Bi, Bj. auto.
    - intros (i & Ei & B). apply andb_true_iff in B. destruct B. split; eauto. }
  destruct (chk && (length l =? 0)) eqn:C.
  { right. apply andb_true_iff in C. destruct C as [-> C]. apply Nat.eqb_eq in C. split; auto. split; auto. exists n. split; auto. unfold no_share. rewrite E0, E1.
    intros i. destruct (bit i x && bit i y) eqn:B; auto. exfalso. pose proof B as B'. apply andb_true_iff in B'. destruct B' as [B1 _].
    pose proof (bit_lt Lx B1) as Li. assert (Z : In (nth i order 0) l) by (apply Hl; exists i; split; auto; apply nth_error_nth'; auto).
    destruct l; [contradiction|discriminate]. }
  destruct (fold_incr P Nl) as [P' V']. destruct (IH HL' _ P') as [(d' & A & B & C' & D & E)|(A & -> & n' & B & C')].
  - left. exists d'. split; auto. split; auto. split; [|split].
    + intros i z Hz. rewrite (C' i z Hz), V'. unfold both at 2. rewrite E0, E1. simpl.
      assert (Q : memb z l = bit i x && bit i y).
      { apply eq_iff_eq_true. rewrite memb_In, Hl. split; [|eauto]. intros (j & Ej & Bj). assert (i = j); [|subst; auto].
        apply (proj1 (NoDup_nth_error order) (ov_nodup O)); [eapply nth_error_lt; eauto|congruence]. }
      rewrite Q. destruct (bit i x && bit i y); simpl; lia.
    + intros z Hz. rewrite (D z Hz), V'. destruct (memb z l) eqn:M; [|lia]. exfalso. apply memb_In, Hl in M. destruct M as (i & Ei & _). apply Hz. eapply nth_error_In; eauto.
    + intros -> m [<-|Hm]; [|apply E; auto]. simpl in C. unfold no_share. rewrite E0, E1. intros F. destruct l as [|z l'] eqn:El; [discriminate|].
      destruct (proj1 (Hl z)) as (i & _ & B'); [left; auto|]. rewrite F in B'. discriminate.
  - right. split; auto. split; auto. exists n'. auto.
Qed.

Lemma nodes_links n : In n (nodes c) -> links_ok n.
Proof.
  intros Hn. apply In_nth_error in Hn. destruct Hn as (p & Ep). unfold links_ok.
  destruct (c0 n) as [x|] eqn:E0; [|auto]. destruct (c1 n) as [y|] eqn:E1; [|auto].
  assert (V := ov_valid O). unfold ctree_is_valid in V. rewrite !andb_true_iff in V. destruct V as ((((V & _) & _) & _) & _).
  unfold tree_is_valid in V. rewrite !andb_true_iff in V. destruct V as ((((((V & _) & _) & _) & _) & _) & _). rewrite forallb_forall in V.
  specialize (V n (nth_error_In _ _ Ep)). rewrite !andb_true_iff in V. destruct V as (((_ & A) & B) & _). rewrite E0 in A. rewrite E1 in B. simpl in A, B. apply Nat.ltb_lt in A. apply Nat.ltb_lt in B. auto.
Qed.
Definition nd (p : nat) : node := nth p (nodes c) (mkNode None None None).
Lemma sum_positions f S : forall q, unfolds (nodes c) q S -> (forall p, f (mkNode None None p) = 0) ->
  list_sum (map (fun p => f (nd p)) (positions S)) = (fix sm S := match S with Lf _ => 0 | Nd p l r => sm l + sm r + f (nd p) end) S.
Proof.
  induction S as [p|p l IHl r IHr]; intros q HU F; simpl in *.
  - unfold nd. rewrite (nth_error_nth _ _ _ HU), F. auto.
  - destruct HU as (HN & Ul & Ur). rewrite map_app, list_sum_app, (IHl _ Ul F), (IHr _ Ur F). lia.
Qed.
Lemma list_sum_perm l k : Permutation l k -> list_sum l = list_sum k.
Proof. induction 1; simpl; lia. Qed.
Lemma nodes_sum f : (forall p, f (mkNode None None p) = 0) ->
  list_sum (map f (nodes c)) = (fix sm S := match S with Lf _ => 0 | Nd p l r => sm l + sm r + f (nd p) end) T.
Proof.
  intros F. destruct HT as (U & HP & _). rewrite <- (sum_positions U F).
  rewrite (list_sum_perm (Permutation_map (fun p => f (nd p)) HP)). f_equal. fold c.
  apply nth_ext with (d := 0) (d' := 0); [rewrite !map_length, seq_length; auto|]. intros k Hk. rewrite map_length in Hk.
  rewrite (nth_indep _ 0 (f (mkNode None None None))) by (rewrite map_length; auto). rewrite map_nth.
  rewrite (nth_indep (map _ (seq _ _)) 0 (f (nd 0))) by (rewrite map_length, seq_length; auto). rewrite (map_nth (fun p => f (nd p))), seq_nth by auto. auto.
Qed.
Lemma sum_joins i S : forall q, unfolds (nodes c) q S -> (fix sm S := match S with Lf _ => 0 | Nd p l r => sm l + sm r + both i (nd p) end) S = joins (bit i) S.
Proof.
  induction S as [p|p l IHl r IHr]; intros q HU; simpl in *; auto. destruct HU as (HN & Ul & Ur). rewrite (IHl _ Ul), (IHr _ Ur). unfold nd.
  rewrite (nth_error_nth _ _ _ HN). auto.
Qed.
Lemma joins_sum i : list_sum (map (both i) (nodes c)) = joins (bit i) T.
Proof. rewrite nodes_sum by auto. destruct HT as (U & _). eapply sum_joins; eauto. Qed.
Lemma inner_node S : forall q, unfolds (nodes c) q S -> forall p l r, subtree (Nd p l r) S -> exists q, nth_error (nodes c) p = Some (mkNode (Some (top l)) (Some (top r)) q).
Proof.
  induction S as [a|a l0 IHl r0 IHr]; intros q HU p l r HS; simpl in *; [inversion HS|]. destruct HU as (HN & Ul & Ur). inversion HS; subst; eauto.
Qed.
Lemma node_inner S : forall q, unfolds (nodes c) q S -> forall p a b q', In p (positions S) -> nth_error (nodes c) p = Some (mkNode (Some a) (Some b) q') ->
  exists l r, subtree (Nd p l r) S /\ top l = a /\ top r = b.
Proof.
  induction S as [z|z l0 IHl r0 IHr]; intros q HU p a b q' Hp E; simpl in *.
  - destruct Hp as [->|[]]. congruence.
  - destruct HU as (HN & Ul & Ur). destruct Hp as [->|Hp]; [exists l0, r0; split; [constructor|]; split; congruence|].
    apply in_app_or in Hp. destruct Hp as [Hp|Hp]; [destruct (IHl _ Ul _ _ _ _ Hp E) as (l & r & A & B)|destruct (IHr _ Ur _ _ _ _ Hp E) as (l & r & A & B)];
      exists l, r; split; auto; [apply sub_left|apply sub_right]; auto.
Qed.
Lemma shares_nodes : shares t T <-> forall n, In n (nodes c) -> ~ no_share n.
Proof.
  destruct HT as (U & HP & _). split.
  - intros SH n Hn. unfold no_share. destruct (c0 n) as [x|] eqn:E0; [|auto]. destruct (c1 n) as [y|] eqn:E1; [|auto]. intros F.
    destruct (In_nth_error _ _ Hn) as (p & Ep). destruct n as [a b q']. simpl in *. subst a b.
    destruct (node_inner U (p := p) (a := x) (b := y) (q' := q')) as (l & r & HS & <- & <-); auto.
    { apply (tree_of_in HT). eapply nth_error_lt; eauto. }
    destruct (SH _ _ _ HS) as (z & A & B). destruct (reported_known A) as (i & Ei).
    assert (Hl : top l < length (nodes c)). { eapply (pos_lt_T HS). simpl. right. apply in_or_app. left. destruct l; simpl; auto. }
    assert (Hr : top r < length (nodes c)). { eapply (pos_lt_T HS). simpl. right. apply in_or_app. right. destruct r; simpl; auto. }
    apply (reported_bit Hl Ei) in A. apply (reported_bit Hr Ei) in B. specialize (F i). rewrite A, B in F. discriminate.
  - intros H p l r HS. destruct (inner_node U HS) as (q & E). pose proof (H _ (nth_error_In _ _ E)) as N. unfold no_share in N. simpl in N.
    assert (Hl : top l < length (nodes c)). { eapply (pos_lt_T HS). simpl. right. apply in_or_app. left. destruct l; simpl; auto. }
    assert (Hr : top r < length (nodes c)). { eapply (pos_lt_T HS). simpl. right. apply in_or_app. right. destruct r; simpl; auto. }
    assert (G : existsb (fun i => bit i (top l) && bit i (top r)) (seq 0 (length order)) = true).
    { destruct (existsb _ _) eqn:Eb; auto. exfalso. apply N. intros i. destruct (bit i (top l) && bit i (top r)) eqn:B; auto.
      apply not_true_iff_false in Eb. exfalso. apply Eb. apply existsb_exists. exists i. split; auto. apply in_seq. apply andb_true_iff in B. destruct B as [B _]. apply bit_lt in B; auto. lia. }
    apply existsb_exists in G. destruct G as (i & Hi & B). apply in_seq in Hi. apply andb_true_iff in B. destruct B as [B1 B2].
    assert (Ei : nth_error order i = Some (nth i order 0)) by (apply nth_error_nth'; lia). exists (nth i order 0). split; eapply reported_bit; eauto.
Qed.
End Tree.
