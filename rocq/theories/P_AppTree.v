(** The tree of a component of the network, and the trees the optimizer makes of it. *)
From Coq Require Import Permutation Sorted.
From Verif Require Import P_Base P_Opt P_PyMain.
From Verif Require Import M_Base M_Bitset M_Tree M_CTree M_Cost M_Opt M_InfMem M_FinWidth M_Path M_PyTree M_PyNodes M_App S_Tree S_Opt S_FinWidth S_Path S_PyTree S_Random S_Network S_App.
From Verif Require Import P_Bitset P_Path P_Split P_PathMain P_Canon P_Shape P_TreeValid P_InfMem P_InfMemMain P_InfMemFinal P_PyRun P_PyPath P_PyFinal P_PyNodes P_AppNames P_AppMake.
From Verif Require Import M_Path M_PyTree.
Set Implicit Arguments.
Unset Strict Implicit.
Local Notation core := M_PyTree.core.
Local Notation hasx := S_Opt.has.
Local Notation has := S_Random.has.

Lemma occ_has ts l x : occurs ts l x <-> exists t, In t l /\ has ts t x.
Proof. split; [intros (t & xs & H1 & H2 & H3)|intros (t & H1 & xs & H2 & H3)]; [exists t; split; auto; exists xs; auto|exists t, xs; auto]. Qed.

Lemma has_dec ts v x : {has ts v x} + {~ has ts v x}.
Proof.
  destruct (nth_error ts v) as [xs|] eqn:E.
  - destruct (in_dec Nat.eq_dec x xs) as [H|H]; [left; exists xs; auto|right]. intros (ys & E' & H'). congruence.
  - right. intros (ys & E' & _). congruence.
Qed.
Lemma other_dec ts x v l : {u | In u l /\ u <> v /\ has ts u x} + {forall u, In u l -> has ts u x -> u = v}.
Proof.
  induction l as [|u l IH]; [right; intros u []|]. destruct IH as [(w & A & B & D)|IH]; [left; exists w; simpl; auto|].
  destruct (Nat.eq_dec u v) as [->|Hn]; [right; intros w [<-|Hw] Hh; auto|].
  destruct (has_dec ts u x) as [Hh|Hh]; [left; exists u; simpl; auto|right]. intros w [<-|Hw] Hw'; auto. contradiction.
Qed.

Lemma tree_uniq t T T' : tree_of t T -> tree_of t T' -> T = T'.
Proof. intros (U & _ & H & _) (U' & _ & H' & _). eapply unfolds_unique; eauto. congruence. Qed.

Lemma carries_has c v x : carries c v x = true <-> hasx c v x.
Proof.
  unfold carries, S_Opt.has. destruct (nth_error (inds c) v) as [b|] eqn:E.
  - rewrite (@nth_error_nth bitset (inds c) v b (@nil bool) E). split.
    + intros H. exists b. split; auto. destruct (nth_error b x) as [y|] eqn:Ey; [rewrite (nth_error_nth _ _ false Ey) in H; subst; auto|].
      apply nth_error_None in Ey. rewrite nth_overflow in H by auto. discriminate.
    + intros (b' & E' & H). inversion E'; subst b'. apply (nth_error_nth _ _ false H).
  - apply nth_error_None in E. rewrite (@nth_overflow bitset (inds c) v (@nil bool) E). split.
    + destruct x; discriminate.
    + intros (b & E' & _). discriminate.
Qed.

Lemma term_tensors tp S : Permutation (tensors (term_of tp S)) (map (fun i => nth i tp 0) (leaves S)).
Proof. induction S as [q|q l IHl r IHr]; simpl; auto. rewrite (join_tensors _ _), IHl, IHr, map_app. auto. Qed.
Lemma term_in tp S v : In v (tensors (term_of tp S)) <-> exists l, In l (leaves S) /\ v = nth l tp 0.
Proof.
  split.
  - intros H. apply (Permutation_in _ (term_tensors tp S)) in H. apply in_map_iff in H. destruct H as (l & <- & H). eauto.
  - intros (l & H & ->). eapply Permutation_in; [symmetry; apply term_tensors|]. apply in_map_iff. eauto.
Qed.

Section Net.
Variables (ts : list (list nat)) (d : pydims) (out sparse : list nat) (np : option Z) (dim : nat -> N).
Hypothesis HK : network_ok ts d dim sparse np.

(** The open indices of a tree. *)
Definition opens (order : list nat) (i : nat) : Prop := exists x, nth_error order i = Some x /\ (lonely ts x \/ In x out).

Record built (root : term) (t : pytree) : Prop := {
  b_n     : n_tensors t = length ts;
  b_nodup : NoDup (tensors_pos t);
  b_in    : forall v, In v (tensors_pos t) <-> In v (tensors root);
  b_lt    : forall v, In v (tensors_pos t) -> v < length ts;
  b_len   : length (tensors_pos t) = n_leaves (nodes (core t));
  b_two   : 1 < length (nodes (core t));
  b_valid : ctree_is_valid (core t) true = true;
  b_over  : over t (core t);
  b_leaf  : forall l i, l < n_leaves (nodes (core t)) ->
              (hasx (core t) l i <-> exists x, nth_error (inds_order t) i = Some x /\ has ts (nth l (tensors_pos t) 0) x);
  b_exact : exact_inds (core t) (opens (inds_order t));
  b_dims  : forall i x, nth_error (inds_order t) i = Some x -> dimension (dims (core t)) i = Z.of_N (dim x);
  b_occ   : forall x, In x (inds_order t) <-> exists v, In v (tensors root) /\ has ts v x;
  b_shut  : forall v u x, In v (tensors root) -> has ts v x -> has ts u x -> In u (tensors root)
}.

Section Comp.
Variables (p : path) (cs : list term) (root : term).
Hypothesis HC : contracts_component ts p cs root.
Hypothesis Hp : p <> [].

Lemma shut v u x : In v (tensors root) -> has ts v x -> has ts u x -> In u (tensors root).
Proof. intros Hv H1 H2. destruct HC as (_ & _ & _ & H). apply (H v u Hv). eapply conn_step; [apply conn_refl|exact H1|exact H2]. Qed.

Lemma once_lonely x v : In v (tensors root) -> has ts v x -> (only_once ts (tensors root) x <-> lonely ts x).
Proof.
  intros Hv Hh. split; intros (t & H); exists t; intros u.
  - rewrite <- H. split; [|intros (_ & Hu); exact Hu]. intros Hu. split; auto. eapply shut; eauto.
  - rewrite <- H. split; [intros (_ & Hu); exact Hu|]. intros Hu. split; auto. eapply shut; eauto.
Qed.

Lemma comp_tree : exists t T, pytree_make p ts d (Some out) true = Ok t /\ built root t /\
  tree_of (nodes (core t)) T /\ term_of (tensors_pos t) T = root /\ Permutation (contractions (tensors_pos t) T) cs.
Proof.
  destruct HC as ((rest & Hpf & Hr) & Hin & Hsh & Hcon).
  destruct (@c21_tree ts p cs rest root d (Some out) true) as (t & T & E & En & Hsrt & Htp & HT & Et & Hc & HN & HO & Hinds & Hdims); auto.
  { apply (nk_nodup HK). }
  { intros x Hx. apply occ_has in Hx. destruct Hx as (v & _ & Hx). exists (dim x). apply (nk_dims HK Hx). }
  { discriminate. }
  { intros _ a b Hab. destruct (Hsh _ Hab) as (a' & b' & E & u & v & x & Hu & Hv & Hxu & Hxv). inversion E; subst a' b'.
    exists x. split; apply occ_has; eauto. }
  assert (HNt : NoDup (tensors_pos t)).
  { clear -Hsrt. induction Hsrt as [|a l H IH F]; constructor; auto. rewrite Forall_forall in F. intros Ha. specialize (F a Ha). lia. }
  destruct (build_root Hpf Hr Hin Hp) as (bs & R & HRT).
  assert (Hlt : forall v, In v (tensors_pos t) -> v < length ts).
  { intros v Hv. apply Htp in Hv. apply (rt_lf HRT) in Hv. apply (rt_lv HRT). auto. }
  assert (HL : length (tensors_pos t) = n_leaves (nodes (core t))).
  { pose proof (tree_of_size HT) as (SL & _). rewrite <- SL.
    assert (Permutation (tensors_pos t) (map (fun i => nth i (tensors_pos t) 0) (leaves T))) as PP; [|rewrite (Permutation_length PP), map_length; auto].
    rewrite <- (term_tensors (tensors_pos t) T), Et. apply NoDup_Permutation; auto. rewrite <- (rt_tm HRT).
    eapply Permutation_NoDup; [symmetry; apply tm_leaves|]. apply leaves_nodup, (rt_nd HRT). }
  assert (HLv : forall l, In l (leaves T) <-> l < n_leaves (nodes (core t))) by (intros l; apply HT).
  assert (Hroot : forall v, In v (tensors root) <-> exists l, In l (leaves T) /\ v = nth l (tensors_pos t) 0) by (intros v; rewrite <- Et; apply term_in).
  assert (Hleaf : forall l i, l < n_leaves (nodes (core t)) ->
              (hasx (core t) l i <-> exists x, nth_error (inds_order t) i = Some x /\ has ts (nth l (tensors_pos t) 0) x)).
  { intros l i Hl. assert (HS : subtree (Lf l) T) by (apply P_PyBuild.leaf_sub; apply HLv; auto).
    specialize (Hinds _ HS i). simpl in Hinds. rewrite Hinds. set (v := nth l (tensors_pos t) 0) in *.
    assert (Hv : In v (tensors root)) by (apply Hroot; exists l; split; auto; apply HLv; auto).
    split; intros (x & Ex & H); exists x; (split; [auto|]).
    - destruct H as (H & _). apply occ_has in H. destruct H as (w & [<-|[]] & H). auto.
    - split; [apply occ_has; exists v; simpl; auto|].
      destruct (other_dec ts x v (tensors root)) as [(u & H1 & H2 & ys & H3 & H4)|Ho].
      + left. exists u, ys. split; auto. split; auto. simpl. intros [E'|[]]; auto.
      + right. left. exists v. intros u. split; [intros (H1 & H2); apply Ho; auto|]. intros ->. split; auto. }
  exists t, T. split; auto. split; [|auto]. constructor; auto.
  - pose proof (tree_of_size HT) as (SL & SN & _). destruct T as [q|q l r]; [|].
    + simpl in Hc. apply Permutation_nil in Hc. destruct p as [|(a, b) p']; [congruence|]. unfold performs in Hpf. simpl in Hpf.
      destruct (a =? b); [discriminate|]. destruct (nth_error _ a); [|discriminate]. destruct (nth_error _ b); [|discriminate].
      destruct (perform _ p') as [(cs', r')|]; [|discriminate]. inversion Hpf. subst cs. discriminate.
    + destruct HT as (_ & HP & _). apply Permutation_length in HP. simpl in HP. rewrite seq_length, app_length in HP.
      pose proof (top_pos l). destruct (positions l); [contradiction|]. simpl in HP. lia.
  - eapply pytree_valid; eauto.
  - eapply over_make; eauto.
  - exists T. split; auto. intros S HS i. rewrite (Hinds S HS i). split.
    + intros (x & Ex & Ho & H). apply occ_has in Ho. destruct Ho as (v & Hv & Hx). apply term_in in Hv. destruct Hv as (l & Hl & ->).
      assert (HlT : In l (leaves T)) by (eapply sub_leaves; eauto).
      assert (Hvr : In (nth l (tensors_pos t) 0) (tensors root)) by (apply Hroot; eauto).
      split; [exists l; split; auto; apply Hleaf; [apply HLv; auto|eauto]|].
      destruct H as [(v & xs & H1 & H2 & H3 & H4)|[H|(o & Eo & H)]].
      * left. apply Hroot in H1. destruct H1 as (k & Hk & ->). exists k. split; auto. split.
        -- intros Hk'. apply H2. apply term_in. eauto.
        -- apply Hleaf; [apply HLv; auto|]. exists x. split; auto. exists xs. auto.
      * right. exists x. split; auto. left. eapply once_lonely; eauto.
      * right. inversion Eo; subst o. exists x. auto.
    + intros ((l & Hl & Hx) & H). assert (HlT : In l (leaves T)) by (eapply sub_leaves; eauto).
      apply Hleaf in Hx; [|apply HLv; auto]. destruct Hx as (x & Ex & Hx).
      assert (Hvr : In (nth l (tensors_pos t) 0) (tensors root)) by (apply Hroot; eauto).
      exists x. split; auto. split; [apply occ_has; eexists; split; [apply term_in; eauto|eauto]|].
      destruct H as [(k & Hk & Hk' & Hh)|(y & Ey & H)].
      * left. apply Hleaf in Hh; [|apply HLv; auto]. destruct Hh as (y & Ey & ys & H1 & H2).
        assert (y = x) by congruence. subst y. exists (nth k (tensors_pos t) 0), ys. split; [apply Hroot; eauto|]. split; auto.
        intros Hk2. apply term_in in Hk2. destruct Hk2 as (k2 & Hk2 & E2).
        assert (k = k2); [|subst; auto]. apply (proj1 (NoDup_nth (tensors_pos t) 0) HNt); [rewrite HL; apply HLv; auto| |auto].
        rewrite HL. apply HLv. eapply sub_leaves; eauto.
      * assert (y = x) by congruence. subst y. right. destruct H as [H|H]; [left; eapply once_lonely; eauto|right; eauto].
  - intros i x Ex. apply (Hdims i x). auto. assert (Hx : In x (inds_order t)) by (eapply nth_error_In; eauto).
    apply HO in Hx. apply occ_has in Hx. destruct Hx as (v & _ & Hx). apply (nk_dims HK Hx).
  - intros x. rewrite HO. apply occ_has.
  - intros v u x. apply shut.
Qed.
End Comp.

(** * A tree reached from the first one *)
Section Reached.
Variables (root : term) (t : pytree) (c : ctree) (T : bt).
Hypothesis HB : built root t.
Hypothesis HS : same_problem (core t) c.
Hypothesis HE : exact_inds c (opens (inds_order t)).
Hypothesis HT : tree_of (nodes c) T.
Let order := inds_order t.
Let tp := tensors_pos t.

Lemma r_leaves l : In l (leaves T) <-> l < length tp.
Proof.
  destruct HS as (_ & _ & _ & Ln & _). unfold tp. rewrite (b_len HB). unfold n_leaves. rewrite <- Ln. apply HT.
Qed.
Lemma r_leaf l i : In l (leaves T) -> (hasx c l i <-> exists x, nth_error order i = Some x /\ has ts (nth l tp 0) x).
Proof.
  intros Hl. apply r_leaves in Hl. unfold tp in Hl. rewrite (b_len HB) in Hl. destruct HS as (_ & _ & _ & Ln & _ & Hi & _).
  unfold order, tp. rewrite <- (b_leaf HB i Hl). unfold S_Opt.has. unfold n_leaves in Hl. rewrite Hi by auto. tauto.
Qed.
Lemma r_root v : In v (tensors root) <-> In v (tensors (term_of tp T)).
Proof.
  rewrite <- (b_in HB), term_in. fold tp. split.
  - intros H. apply (In_nth _ _ 0) in H. destruct H as (l & Hl & <-). exists l. split; auto. apply r_leaves. auto.
  - intros (l & Hl & ->). apply nth_In. apply r_leaves. auto.
Qed.
Lemma r_in v : In v (tensors root) <-> exists l, In l (leaves T) /\ v = nth l tp 0.
Proof. rewrite r_root. apply term_in. Qed.
Lemma r_inj k l : In k (leaves T) -> In l (leaves T) -> nth k tp 0 = nth l tp 0 -> k = l.
Proof. intros H1 H2 E. apply r_leaves in H1. apply r_leaves in H2. apply (proj1 (NoDup_nth tp 0) (b_nodup HB)); auto. Qed.

Lemma carried S : subtree S T -> forall i, hasx c (top S) i <-> exists x, nth_error order i = Some x /\ stays ts out (tensors (term_of tp S)) x.
Proof.
  intros Hsub i. destruct HE as (T' & HT' & Hex). rewrite (tree_uniq HT' HT) in Hex. rewrite (Hex S Hsub i). clear Hex HT' T'. split.
  - intros ((l & Hl & Hx) & H). assert (HlT : In l (leaves T)) by (eapply sub_leaves; eauto).
    apply r_leaf in Hx; auto. destruct Hx as (x & Ex & Hx). exists x. split; auto. split; [exists (nth l tp 0); split; auto; apply term_in; eauto|].
    destruct H as [(k & Hk & Hk' & Hh)|(y & Ey & H)].
    + right. right. apply r_leaf in Hh; auto. destruct Hh as (y & Ey & Hy). assert (y = x) by congruence. subst y. exists (nth k tp 0).
      split; [destruct Hy as (ys & Hy & _); eapply nth_error_lt; eauto|]. split; auto. intros H2. apply term_in in H2. destruct H2 as (k2 & H2 & E2).
      assert (k = k2); [|subst; auto]. apply r_inj; auto. eapply sub_leaves; eauto.
    + assert (E : y = x) by (unfold order in Ex; congruence). subst y. destruct H; auto.
  - intros (x & Ex & (v & Hv & Hx) & H). apply term_in in Hv. destruct Hv as (l & Hl & ->). assert (HlT : In l (leaves T)) by (eapply sub_leaves; eauto).
    split; [exists l; split; auto; apply r_leaf; eauto|]. destruct H as [H|[H|(u & Hu & Hn & Hh)]].
    + right. exists x. auto.
    + right. exists x. auto.
    + left. assert (Hur : In u (tensors root)). { eapply (b_shut HB); [|exact Hx|exact Hh]. apply r_in. eauto. }
      apply r_in in Hur. destruct Hur as (k & Hk & ->). exists k. split; auto. split; [|apply r_leaf; eauto].
      intros Hk'. apply Hn. apply term_in. eauto.
Qed.

(** ** Costs *)
Variables (m : cmodel) (sl : nat -> bool) (sls : list nat).
Hypothesis Hm : model_is order sparse np m.
Hypothesis Hsl : forall x, In x sls <-> exists i, nth_error order i = Some x /\ sl i = true.
Let n := length order.

Lemma r_dims i x : nth_error order i = Some x -> dimension (dims c) i = Z.of_N (dim x).
Proof. destruct HS as (_ & _ & -> & _). apply (b_dims HB). Qed.
Lemma r_nodup : NoDup order.
Proof. apply (ov_nodup (b_over HB)). Qed.

Lemma cost_app cs cs' k k' : cost_is ts out sparse np dim sls cs k -> cost_is ts out sparse np dim sls cs' k' ->
  cost_is ts out sparse np dim sls (cs ++ cs') (k + k').
Proof.
  induction 1 as [|a b cs l k Hl H IH]; simpl; auto. intros H'. rewrite <- Z.add_assoc. constructor; auto.
Qed.
Lemma cost_tree S : subtree S T -> cost_is ts out sparse np dim sls (contractions tp S) (tree_cost m c n sl S).
Proof.
  induction S as [q|q l IHl r IHr]; intros Hsub; [constructor|]. simpl contractions.
  assert (Sl : subtree l T) by (eapply P_PyRun.sub_trans; [apply sub_left; constructor|exact Hsub]).
  assert (Sr : subtree r T) by (eapply P_PyRun.sub_trans; [apply sub_right; constructor|exact Hsub]).
  unfold tree_cost. cbn [bt_cost]. fold (tree_cost m c n sl l) (tree_cost m c n sl r). rewrite <- Z.add_assoc.
  apply cost_app; auto. apply cost_app; auto.
  assert (E : step_cost m c n sl (top l) (top r) = values sparse np dim (named order (fun i => carries c (top l) i || carries c (top r) i || sl i))).
  { symmetry. apply (@values_named order sparse np dim (dims c)); auto; [intros i x; apply r_dims|apply (nk_projs HK)]. }
  rewrite E. set (ls := named order _) in *. rewrite <- (Z.add_0_r (values sparse np dim ls)).
  assert (HP : lists ls (fun x => stays ts out (tensors (term_of tp l)) x \/ stays ts out (tensors (term_of tp r)) x \/ In x sls)).
  { split; [apply named_nodup, r_nodup|]. intros x. unfold ls. rewrite named_in. split.
    - intros (i & Ei & H). apply orb_true_iff in H. destruct H as [H|H]; [apply orb_true_iff in H; destruct H as [H|H]|].
      + apply carries_has in H. apply (carried Sl) in H. destruct H as (y & Ey & H). assert (y = x) by congruence. subst. auto.
      + apply carries_has in H. apply (carried Sr) in H. destruct H as (y & Ey & H). assert (y = x) by congruence. subst. auto.
      + right. right. apply Hsl. eauto.
    - assert (Hin : forall S0, subtree S0 T -> stays ts out (tensors (term_of tp S0)) x -> exists i, nth_error order i = Some x /\ carries c (top S0) i = true).
      { intros S0 H0 Hx. assert (Hxo : In x order).
        { apply (b_occ HB). destruct Hx as ((v & Hv & Hx) & _). exists v. split; auto. apply r_root. apply term_in in Hv. destruct Hv as (k & Hk & ->). apply term_in. exists k. split; auto. eapply sub_leaves; eauto. }
        apply In_nth_error in Hxo. destruct Hxo as (i & Ei). exists i. split; auto. apply carries_has. apply (carried H0). eauto. }
      intros [H|[H|H]].
      + destruct (Hin _ Sl H) as (i & Ei & Hi). exists i. rewrite Hi. auto.
      + destruct (Hin _ Sr H) as (i & Ei & Hi). exists i. rewrite Hi, orb_true_r. auto.
      + apply Hsl in H. destruct H as (i & Ei & Hi). exists i. rewrite Hi, orb_true_r. auto. }
  unfold join. destruct (_ <=? _); (apply cost_one; [|constructor]); [exact HP|].
  destruct HP as (P1 & P2). split; auto. intros x. rewrite P2. tauto.
Qed.

(** ** Widths *)
Variables (lg : N -> Z) (mx : Z).
Hypothesis Hlg : log_like lg.
Lemma fits_tree S : subtree S T -> all_fit lg m mx n c sl -> fits ts out sparse np dim lg mx sls (tensors (term_of tp S)).
Proof.
  intros Hsub Hf. destruct HS as (_ & W & _ & Ln & Li & _).
  assert (Hv : top S < length (inds c)).
  { destruct (tree_of_in HT) as (_ & Hpos). assert (V0 := b_valid HB). unfold ctree_is_valid in V0. rewrite !andb_true_iff in V0. destruct V0 as ((((_ & V1) & _) & _) & _).
    apply Nat.eqb_eq in V1. rewrite Li, V1, <- Ln. apply Hpos. apply (sub_pos Hsub), top_pos. }
  specialize (Hf _ Hv). unfold node_fits in Hf. exists (named order (fun i => carries c (top S) i && negb (sl i))). split.
  - split; [apply named_nodup, r_nodup|]. intros x. rewrite named_in. split.
    + intros (i & Ei & H). apply andb_true_iff in H. destruct H as (H & H'). apply carries_has in H. apply (carried Hsub) in H.
      destruct H as (y & Ey & H). assert (y = x) by congruence. subst. split; auto. intros Hx. apply Hsl in Hx. destruct Hx as (j & Ej & Hj).
      assert (i = j). { apply (proj1 (NoDup_nth_error order) r_nodup); [eapply nth_error_lt; eauto|congruence]. } subst. rewrite Hj in H'. discriminate.
    + intros (H & Hn). assert (Hxo : In x order).
      { apply (b_occ HB). destruct H as ((v & Hv' & Hx) & _). exists v. split; auto. apply r_root. apply term_in in Hv'. destruct Hv' as (k & Hk & ->). apply term_in. exists k. split; auto. eapply sub_leaves; eauto. }
      apply In_nth_error in Hxo. destruct Hxo as (i & Ei). exists i. split; auto. apply andb_true_iff. split; [apply carries_has; apply (carried Hsub); eauto|].
      apply negb_true_iff. apply not_true_is_false. intros Hi. apply Hn. apply Hsl. eauto.
  - rewrite (@width_named order sparse np dim (dims c)) with (m := m); auto; [intros i x; apply r_dims|apply (nk_projs HK)].
Qed.
End Reached.

(** ** The path of the tree *)
Lemma contractions_sub names T c : In c (contractions names T) -> exists S, subtree S T /\ c = term_of names S /\ exists q l r, S = Nd q l r.
Proof.
  induction T as [q|q l IHl r IHr]; simpl; [intros []|]. rewrite !in_app_iff. intros [H|[H|[<-|[]]]].
  - destruct (IHl H) as (S & HS & E). exists S. split; auto. apply sub_left. auto.
  - destruct (IHr H) as (S & HS & E). exists S. split; auto. apply sub_right. auto.
  - exists (Nd q l r). split; [constructor|]. eauto 6.
Qed.

Lemma reached_path root t c T cs0 p0 : built root t -> same_problem (core t) c -> exact_inds c (opens (inds_order t)) -> tree_of (nodes c) T ->
  all_share c -> contracts_component ts p0 cs0 root ->
  exists q, py_path (mkPT c (n_tensors t) (tensors_pos t) (inds_order t)) = Ok q /\
    contracts_component ts q (contractions (tensors_pos t) T) (term_of (tensors_pos t) T).
Proof.
  intros HB HS HE HT Hsh HC0. destruct (@c22_path_tree (mkPT c (n_tensors t) (tensors_pos t) (inds_order t)) T) as (q & rest & un & Eq & Hq & Hr & Hun); auto.
  { simpl. rewrite (b_len HB). destruct HS as (_ & _ & _ & Ln & _). unfold n_leaves. rewrite Ln. auto. }
  { apply (b_nodup HB). }
  { simpl. rewrite (b_n HB). apply (b_lt HB). }
  simpl in Hq, Hr. rewrite (b_n HB) in Hq. exists q. split; auto. split; [|split; [|split]].
  - exists rest. split; auto. eapply Permutation_in; [symmetry; exact Hr|]. simpl. auto.
  - apply contractions_incl.
  - intros x Hx. apply contractions_sub in Hx. destruct Hx as (S & HSub & -> & k & l & r & ->).
    assert (Sl : subtree l T) by (eapply P_PyRun.sub_trans; [apply sub_left; constructor|exact HSub]).
    assert (Sr : subtree r T) by (eapply P_PyRun.sub_trans; [apply sub_right; constructor|exact HSub]).
    destruct HT as (HU & HT2). destruct (subtree_unfolds HSub HU) as (pq & HU'). simpl in HU'. destruct HU' as (Hnd & _).
    assert (HT : tree_of (nodes c) T) by (split; auto).
    destruct (Hsh _ _ _ _ Hnd) as (i & Hl & Hr').
    apply (carried HB HS HE HT Sl) in Hl. apply (carried HB HS HE HT Sr) in Hr'.
    destruct Hl as (x & Ex & (u & Hu & Hxu) & _). destruct Hr' as (y & Ey & (v & Hv & Hxv) & _). assert (y = x) by congruence. subst y.
    simpl. unfold join. destruct (_ <=? _); [exists (term_of (tensors_pos t) l), (term_of (tensors_pos t) r)|exists (term_of (tensors_pos t) r), (term_of (tensors_pos t) l)]; (split; [auto|]).
    + exists u, v, x. auto.
    + exists v, u, x. auto.
  - intros u v Hu. destruct HC0 as (_ & _ & _ & H0). rewrite <- !(r_root HB HS HT) in *. apply H0. auto.
Qed.
End Net.
