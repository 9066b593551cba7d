(** The constructors succeed on the trees of components. *)
From Coq Require Import Permutation Sorted.
From Verif Require Import P_Base P_Opt P_PyMain.
From Verif Require Import M_Base M_Bitset M_Tree M_CTree M_Cost M_Opt M_InfMem S_Tree S_Opt.
From Verif Require Import P_Cost P_Canon P_Shape P_InfMem P_InfMemMain.
From Verif Require Import M_Path M_PyTree.
Set Implicit Arguments.
Unset Strict Implicit.

Lemma im_make_some (R : Type) c m (r : R) ds : cmodel_ok m (n_inds c) -> well_formed (nodes c) -> 1 < length (nodes c) ->
  ctree_is_valid c (negb ds) = true -> exists s0, im_make c m r ds None = Ok s0.
Proof.
  intros Hm W HL V. pose proof W as W'. apply wf_iff in W'. destruct (valid_core W' V) as (HC & HD & _).
  destruct (ccost_exists (ccost_ucost m (dims c)) HC) as (ks & HK).
  destruct (pcost_exists ks W') as (ps & HP). destruct (hyper_exists HC) as (hs & HH). destruct (wfl_tree_of W') as (T & HT).
  set (s := mkIM c ds r c m (mkCC ps ks) hs (code_cost m c T)).
  assert (HI : inv s (n_inds c) none) by (constructor; auto).
  assert (Hmn : the_min s) by apply (get_cost_tree m HC HT).
  pose proof (code_cost_pos HC HT HD Hm HL) as Hp.
  assert (Ht : tot s = code_cost m c T) by (apply (tot_tree HI HT)).
  exists s. change (im_make c m r ds (Some c) = Ok s). apply (@im_make_ok R c m r ds c s (n_inds c)); auto. rewrite Ht. auto.
Qed.

Lemma pytree_valid p ts d output chk t : pytree_make p ts d output chk = Ok t -> ctree_is_valid (M_PyTree.core t) chk = true.
Proof.
  unfold pytree_make. destruct (length p =? 0); [discriminate|]. cbn zeta.
  destruct (contraction_from p (length ts) (seq 0 (length ts))) as [c|]; [|discriminate]. cbn [bind].
  destruct (get_all ts (used_tensors (length ts) c)) as [uts|]; [|discriminate]. cbn [bind].
  destruct (outputs (concat uts) output) as [out|]; [|discriminate]. cbn [bind].
  destruct (build_tensors _ _ _ _) as [ts1|]; [|discriminate]. cbn [bind].
  destruct (link_all _ _ _) as [zn|]; [|discriminate]. cbn [bind].
  destruct (get_all ts1 _) as [ts2|]; [|discriminate]. cbn [bind].
  destruct (dims_of _ _) as [ds|]; [|discriminate]. cbn [bind].
  destruct (make_nodes _) as [ns|]; [|discriminate]. cbn [bind].
  destruct (mapM _ _) as [xs|]; [|discriminate]. cbn [bind].
  unfold ctree_make_pos. destruct (tree_make ns) as [tr|]; [|discriminate]. cbn [bind].
  destruct (build_inds _ _) as [bs|]; [|discriminate]. cbn [bind]. cbn zeta.
  destruct (ctree_is_valid _ chk) eqn:E; [|discriminate]. cbn [bind]. intros H. inversion H; subst. auto.
Qed.
