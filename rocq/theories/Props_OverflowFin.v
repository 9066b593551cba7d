(** C70: costs that are too large for the cost type, finite width. *)
From Coq Require Import ZArith List Permutation Lia.
From Verif Require Import M_Base M_Bitset M_Tree M_CTree M_Cost M_Opt M_InfMem M_FinWidth M_Float M_FinFloat M_Overflow M_OverflowFin
  S_Tree S_Opt S_Float S_FinWidth S_FinFloat S_Overflow S_OverflowFin
  P_Approx P_FloatMain P_FinFloatNear P_TreeProps P_Canon P_InfMemFinal P_Overflow P_OverflowMain P_OverflowFin P_OverflowFinMain Props_Float Props_FinFloat Props_Overflow.
Import ListNotations.
Local Open Scope Z_scope.

(** ** No update throws, whatever overflows and is accepted; the undefined modulo of C17 is
    reached only if the indices that may not be sliced are too wide *)
Theorem C70_fw_runs : forall xa wa, range_ok xa -> forall (R : Type) (fr : xfrand R) c m maxnew r ds skip mc sl msl s0,
  xfw_built xa wa fr c m maxnew r ds skip mc sl msl s0 ->
  forall us, all_xshuffle us ->
  (exists s, xf_run xa wa us s0 = Ok s) \/
  (xf_run xa wa us s0 = Err Crash /\ (0 < maxnew)%nat /\
   forall e B lg, log_like lg -> waccurate e B lg wa -> widths_upto e B lg (fm_cm m) (dims c) (n_inds c) -> 0 <= fm_max m ->
     fm_max m < set_width lg (fm_cm m) (dims c) (n_inds c) (mem skip) + width_err (fm_cm m) (Z.of_nat (n_inds c)) * e).
Proof. exact c70f_runs. Qed.
Print Assumptions C70_fw_runs.

(** ** Trees and slices *)
Theorem C70_fw_trees_do_not_depend_on_the_range : forall xa wa, range_ok xa ->
  forall (R : Type) (fr : xfrand R) c m maxnew r ds skip mc sl msl s0,
  xfw_built xa wa fr c m maxnew r ds skip mc sl msl s0 ->
  forall us s out, all_xshuffle us -> xf_run xa wa us s0 = Ok s -> exact_inds c out ->
  exact_inds (xf_ct s) out /\ same_problem c (xf_ct s) /\
  ctree_is_valid (xf_ct s) (negb ds) = true /\ ctree_is_valid (xf_min_ct s) (negb ds) = true /\
  (mc = None -> exact_inds (xf_min_ct s) out /\ same_problem c (xf_min_ct s)).
Proof. exact c70f_trees. Qed.
Print Assumptions C70_fw_trees_do_not_depend_on_the_range.
Theorem C70_fw_skipped_indices_are_never_sliced : forall xa wa, range_ok xa ->
  forall (R : Type) (fr : xfrand R) c m maxnew r ds skip mc sl msl s0,
  xfw_built xa wa fr c m maxnew r ds skip mc sl msl s0 ->
  forall us s, all_xshuffle us -> xf_run xa wa us s0 = Ok s ->
  disjoint (mem (xf_sl s)) (mem skip) /\ disjoint (mem (xf_min_sl s)) (mem skip).
Proof. exact c70f_skip. Qed.
Print Assumptions C70_fw_skipped_indices_are_never_sliced.
Theorem C70_fw_tensors_fit : forall xa wa, range_ok xa ->
  forall (R : Type) (fr : xfrand R) c m maxnew r ds skip mc sl msl s0,
  xfw_built xa wa fr c m maxnew r ds skip mc sl msl s0 ->
  forall us s e B lg, log_like lg -> waccurate e B lg wa -> widths_upto e B lg (fm_cm m) (dims c) (n_inds c) -> 0 <= fm_max m ->
  fm_cm m = Simple \/ maxnew = 0%nat -> all_xshuffle us -> xf_run xa wa us s0 = Ok s ->
  all_fit lg (fm_cm m) (fm_max m + width_err (fm_cm m) (Z.of_nat (n_inds c)) * e) (n_inds c) (xf_ct s) (mem (xf_sl s)) /\
  all_fit lg (fm_cm m) (fm_max m + width_err (fm_cm m) (Z.of_nat (n_inds c)) * e) (n_inds c) (xf_min_ct s) (mem (xf_min_sl s)).
Proof. exact c70f_fit. Qed.
Print Assumptions C70_fw_tensors_fit.
Theorem C70_fw_fixed_slices_fit : forall xa wa, range_ok xa ->
  forall (R : Type) (fr : xfrand R) c m maxnew r ds skip mc sl msl s0,
  xfw_built xa wa fr c m maxnew r ds skip mc sl msl s0 ->
  forall us s, maxnew = 0%nat -> xno_reslice us -> all_xshuffle us -> xf_run xa wa us s0 = Ok s ->
  all_fit_rounded wa m (xf_ct s) (xf_sl s) /\ all_fit_rounded wa m (xf_min_ct s) (xf_min_sl s) /\ xf_sl s = xf_sl s0.
Proof. exact c70f_rfit. Qed.
Print Assumptions C70_fw_fixed_slices_fit.

(** ** The reported cost is about the cost of the sliced tree, or infinite if that is too
    large: it is never NaN, and an infinity does not outlive its tree and slices *)
Theorem C70_fw_reported_cost : forall xa wa, range_ok xa ->
  forall (R : Type) (fr : xfrand R) c m maxnew r ds skip mc sl msl s0,
  xfw_built xa wa fr c m maxnew r ds skip mc sl msl s0 ->
  forall q kp, (1 <= q)%nat -> accurate q kp (xr xa) ->
  forall us s, all_xshuffle us -> xf_run xa wa us s0 = Ok s ->
  exists T x z, tree_of (nodes (xf_ct s)) T /\ xf_total s = Ok x /\ reports xa x z /\
    approx q (2 * (n_inds c + kp + 1) + length (nodes c)) z (tree_cost (fm_cm m) (xf_ct s) (n_inds c) (mem (xf_sl s)) T).
Proof. exact c70f_total. Qed.
Print Assumptions C70_fw_reported_cost.

(** ** The best tree: its cost is always finite, never increases, and is at most every
    finite cost that was reported *)
Theorem C70_fw_best_is_finite_and_never_worse : forall xa wa, range_ok xa ->
  forall (R : Type) (fr : xfrand R) c m maxnew r ds skip mc sl msl s0,
  xfw_built xa wa fr c m maxnew r ds skip mc sl msl s0 ->
  forall q kp, (1 <= q)%nat -> accurate q kp (xr xa) ->
  forall us s, all_xshuffle us -> xf_run xa wa us s0 = Ok s ->
  exists z, xf_min s = Fin z /\
   (forall T, tree_of (nodes (xf_min_ct s)) T ->
      approx q (2 * (n_inds c + kp + 1) + length (nodes (xf_min_ct s))) z
        (tree_cost (fm_cm m) (xf_min_ct s) (n_inds c) (mem (xf_min_sl s)) T)) /\
   (forall us1 us2 s1, us = us1 ++ us2 -> xf_run xa wa us1 s0 = Ok s1 ->
      (exists z1, xf_min s1 = Fin z1 /\ z <= z1) /\ (us1 <> [] -> forall t, xf_total s1 = Ok (Fin t) -> z <= t)) /\
   (xf_min_ct s = xf_min_ct s0 /\ xf_min_sl s = xf_min_sl s0 /\ xf_min s = xf_min s0 \/
    exists us1 us2 s1, us = us1 ++ us2 /\ us1 <> [] /\ xf_run xa wa us1 s0 = Ok s1 /\
      xf_min_ct s = xf_ct s1 /\ xf_min_sl s = xf_sl s1 /\ xf_total s1 = Ok (Fin z)).
Proof. exact c70f_best. Qed.
Print Assumptions C70_fw_best_is_finite_and_never_worse.

(** ** A rule that refuses infinite increases and NaN, as the greedy one does, never leads
    to a contraction with an infinite cost, whatever slices are added or computed anew *)
Theorem C70_fw_greedy_contractions_stay_finite : forall xa wa, range_ok xa ->
  forall (R : Type) (fr : xfrand R) c m maxnew r ds skip mc sl msl s0,
  xfw_built xa wa fr c m maxnew r ds skip mc sl msl s0 ->
  forall q kp, (1 <= q)%nat -> accurate q kp (xr xa) ->
  forall us s, all_xshuffle us -> all_xrefuse us -> xf_run xa wa us s0 = Ok s ->
  forall v a b p, nth_error (nodes (xf_ct s)) v = Some (mkNode (Some a) (Some b) p) ->
  exists z, z <= xmax xa /\
    approx q (2 * (n_inds c + kp + 1)) z (step_cost (fm_cm m) (xf_ct s) (n_inds c) (mem (xf_sl s)) a b).
Proof. exact c70f_steps. Qed.
Print Assumptions C70_fw_greedy_contractions_stay_finite.
Theorem C70_fw_greedy_refuses : forall (R : Type) (fr : xfrand R),
  (forall r d t, fst (xaccept (xf_base fr) r d t) = xgreedy d) -> xrefuses fr.
Proof. intros R fr H r d t [-> | ->]; rewrite H; reflexivity. Qed.
Print Assumptions C70_fw_greedy_refuses.

(** ** is_valid: whoever reports an infinite cost is not valid *)
Theorem C70_fw_infinite_is_not_valid : forall xa wa (R : Type) (s : xf_state R) x,
  xf_total s = Ok x -> (forall z, x <> Fin z) -> xf_is_valid xa wa s = false.
Proof. exact c70f_not_valid. Qed.
Print Assumptions C70_fw_infinite_is_not_valid.

(** The network of Props_Overflow: single precision costs and widths, tensors of width up to
    70; the logarithms of the dimensions 3, 4 and 2^63 in units of 2^-52. *)
Definition log_o (d : N) : Z :=
  if (d =? 3)%N then 7138036527644008 else if (d =? 4)%N then 2 ^ 53 else if (d =? 2 ^ 63)%N then 63 * 2 ^ 52 else 0.
Lemma log_o_like : log_like log_o.
Proof. intros d _. unfold log_o. destruct (d =? 3)%N, (d =? 4)%N, (d =? 2 ^ 63)%N; vm_compute; discriminate. Qed.
Definition ow : warith := wfloat 24 53 log_o Z.eqb.
Definition of_m : fmodel := mkFM Simple (70 * 2 ^ 52).
Definition of_skip : bitset := fl_bits 4 [0]%nat.
(** Every move is accepted. *)
Definition of_rd : xrand nat := mkXRand (fun r => (Nat.div2 r, S r)) (fun r _ _ => (true, S r)).
Definition of_fr : xfrand nat := mkXFR of_rd (fun r l => (rev l, S r)).
Example of_shuffles : xshuffles of_fr.
Proof. intros r l. simpl. apply Permutation_sym, Permutation_rev. Qed.
Definition of_us (k : nat) : list (xfrand nat * bool) := repeat (of_fr, true) k.
Example of_all k : all_xshuffle (of_us k).
Proof. unfold of_us. induction k; constructor; auto. exact of_shuffles. Qed.
Example of_given : supplied_ok ov_c of_skip None None None.
Proof. split; [reflexivity|]. split; [intros k [H|H]; discriminate|intros c' H; discriminate]. Qed.
(** The cost is finite at first; the first update adds a slice, and the cost of the tree is
    then too large; the seventh leads back to a tree that needs no slices, which are dropped. *)
Example C70_fw_applies : range_ok xsgl /\ accurate 24 2 (xr xsgl) /\ log_like log_o /\
  waccurate (2 ^ 39) (2 ^ 60) log_o ow /\ widths_upto (2 ^ 39) (2 ^ 60) log_o Simple (dims ov_c) (n_inds ov_c) /\
  set_width log_o Simple (dims ov_c) (n_inds ov_c) (mem of_skip) + width_err Simple 4 * 2 ^ 39 <= fm_max of_m /\
  exact_inds ov_c ov_out /\ (forall k, all_xshuffle (of_us k)) /\
  exists s0 s1 s, xfw_built xsgl ow of_fr ov_c of_m 2 0%nat true of_skip None None None s0 /\ xf_total s0 = Ok (Fin 221360928884514619392) /\
    xf_run xsgl ow (of_us 1) s0 = Ok s1 /\ xf_total s1 = Ok PInf /\ xf_sl s1 <> xf_sl s0 /\ xf_min s1 = Fin 221360928884514619392 /\
    xf_run xsgl ow (of_us 7) s0 = Ok s /\ (exists z, xf_total s = Ok (Fin z)).
Proof.
  split; [apply float_range; lia|]. split; [apply (@float_accurate 24 24); lia|]. split; [exact log_o_like|].
  split; [apply (@wfloat_accurate 24 53 log_o Z.eqb ltac:(lia) ltac:(lia) log_o 24 60); try lia; intros d; rewrite Z.sub_diag; simpl Z.abs; lia|].
  split; [vm_compute; discriminate|]. split; [vm_compute; discriminate|]. split; [exact ov_exact|]. split; [exact of_all|].
  witness (xpy_fw_make xsgl ow of_fr ov_c of_m 2 0%nat true of_skip None None None).
  witness (let! s0 := xpy_fw_make xsgl ow of_fr ov_c of_m 2 0%nat true of_skip None None None in xf_run xsgl ow (of_us 1) s0).
  witness (let! s0 := xpy_fw_make xsgl ow of_fr ov_c of_m 2 0%nat true of_skip None None None in xf_run xsgl ow (of_us 7) s0).
  split; [constructor; [exact of_shuffles|exact (exact_wf ov_exact)|exact I|exact I|exact of_given|vm_compute; reflexivity]|].
  split; [vm_compute; reflexivity|]. split; [vm_compute; reflexivity|]. split; [vm_compute; reflexivity|]. split; [vm_compute; discriminate|]. split; [vm_compute; reflexivity|]. split; [vm_compute; reflexivity|]. eexists. vm_compute. reflexivity.
Qed.

(** The first move of the same optimizer, under the greedy rule and under one that accepts
    everything: refused by the first; the second leads to a contraction with an infinite cost. *)
Definition of_gr : xfrand nat := mkXFR (mkXRand (fun r => (Nat.div2 r, S r)) (fun r d _ => (xgreedy d, S r))) (fun r l => (rev l, S r)).
Example C70_fw_greedy_applies : all_xshuffle (repeat (of_gr, true) 7) /\ all_xrefuse (repeat (of_gr, true) 7) /\
  exists s0 s s', xfw_built xsgl ow of_fr ov_c of_m 2 0%nat true of_skip None None None s0 /\
    xf_run xsgl ow (repeat (of_gr, true) 7) s0 = Ok s /\ xf_total s = Ok (Fin 221360928884514619392) /\
    xf_run xsgl ow (of_us 1) s0 = Ok s' /\ In PInf (xf_cc s').
Proof.
  assert (F : forall (P : xfrand nat * bool -> Prop) k, P (of_gr, true) -> Forall P (repeat (of_gr, true) k)) by (intros P k H; induction k; constructor; auto).
  split; [apply F; exact of_shuffles|]. split; [apply F; apply C70_fw_greedy_refuses; reflexivity|].
  witness (xpy_fw_make xsgl ow of_fr ov_c of_m 2 0%nat true of_skip None None None).
  witness (let! s0 := xpy_fw_make xsgl ow of_fr ov_c of_m 2 0%nat true of_skip None None None in xf_run xsgl ow (repeat (of_gr, true) 7) s0).
  witness (let! s0 := xpy_fw_make xsgl ow of_fr ov_c of_m 2 0%nat true of_skip None None None in xf_run xsgl ow (of_us 1) s0).
  split; [constructor; [exact of_shuffles|exact (exact_wf ov_exact)|exact I|exact I|exact of_given|vm_compute; reflexivity]|].
  split; [vm_compute; reflexivity|]. split; [vm_compute; reflexivity|]. split; [vm_compute; reflexivity|]. vm_compute. tauto.
Qed.

(** Missing, as for infinite memory: an optimizer whose current tree has an infinite cost
    is not valid, and cannot be restored once it is pickled. *)
Theorem C70_fw_pickling_refuted : exists s0 s, xfw_built xsgl ow of_fr ov_c (mkFM Simple (130 * 2 ^ 52)) 0 0%nat true of_skip None (Some (fl_bits 4 [2]%nat)) None s0 /\
    xf_run xsgl ow (of_us 1) s0 = Ok s /\ xf_is_valid xsgl ow s0 = true /\ xf_restore xsgl ow of_fr s0 = Ok s0 /\
    xf_is_valid xsgl ow s = false /\ xf_restore xsgl ow of_fr s = Err Throw.
Proof.
  witness (xpy_fw_make xsgl ow of_fr ov_c (mkFM Simple (130 * 2 ^ 52)) 0 0%nat true of_skip None (Some (fl_bits 4 [2]%nat)) None).
  witness (let! s0 := xpy_fw_make xsgl ow of_fr ov_c (mkFM Simple (130 * 2 ^ 52)) 0 0%nat true of_skip None (Some (fl_bits 4 [2]%nat)) None in xf_run xsgl ow (of_us 1) s0).
  split.
  { constructor; [exact of_shuffles|exact (exact_wf ov_exact)|exact I|exact I| |vm_compute; reflexivity].
    split; [reflexivity|]. split; [|intros c' H; discriminate]. intros k [H|H]; [|discriminate]. injection H as <-. split; [reflexivity|]. intros x A B. do 4 (destruct x as [|x]; [vm_compute in A, B; discriminate|]). destruct x; discriminate. }
  split; [vm_compute; reflexivity|]. split; [vm_compute; reflexivity|]. split; [vm_compute; reflexivity|]. split; vm_compute; reflexivity.
Qed.
Print Assumptions C70_fw_pickling_refuted.
