(** C49: costs and widths of the finite-width optimizer computed with rounded arithmetic. *)
From Coq Require Import ZArith List Lia.
From Verif Require Import M_Base M_Bitset M_Tree M_CTree M_Cost M_Opt M_InfMem M_FinWidth M_Float M_FinFloat S_Tree S_Opt S_Float S_FinWidth S_FinFloat
  P_InfMemFinal P_Approx P_FinFloatNear P_FinFloatMain P_TreeProps P_Canon Props_Tree Props_InfMem Props_FinWidth Props_Float.
Import ListNotations.
Local Open Scope Z_scope.

(** ** The arithmetic of the width types *)
Theorem C49_width_types_are_accurate : forall p pp lgd cl, (1 <= p)%nat -> (p <= pp)%nat ->
  forall lg q b, (q <= p)%nat -> (q <= b)%nat ->
  (forall d, 2 ^ Z.of_nat q * Z.abs (lgd d - lg d) <= Z.abs (lg d)) ->
  waccurate (2 ^ Z.of_nat (b + 3 - q)) (2 ^ Z.of_nat b) lg (wfloat p pp lgd cl).
Proof. exact wfloat_accurate. Qed.
Print Assumptions C49_width_types_are_accurate.
Theorem C49_width_types_are_monotone : forall p pp lgd cl, (1 <= p)%nat -> (p <= pp)%nat ->
  (forall d, (1 <= d)%N -> 0 <= lgd d) -> wmonotone (pbits p) (wfloat p pp lgd cl).
Proof. exact wfloat_monotone. Qed.
Print Assumptions C49_width_types_are_monotone.

(** ** Whatever the rounding: a run ends, or divides by zero while it adds slices *)
Theorem C49_runs : forall ar wa (R : Type) (fr : frand R) c m maxnew r ds skip mc sl msl s0,
  rfw_built ar wa fr c m maxnew r ds skip mc sl msl s0 ->
  forall us, all_shuffle us ->
  (exists s, rfw_run ar wa us s0 = Ok s) \/
  (rfw_run ar wa us s0 = Err Crash /\ (0 < maxnew)%nat /\
   forall e B lg, log_like lg -> waccurate e B lg wa -> widths_upto e B lg (fm_cm m) (dims c) (n_inds c) -> 0 <= fm_max m ->
     fm_max m < set_width lg (fm_cm m) (dims c) (n_inds c) (mem skip) + width_err (fm_cm m) (Z.of_nat (n_inds c)) * e).
Proof. exact g49_runs. Qed.
Print Assumptions C49_runs.

(** ** Whatever the rounding: no tree is lost, and kept indices are never sliced *)
Theorem C49_trees_do_not_depend_on_rounding : forall ar wa (R : Type) (fr : frand R) c m maxnew r ds skip mc sl msl s0,
  rfw_built ar wa fr c m maxnew r ds skip mc sl msl s0 ->
  forall us s out, all_shuffle us -> rfw_run ar wa us s0 = Ok s -> exact_inds c out ->
  exact_inds (fw_ct s) out /\ same_problem c (fw_ct s) /\
  ctree_is_valid (fw_ct s) (negb ds) = true /\ ctree_is_valid (fw_min_ct s) (negb ds) = true /\
  (mc = None -> exact_inds (fw_min_ct s) out /\ same_problem c (fw_min_ct s)) /\
  fw_m s = m /\ fw_ds s = ds /\ fw_maxnew s = maxnew /\ fw_skip_set s = skip.
Proof. exact g49_trees. Qed.
Print Assumptions C49_trees_do_not_depend_on_rounding.
Theorem C49_skipped_indices_are_never_sliced : forall ar wa (R : Type) (fr : frand R) c m maxnew r ds skip mc sl msl s0,
  rfw_built ar wa fr c m maxnew r ds skip mc sl msl s0 ->
  forall us s, all_shuffle us -> rfw_run ar wa us s0 = Ok s ->
  disjoint (mem (fw_sl s)) (mem skip) /\ disjoint (mem (fw_min_sl s)) (mem skip).
Proof. exact g49_skip. Qed.
Print Assumptions C49_skipped_indices_are_never_sliced.

(** ** Costs: close to the exact ones, however many updates were made *)
Theorem C49_reported_cost_is_close : forall ar wa (R : Type) (fr : frand R) c m maxnew r ds skip mc sl msl s0,
  rfw_built ar wa fr c m maxnew r ds skip mc sl msl s0 ->
  forall q kp, (1 <= q)%nat -> accurate q kp ar ->
  forall us s, all_shuffle us -> rfw_run ar wa us s0 = Ok s ->
  exists T t, tree_of (nodes (fw_ct s)) T /\ fw_total s = Ok t /\
    approx q (2 * (n_inds c + kp + 1) + length (nodes c)) t (tree_cost (fm_cm m) (fw_ct s) (n_inds c) (mem (fw_sl s)) T).
Proof. exact g49_total. Qed.
Print Assumptions C49_reported_cost_is_close.
Theorem C49_recorded_minimum_is_close : forall ar wa (R : Type) (fr : frand R) c m maxnew r ds skip mc sl msl s0,
  rfw_built ar wa fr c m maxnew r ds skip mc sl msl s0 ->
  forall q kp, (1 <= q)%nat -> accurate q kp ar ->
  forall us s, all_shuffle us -> rfw_run ar wa us s0 = Ok s ->
  forall T, tree_of (nodes (fw_min_ct s)) T ->
    approx q (2 * (n_inds c + kp + 1) + length (nodes (fw_min_ct s))) (fw_min s)
      (tree_cost (fm_cm m) (fw_min_ct s) (n_inds c) (mem (fw_min_sl s)) T).
Proof. exact g49_min. Qed.
Print Assumptions C49_recorded_minimum_is_close.
Theorem C49_best_is_never_worse : forall ar wa (R : Type) (fr : frand R) c m maxnew r ds skip mc sl msl s0,
  rfw_built ar wa fr c m maxnew r ds skip mc sl msl s0 ->
  forall us s, all_shuffle us -> rfw_run ar wa us s0 = Ok s ->
  (forall us1 us2 s1, us = us1 ++ us2 -> rfw_run ar wa us1 s0 = Ok s1 ->
     fw_min s <= fw_min s1 /\
     (us1 <> [] -> forall t1, fw_total s1 = Ok t1 -> fw_min s <= t1)) /\
  (fw_min_ct s = fw_min_ct s0 /\ fw_min_sl s = fw_min_sl s0 /\ fw_min s = fw_min s0 \/
   exists us1 us2 s1, us = us1 ++ us2 /\ us1 <> [] /\ rfw_run ar wa us1 s0 = Ok s1 /\
     fw_min_ct s = fw_ct s1 /\ fw_min_sl s = fw_sl s1 /\ fw_total s1 = Ok (fw_min s)).
Proof. exact g49_best. Qed.
Print Assumptions C49_best_is_never_worse.

(** ** Widths: sliced tensors exceed the maximum by rounding errors only. Missing:
    sparse models that add slices one by one, where C17 fails already with exact widths. *)
Theorem C49_slices_fit_up_to_rounding_partial : forall ar wa (R : Type) (fr : frand R) c m maxnew r ds skip mc sl msl s0,
  rfw_built ar wa fr c m maxnew r ds skip mc sl msl s0 ->
  forall us s e B lg, log_like lg -> waccurate e B lg wa -> widths_upto e B lg (fm_cm m) (dims c) (n_inds c) -> 0 <= fm_max m ->
  fm_cm m = Simple \/ maxnew = 0%nat -> all_shuffle us -> rfw_run ar wa us s0 = Ok s ->
  all_fit lg (fm_cm m) (fm_max m + width_err (fm_cm m) (Z.of_nat (n_inds c)) * e) (n_inds c) (fw_ct s) (mem (fw_sl s)) /\
  all_fit lg (fm_cm m) (fm_max m + width_err (fm_cm m) (Z.of_nat (n_inds c)) * e) (n_inds c) (fw_min_ct s) (mem (fw_min_sl s)).
Proof. exact g49_fit. Qed.
Print Assumptions C49_slices_fit_up_to_rounding_partial.
(** As the program computes widths they fit exactly while slices are not changed. *)
Theorem C49_rounded_widths_fit_partial : forall ar wa (R : Type) (fr : frand R) c m maxnew r ds skip mc sl msl s0,
  rfw_built ar wa fr c m maxnew r ds skip mc sl msl s0 ->
  forall us s, maxnew = 0%nat -> no_reslice us -> all_shuffle us -> rfw_run ar wa us s0 = Ok s ->
  all_fit_rounded wa m (fw_ct s) (fw_sl s) /\ all_fit_rounded wa m (fw_min_ct s) (fw_min_sl s) /\ fw_sl s = fw_sl s0.
Proof. exact g49_rfit. Qed.
Print Assumptions C49_rounded_widths_fit_partial.

(** ** Pickling, while slices are not changed *)
Theorem C49_pickling_keeps_trees_partial : forall ar wa (R : Type) (fr : frand R) c m maxnew r ds skip mc sl msl s0,
  rfw_built ar wa fr c m maxnew r ds skip mc sl msl s0 ->
  forall q kp, (1 <= q)%nat -> accurate q kp ar ->
  forall rep us s f, wmonotone rep wa -> (forall z, 0 <= z -> rclose ar z z = true) -> (forall z, wclose wa z z = true) ->
  (exists out, exact_inds c out) \/ ds = true -> maxnew = 0%nat -> no_reslice us ->
  all_shuffle us -> rfw_run ar wa us s0 = Ok s ->
  exists s', rfw_unpickle ar wa f (fw_pickle s) = Ok s' /\ fw_pickle s' = fw_pickle s.
Proof. exact g49_pickle. Qed.
Print Assumptions C49_pickling_keeps_trees_partial.

Theorem C49_is_valid_within_tolerance_partial : forall ar wa (R : Type) (fr : frand R) c m maxnew r ds skip mc sl msl s0,
  rfw_built ar wa fr c m maxnew r ds skip mc sl msl s0 ->
  forall q kp, (1 <= q)%nat -> accurate q kp ar ->
  forall us s, tolerates q (2 * (n_inds c + kp + 1) + length (nodes c)) ar -> (forall z, wclose wa z z = true) ->
  (exists out, exact_inds c out) \/ ds = true -> maxnew = 0%nat -> no_reslice us ->
  all_shuffle us -> rfw_run ar wa us s0 = Ok s -> rfw_is_valid ar wa s = true.
Proof. exact g49_is_valid. Qed.
Print Assumptions C49_is_valid_within_tolerance_partial.

(** ** Concrete networks. Widths are single precision (the default), computed from
    the logarithms of the C library in double precision; the unit is 2^-52. *)
Definition log_c (d : N) : Z :=
  if (d =? 2)%N then 2 ^ 52 else if (d =? 3)%N then 7138036527644008 else if (d =? 6)%N then 11641636155014504 else 0.
Definition sgw : warith := wfloat 24 53 log_c Z.eqb.

Lemma log_c_like : log_like log_c.
Proof. intros d _. unfold log_c. destruct (d =? 2)%N, (d =? 3)%N, (d =? 6)%N; vm_compute; discriminate. Qed.
(** The network of Props_FinWidth with dimension 3; tensors with three indices do not fit 3.5. *)
Definition wx_c : ctree := mkCT (nodes ex_c) (inds ex_c) (DInt 3).
Definition wx_m : fmodel := mkFM Simple (7 * 2 ^ 51).
Example wx_exact : exact_inds wx_c ex_out.
Proof. apply (@exact_check_ok wx_c 4 (fun x => (x =? 3)%nat) ex_bt ex_tree_of). vm_compute. reflexivity. Qed.
(** Computes a value and gives it as the witness. *)
Ltac witness r := let v := eval vm_compute in r in match v with Ok ?x => exists x end.

Example C49_applies :
  waccurate (2 ^ 35) (2 ^ 56) log_c sgw /\ widths_upto (2 ^ 35) (2 ^ 56) log_c Simple (dims wx_c) (n_inds wx_c) /\
  wmonotone (pbits 24) sgw /\ accurate 53 2 dbl /\ exact_inds wx_c ex_out /\ all_shuffle fx_us /\
  set_width log_c Simple (dims wx_c) (n_inds wx_c) (mem fx_skip) + width_err Simple 4 * 2 ^ 35 <= fm_max wx_m /\
  exists s0 s, rfw_built dbl sgw fx_fr wx_c wx_m 1 0%nat false fx_skip None None None s0 /\
    rfw_run dbl sgw fx_us s0 = Ok s /\ bany (fw_sl s0) = true /\ fw_ct s <> wx_c /\ fw_min s < fw_min s0.
Proof.
  split; [apply (@wfloat_accurate 24 53 log_c Z.eqb ltac:(lia) ltac:(lia) log_c 24 56); try lia; intros d; rewrite Z.sub_diag; simpl Z.abs; lia|].
  split; [vm_compute; discriminate|]. split; [apply wfloat_monotone; try lia; exact log_c_like|].
  split; [apply float_accurate; lia|]. split; [exact wx_exact|]. split; [exact fx_all|]. split; [vm_compute; discriminate|].
  witness (rpy_fw_make dbl sgw fx_fr wx_c wx_m 1 0%nat false fx_skip None None None).
  witness (let! s0 := rpy_fw_make dbl sgw fx_fr wx_c wx_m 1 0%nat false fx_skip None None None in rfw_run dbl sgw fx_us s0).
  split; [constructor|].
  - exact fx_shuffles.
  - exact (exact_wf wx_exact).
  - exact I.
  - apply fx_given. reflexivity.
  - vm_compute. reflexivity.
  - split; [vm_compute; reflexivity|]. vm_compute. repeat split; discriminate.
Qed.

(** ** What rounding breaks *)
Example pair_tree_of : tree_of [fl_leaf 2; fl_leaf 2; fl_node 0 1 None] (Nd 2 (Lf 0) (Lf 1)).
Proof.
  repeat split; auto.
  - simpl. apply Permutation.NoDup_Permutation; [repeat constructor; simpl; intuition discriminate..|intros x; simpl; tauto].
  - cbn. intuition lia.
  - cbn. intros H. do 2 (destruct p as [|p]; [tauto|]). lia.
Qed.
Example three_tree_of : tree_of [fl_leaf 3; fl_leaf 3; fl_leaf 4; fl_node 0 1 (Some 4%nat); fl_node 3 2 None] (Nd 4 (Nd 3 (Lf 0) (Lf 1)) (Lf 2)).
Proof.
  repeat split; auto.
  - simpl. apply Permutation.NoDup_Permutation; [repeat constructor; simpl; intuition discriminate..|intros x; simpl; tauto].
  - cbn. intuition lia.
  - cbn. intros H. do 3 (destruct p as [|p]; [tauto|]). lia.
Qed.
(** Missing 1: slices are searched with widths that are updated by differences, and
    checked with widths that are added up again. A tensor with
    seven indices of dimension 6, all but one shared with another tensor, and max_width=5*log2(6): the search stops at five
    indices, whose recomputed width is larger than the maximum, and the constructor
    raises; it accepts three slices if they are given. *)
Definition six (n : nat) : dims_t := DVec (repeat 6%N n).
Definition wf_pair : ctree := mkCT [fl_leaf 2; fl_leaf 2; fl_node 0 1 None]
  (map (fl_bits 7) [[0;1;2;3;4;5;6]; [0;1;2;3;4;5]; [6]]%nat) (six 7).
Definition wf_m : fmodel := mkFM Simple 58208179934199808.
Definition wf_given : bitset := fl_bits 7 [0;1;2]%nat.
Theorem C49_constructor_finds_slices_refuted :
  exists out, exact_inds wf_pair out /\ shuffles fx_fr /\ 5 * log_c 6 <= fm_max wf_m + 2 ^ 32 /\
    rpy_fw_make dbl sgw fx_fr wf_pair wf_m 0 0%nat false (fl_bits 7 []) None None None = Err Throw /\
    exists s0, rpy_fw_make dbl sgw fx_fr wf_pair wf_m 0 0%nat false (fl_bits 7 []) None (Some wf_given) None = Ok s0.
Proof.
  exists (fun x => (x =? 6)%nat = true). split; [|split; [exact fx_shuffles|split; [vm_compute; discriminate|split; [vm_compute; reflexivity|eexists; vm_compute; reflexivity]]]].
  apply (@exact_check_ok wf_pair 7 (fun x => (x =? 6)%nat) _ pair_tree_of). vm_compute. reflexivity.
Qed.
Print Assumptions C49_constructor_finds_slices_refuted.

(** Missing 2: the same slices can be found by an update with update_slices=True.
    The optimizer goes on, but it cannot be restored from its pickle. *)
Definition wf_three : ctree := mkCT [fl_leaf 3; fl_leaf 3; fl_leaf 4; fl_node 0 1 (Some 4%nat); fl_node 3 2 None]
  (map (fl_bits 7) [[0;1;2;3;4;5;6]; [0;1;2;3;4;5]; [6]; [6]; [6]]%nat) (six 7).
Definition fl_fr : frand nat := mkFR fl_reject (fun r l => (rev l, S r)).
Example fl_shuffles : shuffles fl_fr.
Proof. intros r l. simpl. symmetry. apply Permutation.Permutation_rev. Qed.
Theorem C49_restoring_always_works_refuted :
  exists s0 s, rfw_built dbl sgw fl_fr wf_three wf_m 0 0%nat false (fl_bits 7 []) None (Some wf_given) None s0 /\
    rfw_run dbl sgw [(fl_fr, true)] s0 = Ok s /\ rfw_is_valid dbl sgw s = false /\
    rfw_unpickle dbl sgw fl_fr (fw_pickle s) = Err Throw.
Proof.
  witness (rpy_fw_make dbl sgw fl_fr wf_three wf_m 0 0%nat false (fl_bits 7 []) None (Some wf_given) None).
  witness (let! s0 := rpy_fw_make dbl sgw fl_fr wf_three wf_m 0 0%nat false (fl_bits 7 []) None (Some wf_given) None in rfw_run dbl sgw [(fl_fr, true)] s0).
  split; [constructor|].
  - exact fl_shuffles.
  - exists (Nd 4 (Nd 3 (Lf 0) (Lf 1)) (Lf 2)). exact three_tree_of.
  - exact I.
  - split; [reflexivity|]. split; [|intros c' E; discriminate]. intros k [E|E]; inversion E. split; [reflexivity|].
    intros x _ Hx. do 7 (destruct x as [|x]; [vm_compute in Hx; discriminate|]). destruct x; vm_compute in Hx; discriminate.
  - vm_compute. reflexivity.
  - split; [vm_compute; reflexivity|]. split; vm_compute; reflexivity.
Qed.
Print Assumptions C49_restoring_always_works_refuted.

(** Missing 3: the indices that must not be sliced fit the maximum, with exact and
    with rounded widths, but the width that is left after all other indices were
    sliced is larger: an index is drawn from an empty list (prng() % 0). *)
Definition wf_skip : bitset := fl_bits 6 [0;1;2]%nat.
Definition wf_outer : ctree := mkCT [fl_leaf 3; fl_leaf 3; fl_leaf 4; fl_node 0 1 (Some 4%nat); fl_node 3 2 None]
  (map (fl_bits 6) [[0;1;2]; [0;1;2]; [3;4;5]; []; [3;4;5]]%nat) (DInt 3).
Definition wf_om : fmodel := mkFM Simple 21414109937401856.
Theorem C49_no_division_by_zero_refuted :
  exists s0, rfw_built dbl sgw fx_fr wf_outer wf_om 4 0%nat true wf_skip None None None s0 /\
    set_width log_c Simple (dims wf_outer) (n_inds wf_outer) (mem wf_skip) <= fm_max wf_om /\
    rwidth_of sgw wf_om wf_skip (dims wf_outer) <= fm_max wf_om /\
    rfw_run dbl sgw [(fx_fr, false)] s0 = Err Crash.
Proof.
  witness (rpy_fw_make dbl sgw fx_fr wf_outer wf_om 4 0%nat true wf_skip None None None).
  split; [constructor|].
  - exact fx_shuffles.
  - exists (Nd 4 (Nd 3 (Lf 0) (Lf 1)) (Lf 2)). exact three_tree_of.
  - exact I.
  - apply fx_given. reflexivity.
  - vm_compute. reflexivity.
  - split; [vm_compute; discriminate|]. split; [vm_compute; discriminate|]. vm_compute. reflexivity.
Qed.
Print Assumptions C49_no_division_by_zero_refuted.
