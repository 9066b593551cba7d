(** Properties C16-C19, and C07-C15 for the finite-width optimizer. *)
From Coq Require Import QArith.
From Verif Require Import M_Base M_Bitset M_Tree M_CTree M_Cost M_Opt M_InfMem M_Prob M_FinWidth S_Tree S_Opt S_FinWidth
  P_Base P_InfMemFinal P_FinWidth P_FinWidthFinal Props_Tree Props_InfMem.
Local Open Scope nat_scope.

(** ** A concrete network: that of Props_InfMem with all dimensions 2. Tensors have
    at most 3 indices; one slice is needed for a width of 2. *)
Definition lg2 (d : N) : Z := Z.of_N (N.log2 d).
Definition fx_c : ctree := mkCT (nodes ex_c) (inds ex_c) (DInt 2).
Definition fx_fr : frand nat := mkFR ex_rd (fun r l => (rev l, S r)).
Definition fx_skip : list bool := [true; false; false; false].
Definition fx_m : fmodel := mkFM Simple 2.
Definition fw_dflt : fw_state nat := mkFW fx_c false 0 fx_c fx_m 0 [] None [] [] (mkCC [] []) [] 0%Z.
Definition fx_s0 : fw_state nat :=
  match py_fw_make lg2 fx_fr fx_c fx_m 1 0 false fx_skip None None None with Ok s => s | Err _ => fw_dflt end.
Definition fx_us : list (frand nat * bool) := [(fx_fr, true); (fx_fr, false); (fx_fr, true)].

Example lg2_log : log_like lg2.
Proof. intros d _. unfold lg2. lia. Qed.
Example fx_shuffles : shuffles fx_fr.
Proof. intros r l. simpl. symmetry. apply Permutation.Permutation_rev. Qed.
Example fx_exact : exact_inds fx_c ex_out.
Proof. apply (@exact_check_ok fx_c 4 (fun x => x =? 3) ex_bt ex_tree_of). vm_compute. reflexivity. Qed.
Example fx_wf : well_formed (nodes fx_c).
Proof. exact (exact_wf fx_exact). Qed.
Lemma fx_given (c : ctree) skip : length skip = n_inds c -> supplied_ok c skip None None None.
Proof. intros H. split; [exact H|]. split; [intros k [E|E]; discriminate|intros c' E; discriminate]. Qed.
Example fx_built : fw_built lg2 fx_fr fx_c fx_m 1 0 false fx_skip None None None fx_s0.
Proof.
  constructor; [exact lg2_log|exact fx_shuffles|exact fx_wf|exact I|apply fx_given; reflexivity|vm_compute; reflexivity].
Qed.
Example fx_all : all_shuffle fx_us.
Proof. repeat constructor; exact fx_shuffles. Qed.
(** The run slices, changes the tree and the slices, and finds a cheaper tree. *)
Example fx_run_moves : exists s, fw_run lg2 fx_us fx_s0 = Ok s /\ bany (fw_sl fx_s0) = true /\
  fw_ct s <> fx_c /\ fw_min_ct s <> fx_c /\ (fw_min s < fw_min fx_s0)%Z.
Proof.
  destruct (fw_run lg2 fx_us fx_s0) as [s|e] eqn:E; vm_compute in E; [|discriminate].
  exists s. split; auto. inversion E; subst s. vm_compute. repeat split; discriminate.
Qed.

(** ** C16 *)
Theorem C16_slices_make_every_tensor_fit : forall (R : Type) lg m (fr : frand R) c n skip (r : R),
  cmodel_ok (fm_cm m) n -> log_like lg -> dims_positive (dims c) -> shuffles fr ->
  well_formed (nodes c) -> shaped c n -> (forall k, skip = Some k -> length k = n) ->
  skips_fit lg (fm_cm m) (fm_max m) n c (omem skip) ->
  exists sl r', get_slices lg m fr c skip r (width_cache_make lg m c) = Ok (sl, r') /\ length sl = n /\
    disjoint (mem sl) (omem skip) /\
    all_fit lg (fm_cm m) (fm_max m) n c (mem sl) /\
    (* only indices of tensors that do not fit unsliced *)
    (forall x, mem sl x = true -> exists v, v < length (inds c) /\ carries c v x = true /\
       ~ node_fits lg (fm_cm m) (fm_max m) n c no_slices v).
Proof. exact f16. Qed.
Print Assumptions C16_slices_make_every_tensor_fit.

(** Hence the constructor accepts every valid tree with at least one contraction. *)
Theorem C16_constructor_finds_slices : forall (R : Type) lg m (fr : frand R) c maxnew (r : R) ds skip,
  cmodel_ok (fm_cm m) (n_inds c) -> log_like lg -> shuffles fr ->
  well_formed (nodes c) -> 1 < length (nodes c) -> ctree_is_valid c (negb ds) = true ->
  length skip = n_inds c -> skips_fit lg (fm_cm m) (fm_max m) (n_inds c) c (mem skip) ->
  exists s0, py_fw_make lg fr c m maxnew r ds skip None None None = Ok s0 /\
    fw_built lg fr c m maxnew r ds skip None None None s0.
Proof. exact f16_make. Qed.
Print Assumptions C16_constructor_finds_slices.

Example C16_applies : skips_fit lg2 Simple 2 4 fx_c (mem fx_skip) /\ ~ all_fit lg2 Simple 2 4 fx_c no_slices.
Proof.
  split.
  - intros v Hv. do 7 (destruct v as [|v]; [vm_compute; discriminate|]). simpl in Hv. lia.
  - intros H. specialize (H 2 ltac:(simpl; lia)). vm_compute in H. apply H. reflexivity.
Qed.

(** Without the condition on the skipped indices the returned slices do not make
    everything fit, and nothing is reported. *)
Theorem C16_needs_fitting_skips_refuted :
  exists sl r', get_slices lg2 (mkFM Simple 1) fx_fr fx_c (Some fx_skip) 0 (width_cache_make lg2 (mkFM Simple 1) fx_c) = Ok (sl, r') /\
    exists sl2 r2, get_slices lg2 (mkFM Simple 0) fx_fr fx_c (Some fx_skip) 0 (width_cache_make lg2 (mkFM Simple 0) fx_c) = Ok (sl2, r2) /\
      all_fit lg2 Simple 1 4 fx_c (mem sl) /\ ~ all_fit lg2 Simple 0 4 fx_c (mem sl2).
Proof.
  do 2 eexists. split; [vm_compute; reflexivity|]. do 2 eexists. split; [vm_compute; reflexivity|]. split.
  - intros v Hv. do 7 (destruct v as [|v]; [vm_compute; discriminate|]). simpl in Hv. lia.
  - intros H. specialize (H 0 ltac:(simpl; lia)). vm_compute in H. apply H. reflexivity.
Qed.
Print Assumptions C16_needs_fitting_skips_refuted.

(** ** C17 *)
Theorem C17_skipped_indices_are_never_sliced : forall (R : Type) lg (fr : frand R) c m maxnew r ds skip mc sl msl s0,
  fw_built lg fr c m maxnew r ds skip mc sl msl s0 ->
  forall us s, all_shuffle us -> fw_run lg us s0 = Ok s ->
  disjoint (mem (fw_sl s)) (mem skip) /\ disjoint (mem (fw_min_sl s)) (mem skip).
Proof. exact f17_skip. Qed.
Print Assumptions C17_skipped_indices_are_never_sliced.

Theorem C17_everything_fits_partial : forall (R : Type) lg (fr : frand R) c m maxnew r ds skip mc sl msl s0,
  fw_built lg fr c m maxnew r ds skip mc sl msl s0 ->
  forall us s, fm_cm m = Simple \/ maxnew = 0 -> all_shuffle us -> fw_run lg us s0 = Ok s ->
  all_fit lg (fm_cm m) (fm_max m) (n_inds c) (fw_ct s) (mem (fw_sl s)) /\
  all_fit lg (fm_cm m) (fm_max m) (n_inds c) (fw_min_ct s) (mem (fw_min_sl s)).
Proof. exact f17. Qed.
Print Assumptions C17_everything_fits_partial.

(** Missing: the sparse cost model with new slices allowed. There the claim is
    false: the width of the new tensor is tracked by subtracting the whole logarithm
    of a sliced dimension, although a sparse index may count for less. *)
Definition sx_m : fmodel := mkFM (Sparse [false; true; false; false] 1) 2.
Definition sx_skip : list bool := [true; false; true; false].
Definition sx_s0 : fw_state nat :=
  match py_fw_make lg2 fx_fr fx_c sx_m 1 0 false sx_skip None None None with Ok s => s | Err _ => fw_dflt end.
Definition sx_s : fw_state nat :=
  match fw_run lg2 [(fx_fr, false)] sx_s0 with Ok s => s | Err _ => fw_dflt end.
Example sx_built : fw_built lg2 fx_fr fx_c sx_m 1 0 false sx_skip None None None sx_s0.
Proof.
  constructor; [exact lg2_log|exact fx_shuffles|exact fx_wf|split; [reflexivity|lia]|
    apply fx_given; reflexivity|vm_compute; reflexivity].
Qed.
Theorem C17_everything_fits_refuted :
  exists lg (fr : frand nat) c m s0 s skip,
    fw_built lg fr c m 1 0 false skip None None None s0 /\ exact_inds c ex_out /\
    fw_run lg [(fr, false)] s0 = Ok s /\
    ~ all_fit lg (fm_cm m) (fm_max m) (n_inds c) (fw_ct s) (mem (fw_sl s)).
Proof.
  exists lg2, fx_fr, fx_c, sx_m, sx_s0, sx_s, sx_skip. split; [exact sx_built|]. split; [exact fx_exact|].
  split; [vm_compute; reflexivity|]. intros H.
  assert (E : exists v, v < 7 /\ (2 < set_width lg2 (fm_cm sx_m) (dims (fw_ct sx_s)) 4 (fun x => carries (fw_ct sx_s) v x && negb (mem (fw_sl sx_s) x)))%Z).
  { assert (D : existsb (fun v => (2 <? set_width lg2 (fm_cm sx_m) (dims (fw_ct sx_s)) 4 (fun x => carries (fw_ct sx_s) v x && negb (mem (fw_sl sx_s) x)))%Z) (seq 0 7) = true)
      by (vm_compute; reflexivity).
    apply existsb_exists in D. destruct D as (v & Hv & Hw). exists v. apply in_seq in Hv. apply Z.ltb_lt in Hw. split; [lia|exact Hw]. }
  destruct E as (v & Hv & Hw). assert (Hl : v < length (inds (fw_ct sx_s))) by (vm_compute; exact Hv).
  specialize (H v Hl). unfold node_fits in H. change (n_inds fx_c) with 4 in H. change (fm_max sx_m) with 2%Z in H. lia.
Qed.
Print Assumptions C17_everything_fits_refuted.

(** ** C18 *)
Theorem C18_total_cost_is_the_sliced_cost : forall (R : Type) lg (fr : frand R) c m maxnew r ds skip mc sl msl s0,
  fw_built lg fr c m maxnew r ds skip mc sl msl s0 ->
  forall us s, all_shuffle us -> fw_run lg us s0 = Ok s ->
  exists T, tree_of (nodes (fw_ct s)) T /\
    fw_total s = Ok (tree_cost (fm_cm m) (fw_ct s) (n_inds c) (mem (fw_sl s)) T).
Proof. exact f18. Qed.
Print Assumptions C18_total_cost_is_the_sliced_cost.
Theorem C18_minimum_is_the_sliced_cost : forall (R : Type) lg (fr : frand R) c m maxnew r ds skip mc sl msl s0,
  fw_built lg fr c m maxnew r ds skip mc sl msl s0 ->
  forall us s, all_shuffle us -> fw_run lg us s0 = Ok s ->
  exists T, tree_of (nodes (fw_min_ct s)) T /\
    fw_min s = tree_cost (fm_cm m) (fw_min_ct s) (n_inds c) (mem (fw_min_sl s)) T.
Proof. exact f18_min. Qed.
Print Assumptions C18_minimum_is_the_sliced_cost.
(** Slicing index 2 doubles the cost of the contractions without it. *)
Example C18_applies : fw_total fx_s0 = Ok 32%Z /\ tree_cost Simple fx_c 4 (mem (fw_sl fx_s0)) ex_bt = 32%Z /\
  tree_cost Simple fx_c 4 no_slices ex_bt = 28%Z.
Proof. repeat split; vm_compute; reflexivity. Qed.

(** ** C19 *)
Theorem C19_delta_width_is_exact : forall lg m b d n x,
  cmodel_ok (fm_cm m) n -> log_like lg -> dims_positive d -> length b = n -> x < n ->
  width_of lg m b d = set_width lg (fm_cm m) d n (mem b) /\
  set_width lg (fm_cm m) d n (fun i => xorb (i =? x) (mem b i)) = (width_of lg m b d + delta_width_of lg m b d x)%Z.
Proof. exact f19. Qed.
Print Assumptions C19_delta_width_is_exact.
Theorem C19_width_is_monotone : forall lg m d n a b, cmodel_ok (fm_cm m) n -> log_like lg -> dims_positive d ->
  length a = n -> length b = n -> (forall x, mem a x = true -> mem b x = true) ->
  (width_of lg m a d <= width_of lg m b d)%Z.
Proof. intros lg m d n a b Hm Hl Hd La Lb H. exact (width_mono Hm Hl Hd La Lb H). Qed.
Print Assumptions C19_width_is_monotone.
Example C19_applies : delta_width_of lg2 sx_m [true; true; false; false] (DVec [2; 4; 8; 2]%N) 2 = 3%Z /\
  delta_width_of lg2 (mkFM (Sparse [true; true; true; false] 8) 2) [true; true; false; false] (DVec [2; 8; 8; 2]%N) 1 = (-2)%Z.
Proof. split; vm_compute; reflexivity. Qed.

(** The Python wrapper is documented for an index to add or to remove; it raises for
    an index to add. *)
Theorem C19_python_wrapper_adding_refuted : forall lg m b d x, mem b x = false -> py_delta_width lg m b d x = Err Throw.
Proof. intros lg m b d x H. unfold py_delta_width, btest. unfold mem in H. rewrite H. reflexivity. Qed.
Print Assumptions C19_python_wrapper_adding_refuted.

(** ** C07 *)
Theorem C07_finite_width_keeps_indices_exact : forall (R : Type) lg (fr : frand R) c m maxnew r ds skip mc sl msl s0,
  fw_built lg fr c m maxnew r ds skip mc sl msl s0 ->
  forall us s out, all_shuffle us -> fw_run lg us s0 = Ok s -> exact_inds c out ->
  exact_inds (fw_ct s) out /\ (mc = None -> exact_inds (fw_min_ct s) out).
Proof. exact f07. Qed.
Print Assumptions C07_finite_width_keeps_indices_exact.

(** ** C08 *)
Theorem C08_finite_width_keeps_the_tree_valid : forall (R : Type) lg (fr : frand R) c m maxnew r ds skip mc sl msl s0,
  fw_built lg fr c m maxnew r ds skip mc sl msl s0 ->
  forall us s, all_shuffle us -> fw_run lg us s0 = Ok s ->
  ctree_is_valid (fw_ct s) false = true /\ ctree_is_valid (fw_min_ct s) false = true.
Proof. exact f08. Qed.
Print Assumptions C08_finite_width_keeps_the_tree_valid.
(** With shared indices enforced, for a tree whose indices are exact (see
    C08_shared_indices_refuted for the others). *)
Theorem C08_finite_width_shared_indices_kept_partial : forall (R : Type) lg (fr : frand R) c m maxnew r ds skip mc sl msl s0,
  fw_built lg fr c m maxnew r ds skip mc sl msl s0 ->
  forall us s out, exact_inds c out -> all_shuffle us -> fw_run lg us s0 = Ok s -> ds = false ->
  all_share (fw_ct s) /\ all_share (fw_min_ct s).
Proof. exact f08_all_share. Qed.
Print Assumptions C08_finite_width_shared_indices_kept_partial.

(** ** C10 *)
Theorem C10_finite_width_minimum_is_the_best_so_far : forall (R : Type) lg (fr : frand R) c m maxnew r ds skip mc sl msl s0,
  fw_built lg fr c m maxnew r ds skip mc sl msl s0 ->
  forall us s, all_shuffle us -> fw_run lg us s0 = Ok s ->
  (forall us1 us2 s1, us = us1 ++ us2 -> fw_run lg us1 s0 = Ok s1 ->
     (fw_min s <= fw_min s1)%Z /\
     (us1 <> [] -> forall t1, fw_total s1 = Ok t1 -> (fw_min s <= t1)%Z)) /\
  (mc = None -> msl = None -> forall t0, fw_total s0 = Ok t0 -> (fw_min s <= t0)%Z) /\
  (fw_min_ct s = fw_min_ct s0 /\ fw_min_sl s = fw_min_sl s0 /\ fw_min s = fw_min s0 \/
   exists us1 us2 s1, us = us1 ++ us2 /\ us1 <> [] /\ fw_run lg us1 s0 = Ok s1 /\
     fw_min_ct s = fw_ct s1 /\ fw_min_sl s = fw_sl s1 /\ fw_total s1 = Ok (fw_min s)).
Proof. exact f10. Qed.
Print Assumptions C10_finite_width_minimum_is_the_best_so_far.

(** ** C11 *)
Theorem C11_finite_width_keeps_the_problem : forall (R : Type) lg (fr : frand R) c m maxnew r ds skip mc sl msl s0,
  fw_built lg fr c m maxnew r ds skip mc sl msl s0 ->
  forall us s, all_shuffle us -> fw_run lg us s0 = Ok s ->
  same_problem c (fw_ct s) /\ (fw_min_ct s = fw_min_ct s0 \/ same_problem c (fw_min_ct s)) /\
  (mc = None -> same_problem c (fw_min_ct s)) /\
  fw_m s = m /\ fw_ds s = ds /\ fw_maxnew s = maxnew /\ fw_skip_set s = skip.
Proof. exact f11. Qed.
Print Assumptions C11_finite_width_keeps_the_problem.

(** ** C12 *)
(** The only failure is the random choice of a new slice among no candidates (a
    division by zero), which needs new slices to be allowed and the skipped indices
    together to be wider than max_width. *)
Theorem C12_finite_width_update_terminates_partial : forall (R : Type) lg (fr : frand R) c m maxnew r ds skip mc sl msl s0,
  fw_built lg fr c m maxnew r ds skip mc sl msl s0 ->
  forall us, all_shuffle us ->
  (exists s, fw_run lg us s0 = Ok s) \/
  (fw_run lg us s0 = Err Crash /\ 0 < maxnew /\ (fm_max m < set_width lg (fm_cm m) (dims c) (n_inds c) (mem skip))%Z).
Proof. exact f12. Qed.
Print Assumptions C12_finite_width_update_terminates_partial.
Theorem C12_finite_width_walk_is_bounded_partial : forall (R : Type) lg (fr : frand R) c m maxnew r ds skip mc sl msl s0,
  fw_built lg fr c m maxnew r ds skip mc sl msl s0 ->
  forall us s, all_shuffle us -> fw_run lg us s0 = Ok s ->
  maxnew = 0 \/ (set_width lg (fm_cm m) (dims c) (n_inds c) (mem skip) <= fm_max m)%Z ->
  forall T l d f B nd r', tree_of (nodes (fw_ct s)) T -> In l (leaves T) -> at_depth l d T ->
    nth_error (nodes (fw_ct s)) l = Some nd -> par nd = Some B ->
    exists tc s', fw_total s = Ok tc /\
      forall fuel, d <= fuel ->
        fw_loop lg f fuel (fw_set s (fw_ct s) r' (fw_width s) (fw_sl s) (fw_cc s) (fw_hyper s)) tc B = Ok s'.
Proof. exact f12_walk. Qed.
Print Assumptions C12_finite_width_walk_is_bounded_partial.
Example C12_finite_width_applies : (set_width lg2 Simple (dims fx_c) (n_inds fx_c) (mem fx_skip) <= fm_max fx_m)%Z.
Proof. vm_compute. discriminate. Qed.

(** The failure is reached on a valid tree: the skipped indices of every tensor of
    the first tree fit, but a neighbouring tree has a tensor in which they do not. *)
Definition cx_skip : list bool := [true; true; true; true].
Definition cx_m : fmodel := mkFM Simple 3.
Definition cx_s0 : fw_state nat :=
  match py_fw_make lg2 fx_fr fx_c cx_m 1 0 false cx_skip None None None with Ok s => s | Err _ => fw_dflt end.
Theorem C12_finite_width_update_terminates_refuted :
  exists lg (fr : frand nat) c m maxnew skip s0,
    fw_built lg fr c m maxnew 0 false skip None None None s0 /\ exact_inds c ex_out /\
    fw_update lg fr false s0 = Err Crash.
Proof.
  exists lg2, fx_fr, fx_c, cx_m, 1, cx_skip, cx_s0. split; [|split; [exact fx_exact|vm_compute; reflexivity]].
  constructor; [exact lg2_log|exact fx_shuffles|exact fx_wf|exact I|apply fx_given; reflexivity|vm_compute; reflexivity].
Qed.
Print Assumptions C12_finite_width_update_terminates_refuted.

(** ** C13 *)
(** If the rule accepts only moves that do not increase the cost then the total
    cost, with slices, never increases; also when new slices are tried and when the
    slices are recomputed. *)
Theorem C13_finite_width_never_increases : forall (R : Type) lg (fr : frand R) c m maxnew r ds skip mc sl msl s0,
  fw_built lg fr c m maxnew r ds skip mc sl msl s0 ->
  forall us us' s s' t t', all_shuffle us -> all_shuffle us' -> fw_run lg us s0 = Ok s ->
  Forall (fun u : frand R * bool => forall r delta tot r', accept (fr_base (fst u)) r delta tot = (true, r') -> (delta <= 0)%Z) us' ->
  fw_run lg us' s = Ok s' -> fw_total s = Ok t -> fw_total s' = Ok t' -> (t' <= t)%Z.
Proof. exact f13. Qed.
Print Assumptions C13_finite_width_never_increases.
(** The greedy rule is such a rule when the uniform draws are positive (see
    C13_greedy_never_increases_refuted for a draw of 0). *)
Theorem C13_finite_width_greedy_never_increases_partial : forall (R : Type) lg (fr : frand R) c m maxnew r ds skip mc sl msl s0,
  fw_built lg fr c m maxnew r ds skip mc sl msl s0 ->
  forall us us' s s' t t', all_shuffle us -> all_shuffle us' -> fw_run lg us s0 = Ok s ->
  Forall (fun u : frand R * bool => exists prng uniform, fr_base (fst u) = q_rand prng uniform greedy_prob /\
            forall r, (0 < fst (uniform r))%Q) us' ->
  fw_run lg us' s = Ok s' -> fw_total s = Ok t -> fw_total s' = Ok t' -> (t' <= t)%Z.
Proof. exact f13_greedy. Qed.
Print Assumptions C13_finite_width_greedy_never_increases_partial.
Definition gx_fr : frand nat := mkFR ex_greedy (fun r l => (rev l, S r)).
Example C13_finite_width_applies : exists s s' t t', fw_run lg2 fx_us fx_s0 = Ok s /\
  fw_run lg2 (repeat (gx_fr, true) 8) s = Ok s' /\
  fw_total s = Ok t /\ fw_total s' = Ok t' /\ (t' < t)%Z.
Proof. do 4 eexists. do 3 (split; [vm_compute; reflexivity|]). split; vm_compute; reflexivity. Qed.

(** ** C14 *)
Theorem C14_finite_width_is_valid_after_updates_partial : forall (R : Type) lg (fr : frand R) c m maxnew r ds skip mc sl msl s0,
  fw_built lg fr c m maxnew r ds skip mc sl msl s0 ->
  forall us s, (exists out, exact_inds c out) \/ ds = true -> fm_cm m = Simple \/ maxnew = 0 ->
  all_shuffle us -> fw_run lg us s0 = Ok s -> fw_is_valid lg s = true.
Proof. exact f14. Qed.
Print Assumptions C14_finite_width_is_valid_after_updates_partial.
Theorem C14_finite_width_is_valid_after_updates_refuted :
  exists lg (fr : frand nat) c m s0 s skip,
    fw_built lg fr c m 1 0 false skip None None None s0 /\ exact_inds c ex_out /\
    fw_run lg [(fr, false)] s0 = Ok s /\ fw_is_valid lg s = false.
Proof.
  exists lg2, fx_fr, fx_c, sx_m, sx_s0, sx_s, sx_skip. split; [exact sx_built|]. split; [exact fx_exact|].
  split; vm_compute; reflexivity.
Qed.
Print Assumptions C14_finite_width_is_valid_after_updates_refuted.

(** ** C15 *)
Theorem C15_finite_width_pickling_is_transparent_partial : forall (R : Type) lg (fr : frand R) c m maxnew r ds skip mc sl msl s0,
  fw_built lg fr c m maxnew r ds skip mc sl msl s0 ->
  forall us s f, (exists out, exact_inds c out) \/ ds = true -> maxnew = 0 ->
  all_shuffle us -> fw_run lg us s0 = Ok s -> fw_unpickle lg f (fw_pickle s) = Ok s.
Proof. exact f15. Qed.
Print Assumptions C15_finite_width_pickling_is_transparent_partial.

(** Missing: an optimizer that may add slices. max_number_new_slices is not saved;
    the restored optimizer goes on differently. *)
Definition px_s0 : fw_state nat :=
  match py_fw_make lg2 fx_fr fx_c fx_m 1 3 false fx_skip None None None with Ok s => s | Err _ => fw_dflt end.
Theorem C15_finite_width_pickling_is_transparent_refuted :
  exists lg (fr : frand nat) c m maxnew r skip s0 s0' s s' t t',
    fw_built lg fr c m maxnew r false skip None None None s0 /\ exact_inds c ex_out /\
    fw_unpickle lg fr (fw_pickle s0) = Ok s0' /\
    fw_update lg fr true s0 = Ok s /\ fw_update lg fr true s0' = Ok s' /\
    fw_total s = Ok t /\ fw_total s' = Ok t' /\ t <> t'.
Proof.
  exists lg2, fx_fr, fx_c, fx_m, 1, 3, fx_skip, px_s0. do 5 eexists.
  split. { constructor; [exact lg2_log|exact fx_shuffles|exact fx_wf|exact I|apply fx_given; reflexivity|vm_compute; reflexivity]. }
  split; [exact fx_exact|]. do 5 (split; [vm_compute; reflexivity|]). discriminate.
Qed.
Print Assumptions C15_finite_width_pickling_is_transparent_refuted.
