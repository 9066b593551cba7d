(** C73: the cost functions of the cost models, called with the names of the indices. *)
From Verif Require Import M_Base M_Bitset M_Tree M_CTree M_Cost M_Opt M_InfMem M_FinWidth M_Path M_PyTree M_PyNodes M_PyViews M_App
  S_Tree S_Opt S_FinWidth S_PyTree S_App M_Alike S_Alike M_PyCost S_PyCost P_PyCost Props_InfMem Props_FinWidth Props_App Props_Alike.
Set Implicit Arguments.
Unset Strict Implicit.
Local Notation core := M_PyTree.core.
Local Notation nodes := M_CTree.nodes.

(** contraction_cost with infinite memory: as many operations as the indices of the two
    tensors take values, in whatever order and how often they are listed. The sparse
    indices and the dimensions may be given in any order. *)
Theorem C73_contraction_cost : forall m xs ys zs d dim l,
  model_valid m -> dims_give d m (xs ++ ys ++ zs) dim -> lists l (fun x => In x xs \/ In x ys) ->
  py_ccost m xs ys zs d = Ok (values (sparse_of m) (pm_projs m) dim l).
Proof. exact py_ccost_ok. Qed.
Print Assumptions C73_contraction_cost.

(** With a finite width the sliced indices count too. *)
Theorem C73_finite_width_contraction_cost : forall m xs ys zs d sl dim l,
  model_valid (pf_model m) -> (0 <= pf_max m)%Z -> dims_give d (pf_model m) (xs ++ ys ++ zs ++ sl) dim -> incl zs (xs ++ ys) ->
  lists l (fun x => In x xs \/ In x ys \/ In x sl) ->
  py_fccost m xs ys zs d sl = Ok (values (sparse_of (pf_model m)) (pm_projs (pf_model m)) dim l).
Proof. exact py_fccost_ok. Qed.
Print Assumptions C73_finite_width_contraction_cost.

(** width is the width of the set of the given indices. *)
Theorem C73_width : forall lg m xs d dim l,
  log_like lg -> model_valid (pf_model m) -> (0 <= pf_max m)%Z -> dims_give d (pf_model m) xs dim -> lists l (fun x => In x xs) ->
  py_width lg m xs d = Ok (width (sparse_of (pf_model m)) (pm_projs (pf_model m)) dim lg l).
Proof. exact py_width_ok. Qed.
Print Assumptions C73_width.

(** delta_width is the width without the index minus the width with it, if no index is
    listed twice or the model has no sparse indices. *)
Theorem C73_delta_width_partial : forall lg m xs d dim x l l',
  log_like lg -> model_valid (pf_model m) -> (0 <= pf_max m)%Z -> dims_give d (pf_model m) xs dim ->
  (forall y, In y xs \/ In y (sparse_of (pf_model m)) -> dim y <> 0%N) ->
  NoDup xs \/ pm_sparse (pf_model m) = None -> In x xs ->
  lists l (fun y => In y xs) -> lists l' (fun y => In y xs /\ y <> x) ->
  py_dwidth lg m xs d x =
    Ok (width (sparse_of (pf_model m)) (pm_projs (pf_model m)) dim lg l' - width (sparse_of (pf_model m)) (pm_projs (pf_model m)) dim lg l)%Z.
Proof. exact py_dwidth_ok. Qed.
Print Assumptions C73_delta_width_partial.

(** They raise if a dimension is missing; the contraction with a finite width also if the
    result has an index of neither tensor, delta_width also if the index is not there. *)
Theorem C73_rejected : forall lg m f xs ys zs sl d x,
  (dim_missing d m (xs ++ ys ++ zs) -> py_ccost m xs ys zs d = Err Throw) /\
  (dim_missing d (pf_model f) (xs ++ ys ++ zs ++ sl) \/ ~ incl zs (xs ++ ys) -> py_fccost f xs ys zs d sl = Err Throw) /\
  (dim_missing d (pf_model f) xs -> py_width lg f xs d = Err Throw) /\
  (dim_missing d (pf_model f) xs \/ ~ In x xs -> py_dwidth lg f xs d x = Err Throw).
Proof.
  intros lg m f xs ys zs sl d x. split; [apply py_ccost_missing|]. split; [apply py_fccost_missing|]. split; [apply py_width_missing|apply py_dwidth_missing].
Qed.
Print Assumptions C73_rejected.

(** The costs that an optimizer reports are the sums of what contraction_cost gives for the
    contractions of its trees, called with the indices and the dimensions of the trees. *)
Theorem C73_infinite_memory_costs : forall (R : Type) (o : im_obj R), im_lived o -> exists t mt ms mms k,
  get_ctree (io_tree o) (im_ct (io_state o)) = Ok t /\ get_ctree (io_tree o) (im_min_ct (io_state o)) = Ok mt /\
  get_contraction (nodes (core t)) = Ok ms /\ get_contraction (nodes (core mt)) = Ok mms /\
  im_total (io_state o) = Ok k /\ sums (im_contraction_cost (io_model o) t) ms k /\ sums (im_contraction_cost (io_model o) mt) mms (im_min (io_state o)).
Proof. exact im_sums. Qed.
Print Assumptions C73_infinite_memory_costs.
Theorem C73_finite_width_costs : forall (R : Type) lg n (o : fw_obj R), fw_lived lg n o -> exists t mt sl msl ms mms k,
  get_ctree (fo_tree o) (fw_ct (fo_state o)) = Ok t /\ get_ctree (fo_tree o) (fw_min_ct (fo_state o)) = Ok mt /\
  slice_names (inds_order (fo_tree o)) (fw_sl (fo_state o)) = Ok sl /\ slice_names (inds_order (fo_tree o)) (fw_min_sl (fo_state o)) = Ok msl /\
  get_contraction (nodes (core t)) = Ok ms /\ get_contraction (nodes (core mt)) = Ok mms /\
  fw_total (fo_state o) = Ok k /\ sums (fw_contraction_cost (fo_model o) t sl) ms k /\ sums (fw_contraction_cost (fo_model o) mt msl) mms (fw_min (fo_state o)).
Proof. exact fw_sums. Qed.
Print Assumptions C73_finite_width_costs.
(** Without its slices no tensor is wider than the maximum, as reported by width (with
    sparse indices and new slices allowed this is refuted by C17). *)
Theorem C73_widths_partial : forall (R : Type) lg n (o : fw_obj R), fw_lived lg n o -> sparse_of (pf_model (fo_model o)) = [] \/ n = 0 ->
  exists t mt sl msl, get_ctree (fo_tree o) (fw_ct (fo_state o)) = Ok t /\ get_ctree (fo_tree o) (fw_min_ct (fo_state o)) = Ok mt /\
  slice_names (inds_order (fo_tree o)) (fw_sl (fo_state o)) = Ok sl /\ slice_names (inds_order (fo_tree o)) (fw_min_sl (fo_state o)) = Ok msl /\
  width_bounded lg (fo_model o) t sl /\ width_bounded lg (fo_model o) mt msl.
Proof. exact fw_widths. Qed.
Print Assumptions C73_widths_partial.

(** Indices 3, 1, 3 with 1, 4: eight values for 3, two for 1, four for 4;
    7, 3 and 1 are sparse. *)
Definition pc_dims : pydims := PyDict [(9, 6%N); (4, 4%N); (3, 8%N); (1, 2%N); (7, 2%N)].
Definition pc_dim (x : nat) : N := match x with 4 => 4%N | 3 => 8%N | 1 => 2%N | 7 => 2%N | _ => 6%N end.
Definition pc_model : pmodel := mkPM [102%Z] (Some [7; 3; 1]) (Some 4%Z).
Definition pc_fmodel : pfmodel := mkPF 5 pc_model [102%Z].
Example C73_applies : model_valid pc_model /\ dims_give pc_dims pc_model [3; 1; 3; 1; 4; 4] pc_dim /\ lists [1; 3; 4] (fun x => In x [3; 1; 3] \/ In x [1; 4]) /\
  py_ccost pc_model [3; 1; 3] [1; 4] [4] pc_dims = Ok 16%Z /\ py_fccost pc_fmodel [3; 1; 3] [1; 4] [4] pc_dims [9; 7] = Ok 96%Z /\
  py_width lg2 pc_fmodel [3; 1; 4; 1] pc_dims = Ok 4%Z /\ py_dwidth lg2 pc_fmodel [4; 3; 1] pc_dims 3 = Ok (-1)%Z /\ dim_missing pc_dims pc_model [5] /\
  im_lived al_o /\ fw_lived lg2 0 (al_f0 0) /\ bany (fw_sl (fo_state (al_f0 0))) = true /\ sparse_of (pf_model (fo_model (al_f0 0))) = [].
Proof.
  split; [split; [intros k H; injection H as <-; lia|discriminate]|].
  split. { intros x Hx. simpl in Hx. decompose [or] Hx; subst; try reflexivity; contradiction. }
  split. { split; [repeat constructor; simpl; intuition discriminate|]. intros x. simpl. tauto. }
  do 4 (split; [vm_compute; reflexivity|]). split; [exists 5; split; [simpl; auto|intros k; simpl; discriminate]|].
  split; [exact al_lived|]. split; [apply al_flived; auto|]. split; vm_compute; reflexivity.
Qed.

(** The constructor of the finite-width optimizer measures with width the part of each
    tensor that may not be sliced, and raises exactly if one is wider than the maximum. *)
Theorem C73_too_many_skips : forall (R : Type) lg (fr : frand R) p ts d output chk t m maxnew (r : R) ds skip,
  pytree_make p ts d output chk = Ok t -> well_formed (nodes (core t)) ->
  log_like lg -> model_valid (pf_model m) -> (0 <= pf_max m)%Z -> incl (sparse_of (pf_model m)) (inds_order t) -> incl skip (inds_order t) ->
  (skips_too_wide lg m t skip -> fo_make lg fr t m maxnew r ds skip None None None = Err Throw) /\
  (~ skips_too_wide lg m t skip -> shuffles fr -> 1 < length (nodes (core t)) -> ctree_is_valid (core t) (negb ds) = true ->
   exists o, fo_make lg fr t m maxnew r ds skip None None None = Ok o).
Proof. exact fo_make_skips. Qed.
Print Assumptions C73_too_many_skips.
Example C73_too_many_skips_applies : incl (sparse_of (pf_model al_fmodel)) (inds_order al_t) /\ skips_too_wide lg2 al_fmodel al_t (inds_order al_t) /\
  ~ skips_too_wide lg2 al_fmodel al_t [0] /\ ctree_is_valid (core al_t) (negb false) = true.
Proof.
  split; [intros x []|]. split.
  { exists 2, [1; 2; 3], [1; 2; 3], 3%Z. split; [vm_compute; lia|]. split; [vm_compute; reflexivity|]. split.
    - intros x. replace (inds_order al_t) with [0; 1; 2; 3] by (vm_compute; reflexivity). simpl. tauto.
    - split; vm_compute; reflexivity. }
  split; [|vm_compute; reflexivity]. intros H.
  assert (E : pytree_make al_path al_ts d2 (Some [3]) true = Ok al_t) by (vm_compute; reflexivity).
  assert (Wf : well_formed (nodes (core al_t))) by (eexists; exact al_tree).
  destruct (C73_too_many_skips fx_fr 1 3 false (m := al_fmodel) (skip := [0]) E Wf lg2_log) as (F & _).
  - split; [intros k Hk; discriminate|intros Hk; destruct (Hk eq_refl)].
  - vm_compute; discriminate.
  - intros x [].
  - intros x [<- | []]. replace (inds_order al_t) with [0; 1; 2; 3] by (vm_compute; reflexivity). simpl. auto.
  - specialize (F H). vm_compute in F. discriminate.
Qed.

(** Missing: an index listed twice together with sparse indices. Then delta_width looks at
    another index: removing index 1 seems to widen the tensor. *)
Theorem C73_delta_width_repeated_refuted : exists lg m xs d dim x l l',
  log_like lg /\ model_valid (pf_model m) /\ (0 <= pf_max m)%Z /\ dims_give d (pf_model m) xs dim /\ (forall y, dim y <> 0%N) /\ In x xs /\
  lists l (fun y => In y xs) /\ lists l' (fun y => In y xs /\ y <> x) /\
  (width (sparse_of (pf_model m)) (pm_projs (pf_model m)) dim lg l' < width (sparse_of (pf_model m)) (pm_projs (pf_model m)) dim lg l)%Z /\
  py_dwidth lg m xs d x = Ok 1%Z.
Proof.
  exists lg2, (mkPF 5 (mkPM [102%Z] (Some [5]) (Some 2%Z)) [102%Z]), [0; 0; 1], (PyInt 2), (fun _ => 2%N), 1, [0; 1], [0].
  split; [exact lg2_log|]. split; [split; [intros k H; injection H as <-; lia|discriminate]|]. split; [vm_compute; discriminate|]. split; [intros x _; reflexivity|].
  split; [intros; discriminate|]. split; [simpl; auto|].
  split; [split; [repeat constructor; simpl; intuition discriminate|intros x; simpl; tauto]|].
  split; [split; [repeat constructor; simpl; intuition discriminate|intros x; simpl; intuition congruence]|]. split; vm_compute; reflexivity.
Qed.
Print Assumptions C73_delta_width_repeated_refuted.

(** Missing: with infinite memory nothing is said about a result with an index of neither
    tensor; its dimension is asked for but does not count. *)
Theorem C73_result_checked_refuted : exists m xs ys zs d, model_valid m /\ ~ incl zs (xs ++ ys) /\ py_ccost m xs ys zs d = Ok 4%Z /\ py_ccost m xs ys [] d = Ok 4%Z /\
  py_ccost m xs ys (zs ++ [9]) d = Err Throw.
Proof.
  exists (mkPM [102%Z] None None), [0], [1], [2], (PyDict [(0, 2%N); (1, 2%N); (2, 2%N)]). split; [split; [discriminate|intros H; contradiction H; reflexivity]|].
  split; [intros H; specialize (H 2); simpl in H; intuition discriminate|]. repeat split; vm_compute; reflexivity.
Qed.
Print Assumptions C73_result_checked_refuted.

(** Missing: dimensions for the indices of the tensor are not enough. A sparse index that
    the tensor does not have needs one too. *)
Theorem C73_own_dimensions_refuted : exists lg m xs d dim, log_like lg /\ model_valid (pf_model m) /\ (0 <= pf_max m)%Z /\
  (forall x, In x xs -> dim_is d x (dim x)) /\ py_width lg m xs d = Err Throw.
Proof.
  exists lg2, pc_fmodel, [4; 1], (PyDict [(4, 4%N); (1, 2%N)]), pc_dim. split; [exact lg2_log|]. split; [split; [intros k H; injection H as <-; lia|discriminate]|].
  split; [vm_compute; discriminate|]. split; [|vm_compute; reflexivity]. intros x [<-|[<-|[]]]; reflexivity.
Qed.
Print Assumptions C73_own_dimensions_refuted.
