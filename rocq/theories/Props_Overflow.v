(** C70: costs that are too large for the cost type. *)
From Coq Require Import ZArith List Permutation Lia.
From Verif Require Import M_Base M_Bitset M_Tree M_CTree M_Cost M_Opt M_InfMem M_Float M_Overflow S_Tree S_Opt S_Float S_Overflow
  P_Approx P_FloatMain P_TreeProps P_Canon P_InfMemFinal P_Overflow P_OverflowMain Props_InfMem Props_Float.
Import ListNotations.
Local Open Scope Z_scope.

(** ** The arithmetic: any precision and any range *)
Theorem C70_floats_have_a_range : forall p pp cl mx pm, (1 <= p)%nat -> (1 <= pp)%nat -> 1 <= mx -> 1 <= pm ->
  range_ok (mkXA (float p pp cl) mx pm).
Proof. exact float_range. Qed.
Print Assumptions C70_floats_have_a_range.

(** ** No update fails and no tree is lost, whatever overflows and is accepted *)
Theorem C70_every_run_succeeds : forall xa, range_ok xa -> forall (R : Type) c m (r : R) ds mc s0,
  well_formed (nodes c) -> cmodel_ok m (n_inds c) -> projs_fit xa m -> x_make xa c m r ds mc = Ok s0 ->
  forall rds, exists s, x_run xa rds s0 = Ok s.
Proof. intros xa RO R c m r ds mc s0 W Hm Hp H. exact (c70_runs RO W (good_of Hm Hp) H). Qed.
Print Assumptions C70_every_run_succeeds.
Theorem C70_trees_do_not_depend_on_the_range : forall xa, range_ok xa -> forall (R : Type) c m (r : R) ds mc s0 rds s out,
  cmodel_ok m (n_inds c) -> projs_fit xa m -> x_make xa c m r ds mc = Ok s0 -> exact_inds c out -> x_run xa rds s0 = Ok s ->
  exact_inds (xs_ct s) out /\ same_problem c (xs_ct s) /\
  ctree_is_valid (xs_ct s) (negb ds) = true /\ ctree_is_valid (xs_min_ct s) (negb ds) = true /\
  (mc = None -> exact_inds (xs_min_ct s) out /\ same_problem c (xs_min_ct s)).
Proof. intros xa RO R c m r ds mc s0 rds s out Hm Hp H. exact (c70_trees RO (good_of Hm Hp) H). Qed.
Print Assumptions C70_trees_do_not_depend_on_the_range.

(** ** The reported cost is about the cost of the tree, or infinite if that is too large:
    it is never NaN, and an infinity does not outlive the tree it was reported for *)
Theorem C70_reported_cost : forall xa q kp, range_ok xa -> (1 <= q)%nat -> accurate q kp (xr xa) ->
  forall (R : Type) c m (r : R) ds mc s0 rds s,
  well_formed (nodes c) -> cmodel_ok m (n_inds c) -> projs_fit xa m -> x_make xa c m r ds mc = Ok s0 -> x_run xa rds s0 = Ok s ->
  exists T x z, tree_of (nodes (xs_ct s)) T /\ x_total s = Ok x /\ reports xa x z /\
    approx q (2 * (n_inds c + kp + 1) + length (nodes c)) z (tree_cost m (xs_ct s) (n_inds c) no_slices T).
Proof. intros xa q kp RO Hq Hac R c m r ds mc s0 rds s. exact (c70_total RO Hq Hac). Qed.
Print Assumptions C70_reported_cost.

(** ** The best tree: its cost is always finite, never increases, and is at most every
    finite cost that was reported *)
Theorem C70_best_is_finite_and_never_worse : forall xa q kp, range_ok xa -> (1 <= q)%nat -> accurate q kp (xr xa) ->
  forall (R : Type) c m (r : R) ds mc s0 rds s,
  let mc' := match mc with Some x => x | None => c end in
  well_formed (nodes c) -> cmodel_ok m (n_inds c) -> cmodel_ok m (n_inds mc') -> projs_fit xa m ->
  x_make xa c m r ds mc = Ok s0 -> x_run xa rds s0 = Ok s ->
  exists z, xs_min s = Fin z /\
   (forall T, tree_of (nodes (xs_min_ct s)) T ->
      approx q (2 * (n_inds (xs_min_ct s) + kp + 1) + length (nodes (xs_min_ct s))) z
        (tree_cost m (xs_min_ct s) (n_inds (xs_min_ct s)) no_slices T)) /\
   (forall rds1 rds2 s1, rds = rds1 ++ rds2 -> x_run xa rds1 s0 = Ok s1 ->
      (exists z1, xs_min s1 = Fin z1 /\ z <= z1) /\ (rds1 <> [] -> forall t, x_total s1 = Ok (Fin t) -> z <= t)) /\
   (xs_min_ct s = xs_min_ct s0 /\ xs_min s = xs_min s0 \/
    exists rds1 rds2 s1, rds = rds1 ++ rds2 /\ rds1 <> [] /\ x_run xa rds1 s0 = Ok s1 /\ xs_min_ct s = xs_ct s1 /\ x_total s1 = Ok (Fin z)).
Proof. intros xa q kp RO Hq Hac R c m r ds mc s0 rds s. exact (c70_best RO Hq Hac). Qed.
Print Assumptions C70_best_is_finite_and_never_worse.

(** ** Acceptance rules that refuse infinite differences never reach a contraction whose
    cost is too large *)
Theorem C70_greedy_contractions_stay_finite : forall xa q kp, range_ok xa -> (1 <= q)%nat -> accurate q kp (xr xa) ->
  forall (R : Type) c m (r : R) ds mc s0 rds s,
  well_formed (nodes c) -> cmodel_ok m (n_inds c) -> projs_fit xa m -> x_make xa c m r ds mc = Ok s0 -> x_run xa rds s0 = Ok s ->
  (forall rd, In rd rds -> refuses rd) ->
  forall v a b p, nth_error (nodes (xs_ct s)) v = Some (mkNode (Some a) (Some b) p) ->
  exists z, z <= xmax xa /\ approx q (2 * (n_inds c + kp + 1)) z (step_cost m (xs_ct s) (n_inds c) no_slices a b).
Proof. intros xa q kp RO Hq Hac R c m r ds mc s0 rds s. exact (c70_steps RO Hq Hac). Qed.
Print Assumptions C70_greedy_contractions_stay_finite.
(** The greedy rule is one of them. *)
Theorem C70_greedy_refuses : forall (R : Type) (rd : xrand R), (forall r d t, fst (xaccept rd r d t) = xgreedy d) -> refuses rd.
Proof. intros R rd H r t. rewrite H. reflexivity. Qed.
Print Assumptions C70_greedy_refuses.

(** ** is_valid: whoever reports an infinite cost is not valid *)
Theorem C70_infinite_is_not_valid : forall xa (R : Type) (s : x_state R) x,
  x_total s = Ok x -> (forall z, x <> Fin z) -> x_is_valid xa s = false.
Proof. exact c70_not_valid. Qed.
Print Assumptions C70_infinite_is_not_valid.

(** Single precision with its range, and the range of double *)
Definition xsgl : xarith := mkXA sgl (2 ^ 128 - 2 ^ 104) (2 ^ 1024 - 2 ^ 971).
(** M1[i,j] M2[j,k] M3[k,l], where j and l have dimension 2^63 and k dimension 4 *)
Definition ov_c : ctree := mkCT
  [fl_leaf 3; fl_leaf 3; fl_leaf 4; fl_node 0 1 (Some 4%nat); fl_node 3 2 None]
  (map (fl_bits 4) [[0;1];[1;2];[2;3];[0;2];[0;3]]%nat) (DVec [3; 2 ^ 63; 4; 2 ^ 63]%N).
Definition ov_out : nat -> Prop := fun x => ((x =? 0) || (x =? 3))%nat%bool = true.
Definition ov_bt : bt := Nd 4 (Nd 3 (Lf 0) (Lf 1)) (Lf 2).
(** Every move is accepted; one that asks, as the greedy rule does. *)
Definition ov_rd : xrand nat := mkXRand (fun r => (r, S r)) (fun r _ _ => (true, S r)).
Definition ov_greedy : xrand nat := mkXRand (fun r => (r, S r)) (fun r d _ => (xgreedy d, S r)).
Example ov_tree_of : tree_of (nodes ov_c) ov_bt.
Proof.
  repeat split; auto.
  - simpl. apply NoDup_Permutation.
    + repeat constructor; simpl; intuition discriminate.
    + repeat constructor; simpl; intuition discriminate.
    + intros x; simpl; tauto.
  - cbn. intuition lia.
  - cbn. intros H. do 3 (destruct p as [|p]; [tauto|]). lia.
Qed.
Example ov_exact : exact_inds ov_c ov_out.
Proof. apply (@exact_check_ok ov_c 4 (fun x => (x =? 0) || (x =? 3))%nat%bool ov_bt ov_tree_of). vm_compute. reflexivity. Qed.
(** The cost of the tree is finite; the first moves lead to trees whose cost is not, the
    seventh back to a tree of the first cost; the greedy rule refuses to go. *)
Example C70_applies : range_ok xsgl /\ accurate 24 2 (xr xsgl) /\ cmodel_ok Simple (n_inds ov_c) /\ projs_fit xsgl Simple /\
  well_formed (nodes ov_c) /\ exact_inds ov_c ov_out /\ refuses ov_greedy /\
  exists s0 s1 s3 g, x_make xsgl ov_c Simple 0%nat true None = Ok s0 /\ x_total s0 = Ok (Fin 221360928884514619392) /\
    x_run xsgl [ov_rd] s0 = Ok s1 /\ x_total s1 = Ok PInf /\
    x_run xsgl (repeat ov_rd 7) s0 = Ok s3 /\ x_total s3 = x_total s0 /\
    x_run xsgl [ov_greedy; ov_greedy] s0 = Ok g /\ x_total g = x_total s0.
Proof.
  split; [apply float_range; lia|]. split; [apply (@float_accurate 24 24); lia|]. split; [exact I|]. split; [exact I|]. split; [exact (exact_wf ov_exact)|]. split; [exact ov_exact|].
  split; [intros r t; reflexivity|]. do 4 eexists. do 7 (split; [vm_compute; reflexivity|]). vm_compute. reflexivity.
Qed.

(** ** What overflows break *)
(** Missing 1: an optimizer whose current tree has an infinite cost, which updates alone can
    reach, is not valid, and cannot be restored once it is pickled. *)
Theorem C70_pickling_refuted :
  exists s0 s, x_make xsgl ov_c Simple 0%nat true None = Ok s0 /\ x_run xsgl [ov_rd] s0 = Ok s /\
    x_is_valid xsgl s0 = true /\ x_restore xsgl s0 = Ok s0 /\ x_is_valid xsgl s = false /\ x_restore xsgl s = Err Throw.
Proof. do 2 eexists. do 5 (split; [vm_compute; reflexivity|]). vm_compute. reflexivity. Qed.
Print Assumptions C70_pickling_refuted.

(** Missing 2: the acceptance rule is then given NaN for the difference of the costs of two
    trees, one of which may have a finite cost. *)
Definition ov_log : xrand (nat * list (xnum * xnum)) := mkXRand (fun r => (fst r, (S (fst r), snd r))) (fun r d t => (true, (S (fst r), (d, t) :: snd r))).
Theorem C70_acceptance_is_given_the_costs_refuted :
  exists s0 s, x_make xsgl ov_c Simple (0%nat, []) true None = Ok s0 /\ x_run xsgl [ov_log; ov_log; ov_log] s0 = Ok s /\
    exists d t, In (d, t) (snd (xs_rng s)) /\ d = NaN.
Proof. do 2 eexists. split; [vm_compute; reflexivity|]. split; [vm_compute; reflexivity|]. do 2 eexists. split; [|reflexivity]. vm_compute. auto. Qed.
Print Assumptions C70_acceptance_is_given_the_costs_refuted.

(** Missing 3: a wider cost type does not help if all the dimensions are equal: their power
    is computed in double. Two tensors that share 17 indices of dimension 2^62, with 1024
    bits and no bound on the costs: no optimizer. With one more index, of dimension 3, the
    cost is larger, but there is one. *)
Definition xwide : xarith := mkXA (float 1024 53 (logclose 53 30)) (2 ^ 2000) (2 ^ 1024 - 2 ^ 971).
Definition eq_c (n : nat) (d : dims_t) : ctree := mkCT
  [fl_leaf 2; fl_leaf 2; fl_node 0 1 None] [repeat true n; repeat true n; repeat false n] d.
Theorem C70_wide_cost_type_refuted :
  ctree_make_pos (nodes (eq_c 17 (DInt (2 ^ 62)))) [seq 0 17; seq 0 17; []] (DVec (repeat (2 ^ 62)%N 17)) true = Ok (eq_c 17 (DInt (2 ^ 62))) /\
  tree_cost Simple (eq_c 17 (DInt (2 ^ 62))) 17 no_slices (Nd 2 (Lf 0) (Lf 1)) = 2 ^ 1054 /\
  x_make xwide (eq_c 17 (DInt (2 ^ 62))) Simple tt false None = Err Throw /\
  exists s, x_make xwide (eq_c 18 (DVec (repeat (2 ^ 62)%N 17 ++ [3%N]))) Simple tt false None = Ok s /\ x_total s = Ok (Fin (3 * 2 ^ 1054)).
Proof. split; [vm_compute; reflexivity|]. split; [vm_compute; reflexivity|]. split; [vm_compute; reflexivity|]. eexists. split; vm_compute; reflexivity. Qed.
Print Assumptions C70_wide_cost_type_refuted.
