(** Properties C07-C15: the infinite-memory optimizer. *)
From Coq Require Import QArith Reals Qreals.
From Verif Require Import M_Base M_Bitset M_Tree M_CTree M_Cost M_Opt M_InfMem M_Prob S_Tree S_Opt
  P_Base P_InfMemFinal P_Prob Props_Tree.
Local Open Scope nat_scope.

(** ** A concrete network: tensors {0,1} {1,2} {1,2,3} {0,3}, index 1 is a
    hyper-index, index 3 is open; dimensions 2 3 2 4. *)
Definition ex_c : ctree := mkCT ex_tree
  [ [true; true; false; false]; [false; true; true; false]; [false; true; true; true]; [true; false; false; true];
    [true; true; true; false]; [true; false; false; true]; [false; false; false; true] ]
  (DVec [2; 3; 2; 4]%N).
Definition ex_out : nat -> Prop := fun x => (x =? 3) = true.

(** A generator that counts; draws 1, 2, 3, ...; always accepts. *)
Definition ex_rd : rand nat := mkRand (fun r => (r, S r)) (fun r _ _ => (true, S r)).

Example ex_exact : exact_inds ex_c ex_out.
Proof. apply (@exact_check_ok ex_c 4 (fun x => x =? 3) ex_bt ex_tree_of). vm_compute. reflexivity. Qed.
Example ex_wf : well_formed (nodes ex_c).
Proof. exact (exact_wf ex_exact). Qed.

Definition ex_s0 : im_state nat :=
  match im_make ex_c Simple 0 false None with Ok s => s
  | Err _ => mkIM ex_c false 0 ex_c Simple (mkCC [] []) [] 0%Z end.
Example ex_make : im_make ex_c Simple 0 false None = Ok ex_s0.
Proof. vm_compute. reflexivity. Qed.
Definition ex_run := im_run [ex_rd; ex_rd; ex_rd] ex_s0.
(** The run changes the tree and finds a cheaper one. *)
Example ex_run_moves : exists s, ex_run = Ok s /\ im_ct s <> ex_c /\ im_min_ct s <> ex_c /\ (im_min s < im_min ex_s0)%Z.
Proof.
  destruct ex_run as [s|e] eqn:E; vm_compute in E; [|discriminate].
  exists s. split; auto. inversion E; subst s. vm_compute. repeat split; discriminate.
Qed.
(** The same with a sparse cost model. *)
Example ex_make_sparse : exists s, im_make ex_c (Sparse [true; false; false; true] 3) 0 false None = Ok s
  /\ cmodel_ok (Sparse [true; false; false; true] 3) (n_inds ex_c).
Proof. eexists. split; [vm_compute; reflexivity|]. split; [reflexivity|lia]. Qed.

(** ** C07 *)
Theorem C07_updates_keep_indices_exact : forall (R : Type) c m (r : R) ds mc s0 rds s out,
  im_make c m r ds mc = Ok s0 -> exact_inds c out -> im_run rds s0 = Ok s ->
  exact_inds (im_ct s) out /\ (mc = None -> exact_inds (im_min_ct s) out).
Proof. exact c07. Qed.
Print Assumptions C07_updates_keep_indices_exact.

(** ** C08 *)
Theorem C08_updates_keep_the_tree_valid : forall (R : Type) c m (r : R) ds mc s0 rds s,
  well_formed (nodes c) -> im_make c m r ds mc = Ok s0 -> im_run rds s0 = Ok s ->
  ctree_is_valid (im_ct s) false = true /\ ctree_is_valid (im_min_ct s) false = true.
Proof. exact c08. Qed.
Print Assumptions C08_updates_keep_the_tree_valid.

(** With shared indices enforced, for a tree whose indices are exact. *)
Theorem C08_shared_indices_kept_partial : forall (R : Type) c m (r : R) ds mc s0 rds s out,
  exact_inds c out -> im_make c m r ds mc = Ok s0 -> im_run rds s0 = Ok s ->
  ctree_is_valid (im_ct s) (negb ds) = true /\ ctree_is_valid (im_min_ct s) (negb ds) = true /\
  (ds = false -> all_share (im_ct s) /\ all_share (im_min_ct s)).
Proof. exact c08_shared. Qed.
Print Assumptions C08_shared_indices_kept_partial.

(** Missing: trees that pass is_valid without being exact. There the claim is
    false: tensors {0,1} {0} {0,1}, the first two contract to {1}, the root
    is {0}; the tree is valid, all contractions share an index, and after one
    update a contraction is an outer product. *)
Definition bad_tree : tree :=
  [ mkNode None None (Some 3); mkNode None None (Some 3); mkNode None None (Some 4);
    mkNode (Some 0) (Some 1) (Some 4); mkNode (Some 3) (Some 2) None ].
Definition bad_bt : bt := Nd 4 (Nd 3 (Lf 0) (Lf 1)) (Lf 2).
Definition bad_c : ctree := mkCT bad_tree
  [[true; true]; [true; false]; [true; true]; [false; true]; [true; false]] (DInt 2).
Definition bad_s0 : im_state nat :=
  match im_make bad_c Simple 0 false None with Ok s => s
  | Err _ => mkIM bad_c false 0 bad_c Simple (mkCC [] []) [] 0%Z end.
Definition bad_s : im_state nat :=
  match im_run [ex_rd] bad_s0 with Ok s => s | Err _ => bad_s0 end.

Example bad_wf : well_formed (nodes bad_c).
Proof.
  exists bad_bt. split; [simpl; auto 10|]. split; [|split; [reflexivity|]].
  - simpl. change (Permutation.Permutation [4; 3; 0; 1; 2] [0; 1; 2; 3; 4]).
    apply (Permutation.NoDup_Permutation); [repeat constructor; simpl; intuition lia|repeat constructor; simpl; intuition lia|].
    simpl. intros x. intuition.
  - intros p. simpl. lia.
Qed.

Theorem C08_shared_indices_refuted :
  exists (c : ctree) s0 s, well_formed (nodes c) /\ im_make c Simple 0 false None = Ok s0 /\
    ctree_is_valid c true = true /\ all_share c /\
    im_run [ex_rd] s0 = Ok s /\ ctree_is_valid (im_ct s) true = false /\ ~ all_share (im_ct s).
Proof.
  exists bad_c, bad_s0, bad_s. split; [exact bad_wf|]. split; [vm_compute; reflexivity|].
  split; [vm_compute; reflexivity|]. split; [apply valid_all_share; vm_compute; reflexivity|].
  split; [vm_compute; reflexivity|]. split; [vm_compute; reflexivity|].
  intros H. specialize (H 4 3 1 None). destruct H as (x & (b & Hb & Hx) & _); [vm_compute; reflexivity|].
  vm_compute in Hb. inversion Hb; subst b. destruct x as [|[|x]]; simpl in Hx; try discriminate. destruct x; discriminate.
Qed.
Print Assumptions C08_shared_indices_refuted.

(** ** C09 *)
Theorem C09_total_cost_is_the_cost_of_the_tree : forall (R : Type) c m (r : R) ds mc s0 rds s,
  well_formed (nodes c) -> cmodel_ok m (n_inds c) -> im_make c m r ds mc = Ok s0 -> im_run rds s0 = Ok s ->
  exists T, tree_of (nodes (im_ct s)) T /\
    im_total s = Ok (tree_cost m (im_ct s) (n_inds c) no_slices T) /\
    get_cost (im_ccost m (dims (im_ct s))) (im_ct s) = im_total s.
Proof. exact c09. Qed.
Print Assumptions C09_total_cost_is_the_cost_of_the_tree.
Example C09_applies : tree_cost Simple ex_c 4 no_slices ex_bt = (12 + 48 + 8)%Z /\ im_total ex_s0 = Ok 68%Z.
Proof. split; vm_compute; reflexivity. Qed.

(** ** C10 *)
Theorem C10_minimum_is_the_best_so_far : forall (R : Type) c m (r : R) ds mc s0 rds s,
  well_formed (nodes c) -> im_make c m r ds mc = Ok s0 -> im_run rds s0 = Ok s ->
  (* the recorded minimum is the cost of the recorded tree *)
  get_cost (im_ccost m (dims (im_min_ct s))) (im_min_ct s) = Ok (im_min s) /\
  (forall T, tree_of (nodes (im_min_ct s)) T -> cmodel_ok m (n_inds (im_min_ct s)) ->
     im_min s = tree_cost m (im_min_ct s) (n_inds (im_min_ct s)) no_slices T) /\
  (* it never increases and is at most the cost at the end of every update so far *)
  (forall rds1 rds2 s1, rds = rds1 ++ rds2 -> im_run rds1 s0 = Ok s1 ->
     (im_min s <= im_min s1)%Z /\
     (rds1 <> [] -> forall t1, im_total s1 = Ok t1 -> (im_min s <= t1)%Z)) /\
  (mc = None -> forall t0, im_total s0 = Ok t0 -> (im_min s <= t0)%Z) /\
  (* it is the initial best, or was current at the end of some update *)
  (im_min_ct s = im_min_ct s0 /\ im_min s = im_min s0 \/
   exists rds1 rds2 s1, rds = rds1 ++ rds2 /\ rds1 <> [] /\ im_run rds1 s0 = Ok s1 /\
     im_min_ct s = im_ct s1 /\ im_total s1 = Ok (im_min s)).
Proof. exact c10. Qed.
Print Assumptions C10_minimum_is_the_best_so_far.

(** With a best tree supplied by the user the initial cost may be lower than the
    recorded minimum until the first update. *)
Definition ex_best : ctree := match ex_run with Ok s => im_min_ct s | Err _ => ex_c end.
Theorem C10_initial_cost_refuted :
  exists s t, im_make ex_best Simple 0 false (Some ex_c) = Ok s /\ im_total s = Ok t /\ (t < im_min s)%Z.
Proof. do 2 eexists. split; [vm_compute; reflexivity|]. split; vm_compute; reflexivity. Qed.
Print Assumptions C10_initial_cost_refuted.

(** ** C11 *)
Theorem C11_updates_keep_the_problem : forall (R : Type) c m (r : R) ds mc s0 rds s,
  well_formed (nodes c) -> im_make c m r ds mc = Ok s0 -> im_run rds s0 = Ok s ->
  same_problem c (im_ct s) /\ (im_min_ct s = im_min_ct s0 \/ same_problem c (im_min_ct s)) /\
  (mc = None -> same_problem c (im_min_ct s)) /\ im_cm s = m /\ im_ds s = ds.
Proof. exact c11. Qed.
Print Assumptions C11_updates_keep_the_problem.

(** ** C12 *)
Theorem C12_update_terminates_in_range : forall (R : Type) c m (r : R) ds mc s0,
  well_formed (nodes c) -> im_make c m r ds mc = Ok s0 ->
  forall rds, exists s, im_run rds s0 = Ok s /\
  (* the walk from a leaf of depth d ends after at most d neighbourhoods *)
  forall T l d rd B nd r', tree_of (nodes (im_ct s)) T -> In l (leaves T) -> at_depth l d T ->
    nth_error (nodes (im_ct s)) l = Some nd -> par nd = Some B ->
    exists tc s', im_total s = Ok tc /\
      forall fuel, d <= fuel -> im_loop rd fuel (with_rng s r') tc B = Ok s'.
Proof. exact c12. Qed.
Print Assumptions C12_update_terminates_in_range.

(** ** C13 *)
Theorem C13_greedy_never_increases_partial : forall (R : Type) c m (r : R) ds mc s0 rds0 rds s s' t t',
  well_formed (nodes c) -> im_make c m r ds mc = Ok s0 -> im_run rds0 s0 = Ok s ->
  Forall (fun rd => exists prng uniform, rd = q_rand prng uniform greedy_prob /\
                      forall r, (0 < fst (uniform r))%Q) rds ->
  im_run rds s = Ok s' -> im_total s = Ok t -> im_total s' = Ok t' -> (t' <= t)%Z.
Proof. exact c13_greedy. Qed.
Print Assumptions C13_greedy_never_increases_partial.

Definition ex_greedy : rand nat := q_rand (fun r => (r, S r)) (fun r => (1 # 2, S r)%Q) greedy_prob.
Example C13_greedy_applies : exists s s' t t', im_run [ex_rd] ex_s0 = Ok s /\ im_run [ex_greedy; ex_greedy] s = Ok s' /\
  im_total s = Ok t /\ im_total s' = Ok t' /\ (t' < t)%Z.
Proof. do 4 eexists. do 3 (split; [vm_compute; reflexivity|]).
  try (split; [vm_compute; reflexivity|]). vm_compute; reflexivity. Qed.

(** Missing: a uniform draw that is exactly 0. The test is [uniform <= prob], so
    a move of probability 0 is then accepted. *)
Definition zero_greedy : rand nat := q_rand (fun r => (r, S r)) (fun r => (0, S r)%Q) greedy_prob.
Theorem C13_greedy_never_increases_refuted :
  exists s0 s t0 t, im_make ex_best Simple 1 false None = Ok s0 /\ im_run [zero_greedy] s0 = Ok s /\
    im_total s0 = Ok t0 /\ im_total s = Ok t /\ (t0 < t)%Z.
Proof. do 4 eexists. do 3 (split; [vm_compute; reflexivity|]).
  try (split; [vm_compute; reflexivity|]). vm_compute; reflexivity. Qed.
Print Assumptions C13_greedy_never_increases_refuted.

Theorem C13_metropolis_probability : forall beta delta old, (0 <= beta)%R -> (0 < old)%Z ->
  (0 < mh_prob beta delta old <= 1)%R.
Proof. exact mh_range. Qed.
Print Assumptions C13_metropolis_probability.
Theorem C13_metropolis_monotone : forall beta beta' delta delta' old,
  (0 <= beta <= beta')%R -> (0 < old)%Z -> (delta <= delta')%Z ->
  (mh_prob beta' delta' old <= mh_prob beta delta old)%R.
Proof. exact mh_antitone. Qed.
Print Assumptions C13_metropolis_monotone.
Theorem C13_metropolis_infinite_temperature : forall delta old, (0 < old)%Z -> mh_prob 0 delta old = 1%R.
Proof. exact mh_zero. Qed.
Print Assumptions C13_metropolis_infinite_temperature.

Theorem C13_metropolis_accepts_improvements : forall (R : Type) prng (uniform : R -> Q * R) beta r delta tot,
  (fst (uniform r) <= 1)%Q -> (delta <= 0)%Z ->
  fst (accept (r_rand prng uniform (mh_prob beta)) r delta tot) = true.
Proof. exact mh_accept. Qed.
Print Assumptions C13_metropolis_accepts_improvements.

(** In a run the rule is only consulted with a positive running total: two rules
    that agree there give the same run. *)
Theorem C13_rule_consulted_with_positive_total : forall (R : Type) c m (r : R) ds mc s0 rds rds',
  well_formed (nodes c) -> cmodel_ok m (n_inds c) -> im_make c m r ds mc = Ok s0 ->
  Forall2 (fun rd rd' : rand R =>
    (forall r, draw rd r = draw rd' r) /\
    (forall r delta tot, (0 < tot)%Z -> accept rd r delta tot = accept rd' r delta tot)) rds rds' ->
  im_run rds s0 = im_run rds' s0.
Proof. exact c13_positive. Qed.
Print Assumptions C13_rule_consulted_with_positive_total.

(** ** C14 *)
Theorem C14_is_valid_after_updates_partial : forall (R : Type) c m (r : R) ds mc s0 rds s,
  (exists out, exact_inds c out) \/ (ds = true /\ well_formed (nodes c)) ->
  im_make c m r ds mc = Ok s0 -> im_run rds s0 = Ok s -> im_is_valid s = true.
Proof. exact c14. Qed.
Print Assumptions C14_is_valid_after_updates_partial.
(** Missing: trees accepted with shared indices enforced whose indices are not
    exact; is_valid may then fail. *)
Theorem C14_is_valid_after_updates_refuted :
  exists (c : ctree) s0 s, well_formed (nodes c) /\ im_make c Simple 0 false None = Ok s0 /\
    im_is_valid s0 = true /\ im_run [ex_rd] s0 = Ok s /\ im_is_valid s = false.
Proof.
  exists bad_c, bad_s0, bad_s. split; [exact bad_wf|].
  repeat match goal with |- _ /\ _ => split end; vm_compute; reflexivity.
Qed.
Print Assumptions C14_is_valid_after_updates_refuted.

(** ** C15 *)
Theorem C15_pickling_is_transparent_partial : forall (R : Type) c m (r : R) ds mc s0 rds s,
  (exists out, exact_inds c out) \/ (ds = true /\ well_formed (nodes c)) ->
  cmodel_ok m (n_inds c) ->
  im_make c m r ds mc = Ok s0 -> im_run rds s0 = Ok s -> im_unpickle (im_pickle s) = Ok s.
Proof. exact c15. Qed.
Print Assumptions C15_pickling_is_transparent_partial.
(** Missing: the same trees as for C14; restoring then raises. *)
Theorem C15_pickling_is_transparent_refuted :
  exists (c : ctree) s0 s, well_formed (nodes c) /\ im_make c Simple 0 false None = Ok s0 /\
    im_run [ex_rd] s0 = Ok s /\ im_unpickle (im_pickle s) = Err Throw.
Proof.
  exists bad_c, bad_s0, bad_s. split; [exact bad_wf|].
  repeat match goal with |- _ /\ _ => split end; vm_compute; reflexivity.
Qed.
Print Assumptions C15_pickling_is_transparent_refuted.
