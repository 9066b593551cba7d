(** C45: costs computed with rounded arithmetic. *)
From Coq Require Import ZArith List Lia.
From Verif Require Import M_Base M_Bitset M_Tree M_CTree M_Cost M_Opt M_InfMem M_Float S_Tree S_Opt S_Float
  P_Approx P_FloatMain P_FloatPickle P_FloatExact P_TreeProps P_Canon Props_InfMem.
Import ListNotations.
Local Open Scope Z_scope.

(** ** The arithmetic: 53 bits (double), 24 bits (float), any number of bits *)
Theorem C45_floats_are_accurate : forall p pp cl q, (1 <= q)%nat -> (q <= p)%nat -> (q <= pp)%nat ->
  accurate q 2 (float p pp cl).
Proof. exact float_accurate. Qed.
Print Assumptions C45_floats_are_accurate.
Theorem C45_floats_are_exact_on_small_numbers : forall p pp cl, (1 <= p)%nat -> (1 <= pp)%nat ->
  exact_upto (Z.min (2 ^ Z.of_nat p) (2 ^ Z.of_nat pp)) (float p pp cl).
Proof. exact float_exact. Qed.
Print Assumptions C45_floats_are_exact_on_small_numbers.

(** ** Whatever the rounding: no run fails, and no tree is lost *)
Theorem C45_every_run_succeeds : forall ar (R : Type) c m (r : R) ds mc s0,
  well_formed (nodes c) -> fim_make ar c m r ds mc = Ok s0 -> forall rds, exists s, fim_run ar rds s0 = Ok s.
Proof. exact c45_runs. Qed.
Print Assumptions C45_every_run_succeeds.
Theorem C45_trees_do_not_depend_on_rounding : forall ar (R : Type) c m (r : R) ds mc s0 rds s out,
  fim_make ar c m r ds mc = Ok s0 -> exact_inds c out -> fim_run ar rds s0 = Ok s ->
  exact_inds (im_ct s) out /\ same_problem c (im_ct s) /\
  ctree_is_valid (im_ct s) (negb ds) = true /\ ctree_is_valid (im_min_ct s) (negb ds) = true /\
  (mc = None -> exact_inds (im_min_ct s) out /\ same_problem c (im_min_ct s)).
Proof. exact c45_trees. Qed.
Print Assumptions C45_trees_do_not_depend_on_rounding.

(** ** The reported costs do not drift: the error does not grow with the updates *)
Theorem C45_reported_cost_is_close : forall ar q kp, (1 <= q)%nat -> accurate q kp ar ->
  forall (R : Type) c m (r : R) ds mc s0 rds s,
  well_formed (nodes c) -> cmodel_ok m (n_inds c) -> fim_make ar c m r ds mc = Ok s0 -> fim_run ar rds s0 = Ok s ->
  exists T t, tree_of (nodes (im_ct s)) T /\ im_total s = Ok t /\
    approx q (2 * (n_inds c + kp + 1) + length (nodes c)) t (tree_cost m (im_ct s) (n_inds c) no_slices T).
Proof. exact c45_total. Qed.
Print Assumptions C45_reported_cost_is_close.
Theorem C45_best_is_close_and_never_worse : forall ar q kp, (1 <= q)%nat -> accurate q kp ar ->
  forall (R : Type) c m (r : R) ds mc s0 rds s,
  well_formed (nodes c) -> fim_make ar c m r ds mc = Ok s0 -> fim_run ar rds s0 = Ok s ->
  (* the recorded minimum is about the cost of the recorded tree *)
  (forall T, tree_of (nodes (im_min_ct s)) T -> cmodel_ok m (n_inds (im_min_ct s)) ->
     approx q (2 * (n_inds (im_min_ct s) + kp + 1) + length (nodes (im_min_ct s))) (im_min s)
       (tree_cost m (im_min_ct s) (n_inds (im_min_ct s)) no_slices T)) /\
  (* it never increases and is at most the reported cost at the end of every update so far *)
  (forall rds1 rds2 s1, rds = rds1 ++ rds2 -> fim_run ar rds1 s0 = Ok s1 ->
     im_min s <= im_min s1 /\
     (rds1 <> [] -> forall t1, im_total s1 = Ok t1 -> im_min s <= t1)) /\
  (* it is the initial best, or was current and reported at the end of some update *)
  (im_min_ct s = im_min_ct s0 /\ im_min s = im_min s0 \/
   exists rds1 rds2 s1, rds = rds1 ++ rds2 /\ rds1 <> [] /\ fim_run ar rds1 s0 = Ok s1 /\
     im_min_ct s = im_ct s1 /\ im_total s1 = Ok (im_min s)).
Proof. exact c45_min. Qed.
Print Assumptions C45_best_is_close_and_never_worse.

(** ** Costs that are small enough are not rounded at all *)
Theorem C45_small_costs_are_exact : forall ar Bd, exact_upto Bd ar -> (forall z, 0 <= z -> rclose ar z z = true) ->
  forall (R : Type) c m (r : R) ds mc,
  let c' := match mc with Some x => x | None => c end in
  well_formed (nodes c) -> well_formed (nodes c') -> cmodel_ok m (n_inds c) -> cmodel_ok m (n_inds c') -> projs_upto Bd m ->
  Z.of_nat (length (nodes c)) * all_dims (dims c) (n_inds c) <= Bd ->
  Z.of_nat (length (nodes c')) * all_dims (dims c') (n_inds c') <= Bd ->
  fim_make ar c m r ds mc = im_make c m r ds mc /\
  forall s0, im_make c m r ds mc = Ok s0 -> forall rds, fim_run ar rds s0 = im_run rds s0.
Proof. exact c45_exact. Qed.
Print Assumptions C45_small_costs_are_exact.

(** ** is_valid and pickling *)
Theorem C45_is_valid_within_tolerance : forall ar q kp, (1 <= q)%nat -> accurate q kp ar ->
  forall (R : Type) c m (r : R) ds mc s0,
  (exists out, exact_inds c out) \/ (ds = true /\ well_formed (nodes c)) -> cmodel_ok m (n_inds c) ->
  fim_make ar c m r ds mc = Ok s0 ->
  forall rds s, tolerates q (2 * (n_inds c + kp + 1) + length (nodes c)) ar -> fim_run ar rds s0 = Ok s ->
  fim_is_valid ar s = true.
Proof. exact c45_valid. Qed.
Print Assumptions C45_is_valid_within_tolerance.
Theorem C45_log_tolerance : forall p pp q k, (1 <= q)%nat -> tolerates q k (float p pp (logclose q k)).
Proof. exact float_tolerates. Qed.
Print Assumptions C45_log_tolerance.
Theorem C45_pickling_keeps_trees_partial : forall ar q kp, (1 <= q)%nat -> accurate q kp ar ->
  forall (R : Type) c m (r : R) ds mc s0,
  (exists out, exact_inds c out) \/ (ds = true /\ well_formed (nodes c)) -> cmodel_ok m (n_inds c) ->
  fim_make ar c m r ds mc = Ok s0 ->
  forall rds s, (forall z, 0 <= z -> rclose ar z z = true) -> fim_run ar rds s0 = Ok s ->
  exists s', fim_unpickle ar (im_pickle s) = Ok s' /\ im_pickle s' = im_pickle s.
Proof. exact c45_pickle. Qed.
Print Assumptions C45_pickling_keeps_trees_partial.

(** A concrete network: the one of Props_InfMem, with doubles. *)
Definition dbl : arith := float 53 53 (logclose 53 30).
Example C45_applies : accurate 53 2 dbl /\ tolerates 53 30 dbl /\ exact_upto (2 ^ 53) dbl /\
  Z.of_nat (length (nodes ex_c)) * all_dims (dims ex_c) (n_inds ex_c) <= 2 ^ 53 /\
  exists s0 s, fim_make dbl ex_c Simple 0%nat false None = Ok s0 /\ fim_run dbl [ex_rd; ex_rd] s0 = Ok s /\
    im_ct s <> im_ct s0 /\ fim_is_valid dbl s = true.
Proof.
  split; [apply float_accurate; lia|]. split; [apply float_tolerates; lia|].
  split; [apply (@float_exact 53 53); lia|]. split; [vm_compute; discriminate|].
  do 2 eexists. split; [vm_compute; reflexivity|]. split; [vm_compute; reflexivity|].
  split; [vm_compute; discriminate|vm_compute; reflexivity].
Qed.

(** ** What rounding breaks *)
Definition fl_bits (n : nat) (l : list nat) : bitset := map (fun i => existsb (Nat.eqb i) l) (seq 0 n).
Definition fl_leaf (p : nat) : node := mkNode None None (Some p).
Definition fl_node (a b : nat) (p : option nat) : node := mkNode (Some a) (Some b) p.

(** Missing 1: between the moves of one update the running total is the old total
    plus rounded differences. After a big improvement it can be zero or negative,
    and this is the cost that the acceptance rule is given. The chain of matrices
    M1[i,j] M2[j,k] M3[k,l] M4[l,m] M5[m,n], contracted from the left, where i and k
    have dimension 2^60 and the others 1; every improving move is accepted. *)
Definition fl_chain : ctree := mkCT
  [fl_leaf 5; fl_leaf 5; fl_leaf 6; fl_leaf 7; fl_leaf 8; fl_node 0 1 (Some 6%nat); fl_node 5 2 (Some 7%nat);
   fl_node 6 3 (Some 8%nat); fl_node 7 4 None]
  (map (fl_bits 6) [[0;1];[1;2];[2;3];[3;4];[4;5];[0;2];[0;3];[0;4];[0;5]]%nat)
  (DVec [2 ^ 60; 1; 2 ^ 60; 1; 1; 1]%N).
Definition fl_log : rand (list (Z * Z)) := mkRand (fun r => (O, r)) (fun r d t => (d <=? 0, (d, t) :: r)).
Theorem C45_acceptance_is_given_the_cost_refuted :
  exists s0 s d t, fim_make dbl fl_chain Simple [] false None = Ok s0 /\ fim_run dbl [fl_log] s0 = Ok s /\
    im_total s0 = Ok (2 ^ 121) /\ In (d, t) (im_rng s) /\ t < 0.
Proof.
  do 2 eexists. exists (- 2 ^ 60), (- 2 ^ 60). split; [vm_compute; reflexivity|]. split; [vm_compute; reflexivity|].
  split; [vm_compute; reflexivity|]. split; [left; vm_compute; reflexivity|vm_compute; reflexivity].
Qed.
Print Assumptions C45_acceptance_is_given_the_cost_refuted.

(** Missing 2: the constructor and the updates add up the costs of a node in
    different orders, so that an update that rejects every move can change the
    reported cost, and an optimizer that is pickled and restored reports another
    cost than the original. Here with the 24 bits of a float. *)
Definition fl_pair : ctree := mkCT
  [fl_leaf 4; fl_leaf 4; fl_leaf 5; fl_leaf 5; fl_node 0 1 (Some 6%nat); fl_node 2 3 (Some 6%nat); fl_node 4 5 None]
  (map (fl_bits 2) [[0];[0];[1];[1];[0];[1];[0;1]]%nat) (DVec [4097; 4097]%N).
Definition fl_reject : rand nat := mkRand (fun r => (r, r)) (fun r d t => (false, r)).
Definition sgl : arith := float 24 24 (logclose 24 30).
Theorem C45_pickling_is_transparent_refuted :
  exists s0 s s' t0 t, fim_make sgl fl_pair Simple 0%nat true None = Ok s0 /\ fim_run sgl [fl_reject] s0 = Ok s /\
    fim_unpickle sgl (im_pickle s) = Ok s' /\ im_ct s = im_ct s0 /\
    im_total s0 = Ok t0 /\ im_total s = Ok t /\ im_total s' = Ok t0 /\ t0 < t.
Proof.
  do 5 eexists. do 7 (split; [vm_compute; reflexivity|]). vm_compute. reflexivity.
Qed.
Print Assumptions C45_pickling_is_transparent_refuted.
