(** C72: equal trees, cost models and optimizers can take each other's place. *)
From Coq Require Import Permutation.
From Verif Require Import M_Base M_Bitset M_Tree M_CTree M_Cost M_Opt M_InfMem M_FinWidth M_Path M_PyTree M_PyNodes M_Random M_App M_ValidTree M_Json
  S_Tree S_Opt S_FinWidth M_Alike S_Alike P_InfMemFinal P_Alike Props_InfMem Props_FinWidth Props_App.
Set Implicit Arguments.
Unset Strict Implicit.
Local Notation core := M_PyTree.core.
Local Notation nodes := M_CTree.nodes.

(** Two trees compare equal exactly if they have the same nodes, sets of indices,
    dimensions and names of indices. *)
Theorem C72_equal_trees : forall a b, pytree_eqb a b = true <->
  nodes (core a) = nodes (core b) /\ inds (core a) = inds (core b) /\ dims (core a) = dims (core b) /\ inds_order a = inds_order b.
Proof.
  intros a b. rewrite pytree_iff. destruct (core a), (core b). simpl. split; [intros (E & H)|intros (-> & -> & -> & ->); auto]. injection E as -> -> ->. auto.
Qed.
Print Assumptions C72_equal_trees.

(** Two cost models compare equal exactly if they are the same; then they give the same
    C++ model for every tree, hence the same costs. *)
Theorem C72_equal_models : forall a b,
  (pmodel_eqb a b = true <-> same_model a b) /\
  (pmodel_eqb a b = true -> forall order k, NoDup order -> pm_core a order = Ok k -> pm_core b order = Ok k).
Proof. intros a b. split; [apply pmodel_iff|]. intros E order k HN Hk. apply pmodel_iff in E. exact (pm_core_same HN E Hk). Qed.
Print Assumptions C72_equal_models.
Theorem C72_equal_finite_width_models : forall a b, pfmodel_eqb a b = true <-> same_fmodel a b.
Proof. exact pfmodel_iff. Qed.
Print Assumptions C72_equal_finite_width_models.

Section Generator.
Variables (R : Type) (eqr : R -> R -> bool).
Hypothesis Heqr : forall x y, eqr x y = true <-> x = y.

(** Optimizers with infinite memory can always be compared. They are equal exactly if one
    sees the same of them and they have the same cost model. *)
Theorem C72_infinite_memory_equality : forall a b : im_obj R, im_lived a -> im_lived b ->
  exists v, io_equal eqr a b = Ok v /\ (v = true <-> im_alike a b /\ same_model (io_model a) (io_model b)).
Proof. exact (io_equal_iff Heqr). Qed.
(** Equal ones stay alike whatever updates are made. *)
Theorem C72_infinite_memory_stays_alike : forall (a b : im_obj R) rds, im_lived a -> im_lived b -> io_equal eqr a b = Ok true ->
  exists a' b', io_run rds a = Ok a' /\ io_run rds b = Ok b' /\ im_alike a' b'.
Proof.
  intros a b rds La Lb E. destruct (io_run_ok rds La) as (a' & Ha). destruct (io_equal_run Heqr La Lb E Ha) as (b' & Hb & H). eauto.
Qed.
(** A copy made by pickle is equal to the original. *)
Theorem C72_infinite_memory_copy : forall o : im_obj R, im_lived o ->
  (exists out, exact_inds (core (io_tree o)) out) \/ im_ds (io_state o) = true ->
  exists o', io_copy o = Ok o' /\ io_equal eqr o o' = Ok true /\ io_reduce o' = io_reduce o /\ io_state o' = io_state o.
Proof. intros o L HX. destruct (io_copy_ok Heqr L HX) as (o' & H1 & H2 & H3 & H4). eauto. Qed.

(** The same for a finite width, between optimizers with the same max_number_new_slices;
    the copy is of one that never adds slices. *)
Theorem C72_finite_width_equality : forall lg n (a b : fw_obj R), fw_lived lg n a -> fw_lived lg n b ->
  exists v, fo_equal eqr a b = Ok v /\ (v = true <-> fw_alike a b /\ same_fmodel (fo_model a) (fo_model b)).
Proof. exact (fo_equal_iff Heqr). Qed.
Theorem C72_finite_width_stays_alike : forall lg n (a b : fw_obj R) us, fw_lived lg n a -> fw_lived lg n b -> fo_equal eqr a b = Ok true ->
  match fo_run lg us a, fo_run lg us b with
  | Ok a', Ok b' => fw_alike a' b'
  | Err e, Err e' => e = e'
  | _, _ => False
  end.
Proof. intros lg n a b us La Lb. exact (fo_equal_run Heqr us La Lb). Qed.
Theorem C72_finite_width_copy : forall lg fr (o : fw_obj R), fw_lived lg 0 o ->
  (exists out, exact_inds (core (fo_tree o)) out) \/ fw_ds (fo_state o) = true ->
  exists o', fo_copy lg fr o = Ok o' /\ fo_equal eqr o o' = Ok true /\ fo_reduce o' = fo_reduce o /\ fo_state o' = fo_state o.
Proof. intros lg fr o L HX. destruct (fo_copy_ok Heqr fr L HX) as (o' & H1 & H2 & H3 & H4). eauto. Qed.
End Generator.
Print Assumptions C72_infinite_memory_equality.
Print Assumptions C72_infinite_memory_stays_alike.
Print Assumptions C72_infinite_memory_copy.
Print Assumptions C72_finite_width_equality.
Print Assumptions C72_finite_width_stays_alike.
Print Assumptions C72_finite_width_copy.

(** A network of four tensors with a hyper-index and an open index, tree (3 (2 (0 1))). *)
Definition al_ts : list (list nat) := [[0; 1]; [1; 2]; [1; 2; 3]; [0; 3]].
Definition al_path : path := [(0, 1); (0, 2); (0, 1)].
Definition no_tree : pytree := mkPT (mkCT [] [] (DInt 2)) 0 [] [].
Definition al_t : pytree := match pytree_make al_path al_ts d2 (Some [3]) true with Ok t => t | Err _ => no_tree end.
Lemma al_tree : tree_of (nodes (core al_t)) (Nd 6 (Lf 3) (Nd 5 (Lf 2) (Nd 4 (Lf 0) (Lf 1)))).
Proof.
  repeat split; auto.
  - vm_compute. apply NoDup_Permutation.
    + repeat constructor; simpl; intuition discriminate.
    + repeat constructor; simpl; intuition discriminate.
    + intros x; simpl; tauto.
  - replace ((length (nodes (core al_t)) + 1) / 2) with 4 by (vm_compute; reflexivity). cbn. intuition lia.
  - replace ((length (nodes (core al_t)) + 1) / 2) with 4 by (vm_compute; reflexivity). cbn. intros H. do 4 (destruct p as [|p]; [tauto|]). lia.
Qed.
Definition al_model : pmodel := mkPM [102%Z] (Some [1]) (Some 2%Z).
Definition al_fmodel : pfmodel := mkPF 2 (mkPM [102%Z] None None) [102%Z].
Definition al_o : im_obj nat :=
  match (let! o := io_make al_t al_model 3 false None in io_run [ex_rd; ex_rd] o) with Ok o => o | Err _ => mkIO no_tree al_model (mkIM (core no_tree) false 0 (core no_tree) Simple (mkCC [] []) [] 0%Z) end.
Definition al_f0 (k : nat) : fw_obj nat :=
  match fo_make lg2 fx_fr al_t al_fmodel k 3 false [0] None None None with Ok o => o | Err _ => mkFO no_tree al_fmodel [] fw_dflt end.
Lemma al_lived : im_lived al_o.
Proof.
  constructor. exists al_path, al_ts, d2, (Some [3]), true, al_t, al_model, 3, false. do 2 eexists.
  split; [vm_compute; reflexivity|]. split; [eexists; exact al_tree|]. split; [intros k H; injection H as <-; lia|].
  split; [vm_compute; reflexivity|]. instantiate (1 := [ex_rd; ex_rd]). vm_compute. reflexivity.
Qed.
Lemma al_flived k : k = 0 \/ k = 1 -> fw_lived lg2 k (al_f0 k).
Proof.
  intros Hk. constructor. exists fx_fr, al_path, al_ts, d2, (Some [3]), true, al_t, al_fmodel, 3, false, [0], (al_f0 k), [].
  split; [exact lg2_log|]. split; [exact fx_shuffles|]. split; [constructor|].
  split; [vm_compute; reflexivity|]. split; [eexists; exact al_tree|]. split; [intros x H; discriminate|].
  destruct Hk as [-> | ->]; split; vm_compute; reflexivity.
Qed.
Lemma al_exact : exists out, exact_inds (core al_t) out.
Proof. exists (fun x => (x =? 3) = true). apply (@exact_check_ok (core al_t) 4 (fun x => x =? 3) _ al_tree). vm_compute. reflexivity. Qed.
(** Its optimizers moved or were sliced, and have copies. *)
Example C72_applies : im_lived al_o /\ (exists out, exact_inds (core (io_tree al_o)) out) /\ im_ct (io_state al_o) <> core al_t /\ im_cm (io_state al_o) <> Simple /\
  (exists o', io_copy al_o = Ok o' /\ io_equal Nat.eqb al_o o' = Ok true /\ io_tree o' <> io_tree al_o) /\
  fw_lived lg2 0 (al_f0 0) /\ bany (fw_sl (fo_state (al_f0 0))) = true /\
  (exists o', fo_copy lg2 fx_fr (al_f0 0) = Ok o' /\ fo_equal Nat.eqb (al_f0 0) o' = Ok true).
Proof.
  split; [exact al_lived|]. split; [replace (io_tree al_o) with al_t by (vm_compute; reflexivity); exact al_exact|]. split; [vm_compute; discriminate|]. split; [vm_compute; discriminate|].
  split. { eexists. split; [vm_compute; reflexivity|]. split; [vm_compute; reflexivity|vm_compute; discriminate]. }
  split; [apply al_flived; auto|]. split; [vm_compute; reflexivity|]. eexists. split; vm_compute; reflexivity.
Qed.

(** Missing: the paths. Equality does not look at the number of tensors nor at which of
    them the leaves are: equal optimizers can hand out different paths. *)
Theorem C72_equal_paths_refuted : exists (a b : im_obj nat) ta tb pa pb,
  im_lived a /\ im_lived b /\ io_equal Nat.eqb a b = Ok true /\
  get_ctree (io_tree a) (im_min_ct (io_state a)) = Ok ta /\ get_ctree (io_tree b) (im_min_ct (io_state b)) = Ok tb /\
  pytree_eqb ta tb = true /\ py_path ta = Ok pa /\ py_path tb = Ok pb /\ pa <> pb.
Proof.
  assert (HW : forall t, nodes (core t) = [mkNode None None (Some 2); mkNode None None (Some 2); mkNode (Some 0) (Some 1) None] -> well_formed (nodes (core t))).
  { intros t ->. exists (Nd 2 (Lf 0) (Lf 1)). repeat split; auto.
    - cbn. apply NoDup_Permutation; [repeat constructor; simpl; intuition discriminate|repeat constructor; simpl; intuition discriminate|]. intros x; simpl; tauto.
    - cbn [length]. change ((3 + 1) / 2) with 2. cbn. intuition lia.
    - cbn [length]. change ((3 + 1) / 2) with 2. cbn. intros H. do 2 (destruct p as [|p]; [tauto|]). lia. }
  do 6 eexists.
  split. { constructor. exists [(0, 1)], [[0; 1]; [0; 1]], d2, None, true. do 1 eexists. exists (mkPM [102%Z] None None), 3, false. do 1 eexists. exists [].
    split; [vm_compute; reflexivity|]. split; [apply HW; reflexivity|]. split; [intros k H; discriminate|]. split; vm_compute; reflexivity. }
  split. { constructor. exists [(0, 2)], [[0; 1]; []; [0; 1]], d2, None, true. do 1 eexists. exists (mkPM [102%Z] None None), 3, false. do 1 eexists. exists [].
    split; [vm_compute; reflexivity|]. split; [apply HW; reflexivity|]. split; [intros k H; discriminate|]. split; vm_compute; reflexivity. }
  do 6 (split; [vm_compute; reflexivity|]). discriminate.
Qed.
Print Assumptions C72_equal_paths_refuted.

(** Missing: max_number_new_slices, which is not compared. A copy of an optimizer that may
    add slices is equal to it, and differs from it after one update. *)
Theorem C72_new_slices_refuted : exists (a b a' b' : fw_obj nat) us,
  fw_lived lg2 1 a /\ fo_copy lg2 fx_fr a = Ok b /\ fo_equal Nat.eqb a b = Ok true /\
  fo_run lg2 us a = Ok a' /\ fo_run lg2 us b = Ok b' /\ fw_total (fo_state a') <> fw_total (fo_state b').
Proof.
  exists (al_f0 1). do 3 eexists. exists [(fx_fr, true)]. split; [apply al_flived; auto|]. do 4 (split; [vm_compute; reflexivity|]). vm_compute. discriminate.
Qed.
Print Assumptions C72_new_slices_refuted.

(** Missing: the converse for cost models. No sparse indices and an empty set of them are
    told apart, although the models are the same for every tree. *)
Theorem C72_same_costs_refuted : exists a b, pmodel_eqb a b = false /\ forall order, pm_core a order = pm_core b order.
Proof. exists (mkPM [102%Z] None None), (mkPM [102%Z] (Some []) None). split; reflexivity. Qed.
Print Assumptions C72_same_costs_refuted.
