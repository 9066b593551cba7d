(** C47: load_tn for a TensorNetwork (tnco.app.load_tn), and then optimize and contract. *)
From Coq Require Import List Arith NArith ZArith Bool Permutation.
Import ListNotations.
From Verif Require Import M_Base M_Path M_PyTree M_PyNodes M_InfMem M_FinWidth M_Random M_Fuse M_Tensor M_Contract M_Decompose M_App M_TnApp M_LoadTn.
From Verif Require Import S_FinWidth S_Path S_PyTree S_Random S_Network S_Fuse S_Tensor S_Contract S_Slice S_Decompose S_App S_TnApp S_LoadTn.
From Verif Require Import M_Opt S_Opt P_LoadTnMain P_LoadTnUse P_LoadTnRun Props_Tensor Props_Random Props_Decompose Props_App.
Local Notation has := S_Random.has.
Local Open Scope nat_scope.

(** A network with arrays is loaded to one that stands for the same tensor ([loaded]),
    whatever the options, provided that merging hyper-indices is harmless and that the
    network has not been fused before. Missing: the networks for which merging is not
    harmless and those that were fused before; for them the claim is false (see below). *)
Theorem C47_load_keeps_value_partial (K : Type) (A : alg K) (eqb : K -> K -> bool) (R : Type) (g : prng R) lg arr o l dec f width r :
  semiring A -> (forall x y, eqb x y = true <-> x = y) -> prng_ok g -> (forall k, Permutation (arr k) k) ->
  built (o_net o) -> plain (o_net o) -> length (o_tags o) = length (n_list (o_net o)) -> arrays_are (o_net o) l -> merging A eqb dec o f ->
  (forall w, width = Some w -> (0 < w)%Z -> n_sparse (o_net o) = [] -> o_path o = None) ->
  exists o' l', load_tn A eqb g lg arr o dec width r = Ok o' /\ loaded A o o' l l' f.
Proof. intros SR EQ Hg Harr. exact (@load_ok K A SR eqb EQ R g Hg lg arr Harr o l dec f width r). Qed.
Print Assumptions C47_load_keeps_value_partial.

(** The tensors are the same when there are sparse indices, when only some tensors have
    arrays, or when nothing is to be decomposed or fused. *)
Theorem C47_load_unchanged (K : Type) (A : alg K) (eqb : K -> K -> bool) (R : Type) (g : prng R) lg arr o dec width r :
  built (o_net o) -> length (o_tags o) = length (n_list (o_net o)) ->
  n_sparse (o_net o) <> [] \/ (exists t a t', In t (n_list (o_net o)) /\ t_array t = Some a /\ In t' (n_list (o_net o)) /\ t_array t' = None) \/
    (dec = false \/ exists t, In t (n_list (o_net o)) /\ t_array t = None) /\ (forall w, width = Some w -> (w <= 0)%Z) ->
  exists o', load_tn A eqb g lg arr o dec width r = Ok o' /\ n_list (o_net o') = n_list (o_net o) /\
    (forall x, In x (n_out (o_net o')) <-> In x (n_out (o_net o))) /\ (forall x, In x (n_sparse (o_net o')) <-> In x (n_sparse (o_net o))) /\
    o_tags o' = o_tags o /\ o_hyper o' = o_hyper o /\ o_path o' = o_path o.
Proof. exact (@load_unchanged K A eqb R g lg arr o dec width r). Qed.
Print Assumptions C47_load_unchanged.

(** Fusing, with all arrays or without arrays: the path is recorded; each new tensor is
    made of the tensors that a term of the path contracts, has the indices that stay,
    and carries the tags of those tensors; no tensor that the path makes is wider than
    the given width; outputs and dimensions are the same. *)
Theorem C47_fused_tensors (K : Type) (A : alg K) (eqb : K -> K -> bool) (R : Type) (g : prng R) lg arr o dec w r :
  semiring A -> prng_ok g -> (forall k, Permutation (arr k) k) ->
  built (o_net o) -> plain (o_net o) -> length (o_tags o) = length (n_list (o_net o)) -> n_sparse (o_net o) = [] -> o_path o = None -> (0 < w)%Z ->
  dec = false /\ (exists l, arrays_are (o_net o) l) \/ no_arrays (o_net o) /\ n_list (o_net o) <> [] ->
  exists o' p cs rest, load_tn A eqb g lg arr o dec (Some w) r = Ok o' /\ o_path o' = Some p /\ o_hyper o' = o_hyper o /\
    performs (length (n_list (o_net o))) p cs rest /\ length (n_list (o_net o')) = length rest /\ length (o_tags o') = length rest /\
    (forall x, In x (n_out (o_net o')) <-> In x (n_out (o_net o))) /\ built (o_net o') /\ (forall x, In x (concat (inds_of (o_net o'))) -> size (o_net o') x = size (o_net o) x) /\
    (forall c, In c cs -> exists zs, NoDup zs /\ (forall x, In x zs <-> stays (inds_of (o_net o)) (n_out (o_net o)) (tensors c) x) /\
       forall k, total_width lg (py_dims (n_dims (o_net o))) zs k -> (k <= w)%Z) /\
    forall i c, nth_error rest i = Some c -> exists t h, nth_error (n_list (o_net o')) i = Some t /\ nth_error (o_tags o') i = Some h /\
      NoDup (t_inds t) /\ (forall x, In x (t_inds t) <-> stays (inds_of (o_net o)) (n_out (o_net o)) (tensors c) x) /\
      Permutation (leaves h) (flat_map (fun k => leaves (nth k (o_tags o) Empty)) (tensors c)) /\
      (no_arrays (o_net o) -> t_array t = None).
Proof. intros SR Hg Harr. exact (@load_fused K A SR eqb R g Hg lg arr Harr o dec w r). Qed.
Print Assumptions C47_fused_tensors.

(** Load, optimize without a limit on the memory, and contract along the path that was
    found: the result is the tensor of the network that was loaded. An index that is in
    one tensor of the loaded network only and is not an output is not summed by contract;
    [ks] lists these. *)
Theorem C47_optimize_and_contract (K : Type) (A : alg K) (eqb : K -> K -> bool) (R0 : Type) (g0 : prng R0) lg0 arr o l dec f width r1
  np (P R B : Type) (g : prng P) pick (rule : B -> rand R) betas n_steps r r0 stop :
  semiring A -> (forall x y, eqb x y = true <-> x = y) -> prng_ok g0 -> (forall k, Permutation (arr k) k) ->
  built (o_net o) -> plain (o_net o) -> length (o_tags o) = length (n_list (o_net o)) -> arrays_are (o_net o) l -> merging A eqb dec o f ->
  (forall w, width = Some w -> (0 < w)%Z -> n_sparse (o_net o) = [] -> o_path o = None) ->
  n_list (o_net o) <> [] -> (forall k, np = Some k -> (1 <= k)%Z) -> (n_sparse (o_net o) <> [] -> np <> None) ->
  n_sparse (o_net o) = [] \/ one_component (inds_of (o_net o)) -> prng_ok g -> pick_ok pick ->
  exists o' l' res zs os az, load_tn A eqb g0 lg0 arr o dec width r1 = Ok o' /\ arrays_are (o_net o') l' /\
    let n := o_net o' in
    im_core (inds_of n) (py_dims (n_dims n)) (n_out n) (n_sparse n) np g pick rule betas n_steps r r0 stop = Ok res /\
    contract A arr (ir_path res) (inds_of n) (Some (n_out n)) (Some l') (Some (py_dims (n_dims n))) = Ok ([zs], os, Some [az]) /\ NoDup zs /\
    (forall x, In x zs <-> (exists y, In y (n_out (o_net o)) /\ x = f y) \/ lonely (inds_of n) x) /\ well_shaped az /\ shape az = map (size n) zs /\
    forall ks v v', NoDup ks -> (forall x, In x ks <-> lonely (inds_of n) x /\ ~ In x (n_out n)) -> in_range (size (o_net o)) (n_out (o_net o)) v ->
      (forall y, In y (n_out (o_net o)) -> v' (f y) = v y) ->
      value A (o_net o) l v = sum_over A (size n) ks (entry_at A az zs) v'.
Proof.
  intros SR EQ Hg0 Harr HB HP HT HA M HW Hne Hnp Hgi Hco Hg Hp. destruct (@load_ok K A SR eqb EQ R0 g0 Hg0 lg0 arr Harr o l dec f width r1 HB HP HT HA M HW) as (o' & l' & E & L).
  destruct (@value_im K A SR arr Harr o o' l l' f L Hne np Hnp Hgi Hco P R B g pick rule betas n_steps r r0 stop Hg Hp) as (res & zs & os & az & H1 & H2 & H3 & H4 & H5).
  exists o', l', res, zs, os, az. split; [exact E|]. split; [apply (ld_arrays L)|]. split; [exact H1|]. split; [exact H2|]. split; [exact H3|]. split; [|exact H5].
  intros x. rewrite H4, (ld_out L). tauto.
Qed.
Print Assumptions C47_optimize_and_contract.

(** The same with a limit on the width: contract each slice and add up the results. *)
Theorem C47_slice_and_contract (K : Type) (A : alg K) (eqb : K -> K -> bool) (R0 : Type) (g0 : prng R0) lg0 arr o l dec f width r1
  np (P R B : Type) (g : prng P) pick lg mx (fr0 : frand R) (rule : B -> frand R) betas n_steps u r r0 stop :
  semiring A -> (forall x y, eqb x y = true <-> x = y) -> prng_ok g0 -> (forall k, Permutation (arr k) k) ->
  built (o_net o) -> plain (o_net o) -> length (o_tags o) = length (n_list (o_net o)) -> arrays_are (o_net o) l -> merging A eqb dec o f ->
  (forall w, width = Some w -> (0 < w)%Z -> n_sparse (o_net o) = [] -> o_path o = None) ->
  n_list (o_net o) <> [] -> (forall k, np = Some k -> (1 <= k)%Z) -> (n_sparse (o_net o) <> [] -> np <> None) ->
  n_sparse (o_net o) = [] \/ one_component (inds_of (o_net o)) ->
  prng_ok g -> pick_ok pick -> log_like lg -> shuffles fr0 -> (forall b, shuffles (rule b)) -> (0 <= mx)%Z -> 0 < u ->
  exists o' l' res zs os (az : (nat -> nat) -> list (nda K) -> nda K), load_tn A eqb g0 lg0 arr o dec width r1 = Ok o' /\ arrays_are (o_net o') l' /\
    let n := o_net o' in
    fw_core (inds_of n) (py_dims (n_dims n)) (n_out n) (n_sparse n) np g pick lg mx fr0 rule betas n_steps u r r0 stop = Ok res /\
    (forall w, exists bs, slices_of A (size n) (fr_slices res) w (inds_of n) l' bs) /\
    (forall w bs, slices_of A (size n) (fr_slices res) w (inds_of n) l' bs ->
       contract A arr (fr_path res) (map (unsliced (fr_slices res)) (inds_of n)) (Some (unsliced (fr_slices res) (n_out n))) (Some bs) None = Ok ([zs], os, Some [az w bs])) /\
    NoDup zs /\ (forall x, In x zs <-> (In x (n_out n) \/ lonely (inds_of n) x) /\ ~ In x (fr_slices res)) /\
    forall (bs : (nat -> nat) -> list (nda K)) k1 k2 v v', (forall w, slices_of A (size n) (fr_slices res) w (inds_of n) l' (bs w)) ->
      NoDup k1 -> (forall x, In x k1 <-> lonely (inds_of n) x /\ ~ In x (n_out n)) ->
      NoDup k2 -> (forall x, In x k2 <-> In x (fr_slices res) /\ ~ lonely (inds_of n) x /\ ~ In x (n_out n)) ->
      in_range (size (o_net o)) (n_out (o_net o)) v -> (forall y, In y (n_out (o_net o)) -> v' (f y) = v y) ->
      value A (o_net o) l v = sum_over A (size n) (k1 ++ k2) (fun w => entry_at A (az w (bs w)) zs w) v'.
Proof.
  intros SR EQ Hg0 Harr HB HP HT HA M HW Hne Hnp Hgi Hco Hg Hp Hl Hf0 Hfr Hmx Hu. destruct (@load_ok K A SR eqb EQ R0 g0 Hg0 lg0 arr Harr o l dec f width r1 HB HP HT HA M HW) as (o' & l' & E & L).
  destruct (@value_fw K A SR arr Harr o o' l l' f L Hne np Hnp Hgi Hco P R B g pick lg mx fr0 rule betas n_steps u r r0 stop Hg Hp Hl Hf0 Hfr Hmx Hu) as (res & zs & os & az & H).
  exists o', l', res, zs, os, az. split; [exact E|]. split; [apply (ld_arrays L)|]. exact H.
Qed.
Print Assumptions C47_slice_and_contract.

(** ** Examples *)
Definition tensor_of (xs : list nat) (a : nda nat) : tensor nat := mkT xs (map Z.of_nat (shape a)) (Some a).
Definition tensors_of (ts : list (list nat)) (l : list (nda nat)) := map (fun e => tensor_of (fst e) (snd e)) (combine ts l).
Definition object_of (ts : list (list nat)) (l : list (nda nat)) (out : list nat) : object nat :=
  let n := match make_network (tensors_of ts l) (Some out) None with Ok n => n | Err _ => mkN [] [] [] [] [] end in
  mkO n (map Given (seq 0 (length ts))) None None.

Lemma dec_built : built (o_net (object_of dec_ts dec_arrays [4])).
Proof.
  exists (tensors_of dec_ts dec_arrays), (Some [4]), None. split; [reflexivity|].
  intros t [<-|[<-|[<-|[]]]]; (split; [match goal with |- exists i d a, make_tensor i d a = Ok ?t => exists (t_inds t), DNone, (t_array t) end; reflexivity|intros a E; inversion E; reflexivity]).
Qed.
Lemma dec_plain : plain (o_net (object_of dec_ts dec_arrays [4])).
Proof. intros xs [<-|[<-|[<-|[]]]]; repeat constructor; simpl; intuition discriminate. Qed.

(** Two identity matrices with the same indices, no outputs: the value is their dimension
    2. Loaded with the default options, the network has the value 1. *)
Theorem C47_value_refuted : exists o o' l', built (o_net o) /\ plain (o_net o) /\ arrays_are (o_net o) two_deltas /\ o_hyper o = None /\ o_path o = None /\
  load_tn nat_alg Nat.eqb ex_g (fun k => Z.log2 (Z.of_N k)) id o true (Some 4%Z) 0 = Ok o' /\ arrays_are (o_net o') l' /\
  (forall v, value nat_alg (o_net o) two_deltas v = 2) /\ (forall v, value nat_alg (o_net o') l' v = 1).
Proof.
  exists (object_of [[0; 1]; [0; 1]] two_deltas []). eexists. exists [mkA [] [1]; mkA [] [1]].
  split. { exists (tensors_of [[0; 1]; [0; 1]] two_deltas), (Some []), None. split; [reflexivity|]. intros t [<-|[<-|[]]]; (split; [exists [0; 1], DNone, (Some (mkA [2; 2] [1; 0; 0; 1])); reflexivity|intros a E; inversion E; reflexivity]). }
  split. { intros xs [<-|[<-|[]]]; repeat constructor; simpl; intuition discriminate. }
  split; [reflexivity|]. split; [reflexivity|]. split; [reflexivity|]. split; [vm_compute; reflexivity|]. split; [reflexivity|]. split; intros v; reflexivity.
Qed.
Print Assumptions C47_value_refuted.

(** One identity matrix with an output index: loading it with the default options raises. *)
Theorem C47_raises_refuted : exists o, built (o_net o) /\ plain (o_net o) /\ arrays_are (o_net o) [mkA [2; 2] [1; 0; 0; 1]] /\ o_hyper o = None /\ o_path o = None /\
  load_tn nat_alg Nat.eqb ex_g (fun k => Z.log2 (Z.of_N k)) id o true (Some 4%Z) 0 = Err Throw.
Proof.
  exists (object_of [[0; 1]] [mkA [2; 2] [1; 0; 0; 1]] [0; 1]).
  split. { exists (tensors_of [[0; 1]] [mkA [2; 2] [1; 0; 0; 1]]), (Some [0; 1]), None. split; [reflexivity|]. intros t [<-|[]]; (split; [exists [0; 1], DNone, (Some (mkA [2; 2] [1; 0; 0; 1])); reflexivity|intros a E; inversion E; reflexivity]). }
  split. { intros xs [<-|[]]; repeat constructor; simpl; intuition discriminate. }
  split; [reflexivity|]. split; [reflexivity|]. split; [reflexivity|]. vm_compute; reflexivity.
Qed.
Print Assumptions C47_raises_refuted.

(** A network that was loaded with the default options cannot be loaded with them again:
    an optimizer, which loads the network that it is given, rejects it. *)
Theorem C47_loading_twice_refuted : exists o o', built (o_net o) /\ plain (o_net o) /\ arrays_are (o_net o) dec_arrays /\ o_hyper o = None /\ o_path o = None /\
  load_tn nat_alg Nat.eqb ex_g (fun k => Z.log2 (Z.of_N k)) id o true (Some 4%Z) 0 = Ok o' /\
  load_tn nat_alg Nat.eqb ex_g (fun k => Z.log2 (Z.of_N k)) id o' true (Some 4%Z) 0 = Err Throw.
Proof.
  exists (object_of dec_ts dec_arrays [4]). eexists.
  split; [exact dec_built|]. split; [exact dec_plain|]. split; [reflexivity|]. split; [reflexivity|]. split; [reflexivity|]. split; vm_compute; reflexivity.
Qed.
Print Assumptions C47_loading_twice_refuted.

(** A chain of three tensors with a hyper-edge and a diagonal matrix is loaded with the
    default options; then the conditions of the theorems are met. *)
Example C47_applies : exists o o' l' f, built (o_net o) /\ plain (o_net o) /\ length (o_tags o) = length (n_list (o_net o)) /\ arrays_are (o_net o) dec_arrays /\
  merging nat_alg Nat.eqb true o f /\ o_path o = None /\ n_sparse (o_net o) = [] /\ (f 5 <> 5 \/ f 7 <> 7) /\
  load_tn nat_alg Nat.eqb ex_g (fun k => Z.log2 (Z.of_N k)) id o true (Some 2%Z) 0 = Ok o' /\ arrays_are (o_net o') l' /\
  length (n_list (o_net o')) < length (n_list (o_net o)) /\ value nat_alg (o_net o) dec_arrays (fun _ => 1) <> 0 /\
  value nat_alg (o_net o') l' (fun _ => 1) = value nat_alg (o_net o) dec_arrays (fun _ => 1).
Proof.
  exists (object_of dec_ts dec_arrays [4]). eexists. exists [mkA [2; 2] [14; 54; 20; 78]]. eexists.
  split; [exact dec_built|]. split; [exact dec_plain|]. split; [reflexivity|]. split; [reflexivity|].
  split. { eapply merge_some with (l := dec_arrays); try reflexivity. split.
    - intros t x (xs & E & H). do 3 (destruct t as [|t]; [cbn in E; inversion E; subst; cbn in H; decompose [or] H; subst; try tauto; ((exists 0; eexists; split; [reflexivity|]; cbn; tauto) || (exists 2; eexists; split; [reflexivity|]; cbn; tauto))|]). destruct t; discriminate.
    - intros xs [<-|[<-|[<-|[]]]]; repeat constructor; simpl; intuition discriminate. }
  split; [reflexivity|]. split; [reflexivity|]. split; [left; cbn; discriminate|]. split; [vm_compute; reflexivity|]. split; [reflexivity|].
  split; [cbn; auto with arith|]. split; [discriminate|reflexivity].
Qed.
