(** C31: hyper-index decomposition (tnco.utils.tensor.decompose_hyper_inds and
    tnco.utils.tn.decompose_hyper_inds), with exact comparison of entries. *)
From Coq Require Import List Arith Bool.
Import ListNotations.
From Verif Require Import M_Base M_Path M_PyTree M_OSet M_Tensor M_Contract M_Decompose S_Random S_Tensor S_Contract S_Decompose.
From Verif Require Import P_Decompose P_DecomposeNet P_DecomposeSum Props_Tensor.

(** For one tensor: the entry at an assignment is that of the reduced tensor when
    merged indices have the same value, else zero. Merged indices have the same
    dimension, and no diagonal pair of axes is left. The only failure is for axes
    of size zero. *)
Theorem C31_tensor (K : Type) (A : alg K) (eqb : K -> K -> bool) (dim : nat -> nat) a xs : (forall x y, eqb x y = true <-> x = y) ->
  NoDup xs -> well_shaped a -> shape a = map dim xs ->
  (decompose A eqb a xs = Err Throw /\ exists x, In x xs /\ dim x = 0) \/
  exists b ys h, decompose A eqb a xs = Ok (b, ys, h) /\ well_shaped b /\ shape b = map dim ys /\ NoDup ys /\ incl ys xs /\ NoDup (map fst h) /\
    (forall y s x, In (y, s) h -> In x s -> In x xs /\ In y xs /\ dim x = dim y) /\
    (forall v, in_range dim xs v -> agrees h v -> entry_at A a xs v = entry_at A b ys v) /\
    (forall v, in_range dim xs v -> ~ agrees h v -> entry_at A a xs v = zero A) /\
    ~ has_diagonal A dim b ys.
Proof. intros EQ. exact (@decompose_ok K A eqb EQ dim a xs). Qed.
Print Assumptions C31_tensor.

Theorem C31_tensor_raises (K : Type) (A : alg K) (eqb : K -> K -> bool) a xs : length (shape a) <> length xs \/ ~ NoDup xs -> decompose A eqb a xs = Err Throw.
Proof. exact (@decompose_raises K A eqb a xs). Qed.
Print Assumptions C31_tensor_raises.

(** For a network: the map sends exactly the indices of the network, each to an index
    of the same dimension that is sent to itself; the indices of each new tensor are
    images of its old ones. At an assignment that gives every index the value of
    its image, the product of the new tensors is that of the old ones; at any
    other the product of the old ones is zero. *)
Theorem C31_network (K : Type) (A : alg K) (eqb : K -> K -> bool) (dim : nat -> nat) arrays ts : semiring A -> (forall x y, eqb x y = true <-> x = y) ->
  shaped dim arrays ts -> Forall well_shaped arrays -> (forall xs, In xs ts -> NoDup xs) ->
  (decompose_network A eqb arrays ts = Err Throw /\ exists t x, has ts t x /\ dim x = 0) \/
  exists bs us m, decompose_network A eqb arrays ts = Ok (bs, us, m) /\ Forall well_shaped bs /\ shaped dim bs us /\
    (forall t x, has us t x -> exists y, has ts t y /\ x = sent m y) /\
    (forall x, (exists y, dict_get m x = Ok y) <-> exists t, has ts t x) /\
    (forall t x, has ts t x -> (exists u, has ts u (sent m x)) /\ sent m (sent m x) = sent m x /\ dim (sent m x) = dim x) /\
    (forall v, (forall t x, has ts t x -> v x < dim x) -> identified ts m v -> network A arrays ts v = network A bs us v) /\
    (forall v, (forall t x, has ts t x -> v x < dim x) -> ~ identified ts m v -> network A arrays ts v = zero A).
Proof. intros SR EQ. exact (@network_ok K A SR eqb EQ dim arrays ts). Qed.
Print Assumptions C31_network.

(** The contraction: [ks] are the indices that are not outputs, [ks'] the images that
    are not images of outputs. The sum of the old products over [ks] is the sum of
    the new ones over [ks'], and zero where merged outputs have different values. *)
Theorem C31_sums_agree (K : Type) (A : alg K) (eqb : K -> K -> bool) (dim : nat -> nat) arrays ts bs us m out ks ks' v :
  semiring A -> (forall x y, eqb x y = true <-> x = y) ->
  shaped dim arrays ts -> Forall well_shaped arrays -> (forall xs, In xs ts -> NoDup xs) ->
  decompose_network A eqb arrays ts = Ok (bs, us, m) ->
  NoDup ks -> NoDup ks' ->
  (forall o, In o out -> exists t, has ts t o) ->
  (forall x, In x ks <-> (exists t, has ts t x) /\ ~ In x out) ->
  (forall x, In x ks' <-> (exists t y, has ts t y /\ x = sent m y) /\ forall o, In o out -> x <> sent m o) ->
  in_range dim out v ->
  (forall v', (forall o, In o out -> v' (sent m o) = v o) -> sum_over A dim ks (network A arrays ts) v = sum_over A dim ks' (network A bs us) v') /\
  (forall o o', In o out -> In o' out -> sent m o = sent m o' -> v o <> v o' -> sum_over A dim ks (network A arrays ts) v = zero A).
Proof. exact (@network_sum K A eqb dim arrays ts bs us m out ks ks' v). Qed.
Print Assumptions C31_sums_agree.

(** C31, for networks in which every image that is summed still occurs in a new
    tensor: the contraction of the new network, over its own indices [ks'] that are
    not images of outputs, is that of the old one. Missing: networks in which some
    image occurs in no new tensor, for which the claim is false (see below). *)
Theorem C31_contraction_partial (K : Type) (A : alg K) (eqb : K -> K -> bool) (dim : nat -> nat) arrays ts bs us m out ks ks' v v' :
  semiring A -> (forall x y, eqb x y = true <-> x = y) ->
  shaped dim arrays ts -> Forall well_shaped arrays -> (forall xs, In xs ts -> NoDup xs) ->
  decompose_network A eqb arrays ts = Ok (bs, us, m) ->
  (forall t x, has ts t x -> (forall o, In o out -> sent m x <> sent m o) -> exists u, has us u (sent m x)) ->
  NoDup ks -> NoDup ks' ->
  (forall o, In o out -> exists t, has ts t o) ->
  (forall x, In x ks <-> (exists t, has ts t x) /\ ~ In x out) ->
  (forall x, In x ks' <-> (exists t, has us t x) /\ forall o, In o out -> x <> sent m o) ->
  in_range dim out v -> (forall o, In o out -> v' (sent m o) = v o) ->
  sum_over A dim ks (network A arrays ts) v = sum_over A dim ks' (network A bs us) v'.
Proof.
  intros SR EQ S W HN E HV N N' HO HK HK' V V'.
  apply (@C31_sums_agree K A eqb dim arrays ts bs us m out ks ks' v); auto.
  destruct (C31_network K A eqb dim arrays ts SR EQ S W HN) as [[E' _]|(bs' & us' & m' & E' & _ & _ & HU & _)]; [congruence|]. rewrite E' in E. inversion E; subst.
  intros x. rewrite HK'. split; intros [H1 H2]; split; auto.
  - destruct H1 as (t & Ht). destruct (HU t x Ht) as (y & Hy). eauto.
  - destruct H1 as (t & y & Hy & ->). apply (HV t y Hy H2).
Qed.
Print Assumptions C31_contraction_partial.

(** Counterexamples to the full claim, over the naturals. Two identity matrices with
    the same indices contract to their dimension 2, but each becomes the number 1
    without indices, so that the new network contracts to 1. *)
Definition two_deltas : list (nda nat) := [mkA [2; 2] [1; 0; 0; 1]; mkA [2; 2] [1; 0; 0; 1]].
Theorem C31_contraction_refuted : exists (arrays bs : list (nda nat)) ts us m,
  shaped (fun _ => 2) arrays ts /\ Forall (@well_shaped nat) arrays /\ (forall xs, In xs ts -> NoDup xs) /\
  decompose_network nat_alg Nat.eqb arrays ts = Ok (bs, us, m) /\
  contract nat_alg id [(0, 1)] ts (Some []) (Some arrays) None = Ok ([[]], [], Some [mkA [] [2]]) /\
  contract nat_alg id [(0, 1)] us (Some []) (Some bs) None = Ok ([[]], [], Some [mkA [] [1]]).
Proof.
  exists two_deltas, [mkA [] [1]; mkA [] [1]], [[0; 1]; [0; 1]], [[]; []], [(0, 0); (1, 0)].
  split; [repeat constructor|]. split; [repeat constructor|]. split; [intros xs [<-|[<-|[]]]; repeat constructor; simpl; intuition discriminate|].
  split; [vm_compute; reflexivity|]. split; vm_compute; reflexivity.
Qed.
Print Assumptions C31_contraction_refuted.

(** A matrix that shares both indices with an identity matrix gets one index twice;
    contract accepts the old network and rejects the new one. *)
Theorem C31_repeated_index_refuted : exists (arrays bs : list (nda nat)) ts us m,
  shaped (fun _ => 2) arrays ts /\ Forall (@well_shaped nat) arrays /\ (forall xs, In xs ts -> NoDup xs) /\
  decompose_network nat_alg Nat.eqb arrays ts = Ok (bs, us, m) /\ ~ (forall xs, In xs us -> NoDup xs) /\
  contract nat_alg id [(0, 1)] ts (Some []) (Some arrays) None = Ok ([[]], [], Some [mkA [] [13]]) /\
  contract nat_alg id [(0, 1)] us (Some []) (Some bs) None = Err Throw.
Proof.
  exists [mkA [2; 2] [1; 2; 3; 4]; mkA [2; 2] [1; 0; 0; 3]], [mkA [2; 2] [1; 2; 3; 4]; mkA [2] [1; 3]], [[0; 1]; [0; 1]], [[0; 0]; [0]], [(0, 0); (1, 0)].
  split; [repeat constructor|]. split; [repeat constructor|]. split; [intros xs [<-|[<-|[]]]; repeat constructor; simpl; intuition discriminate|].
  split; [vm_compute; reflexivity|]. split; [intros H; specialize (H [0; 0] (or_introl eq_refl)); inversion H as [|? ? N1 _]; apply N1; left; auto|].
  split; vm_compute; reflexivity.
Qed.
Print Assumptions C31_repeated_index_refuted.

(** A tensor with the axes 7, 3, 5 of which the first and last are diagonal, and one
    with the axes 5, 4, 7 of which all are. *)
Definition dec_arrays : list (nda nat) := [mkA [2; 2; 2] [1; 0; 2; 0; 0; 3; 0; 5]; mkA [2; 2; 2] [2; 0; 0; 0; 0; 0; 0; 3]; mkA [2; 2] [1; 2; 3; 4]].
Definition dec_ts : list (list nat) := [[7; 3; 5]; [5; 4; 7]; [3; 8]].
Example C31_applies : semiring nat_alg /\ (forall x y, Nat.eqb x y = true <-> x = y) /\
  shaped (fun _ => 2) dec_arrays dec_ts /\ Forall (@well_shaped nat) dec_arrays /\ (forall xs, In xs dec_ts -> NoDup xs) /\
  decompose nat_alg Nat.eqb (nth 0 dec_arrays (mkA [] [])) [7; 3; 5] = Ok (mkA [2; 2] [1; 2; 3; 5], [5; 3], [(5, [7])]) /\
  decompose_network nat_alg Nat.eqb dec_arrays dec_ts =
    Ok ([mkA [2; 2] [1; 2; 3; 5]; mkA [2] [2; 3]; mkA [2; 2] [1; 2; 3; 4]], [[7; 3]; [7]; [3; 8]], [(3, 3); (8, 8); (7, 7); (5, 7); (4, 7)]) /\
  (forall t x, has dec_ts t x -> (forall o, In o [4] -> sent [(3, 3); (8, 8); (7, 7); (5, 7); (4, 7)] x <> sent [(3, 3); (8, 8); (7, 7); (5, 7); (4, 7)] o) ->
     exists u, has [[7; 3]; [7]; [3; 8]] u (sent [(3, 3); (8, 8); (7, 7); (5, 7); (4, 7)] x)) /\
  sum_over nat_alg (fun _ => 2) [7; 3; 5; 8] (network nat_alg dec_arrays dec_ts) (fun _ => 1) = 132 /\
  sum_over nat_alg (fun _ => 2) [3; 8] (network nat_alg [mkA [2; 2] [1; 2; 3; 5]; mkA [2] [2; 3]; mkA [2; 2] [1; 2; 3; 4]] [[7; 3]; [7]; [3; 8]]) (fun _ => 1) = 132.
Proof.
  split; [exact nat_alg_ok|]. split; [exact Nat.eqb_eq|]. split; [repeat constructor|]. split; [repeat constructor|].
  split. { intros xs H. repeat (destruct H as [<-|H]; [repeat constructor; simpl; intuition discriminate|]). destruct H. }
  split; [vm_compute; reflexivity|]. split; [vm_compute; reflexivity|].
  split. { intros t x (xs & Hx & Hi) Hn. destruct t as [|[|[|[|t]]]]; simpl in Hx; try discriminate; inversion Hx; subst; simpl in Hi.
    all: repeat (destruct Hi as [<-|Hi]); try destruct Hi; vm_compute.
    all: first [exists 0, [7; 3]; split; [reflexivity|simpl; tauto] | exists 2, [3; 8]; split; [reflexivity|simpl; tauto]]. }
  split; vm_compute; reflexivity.
Qed.
