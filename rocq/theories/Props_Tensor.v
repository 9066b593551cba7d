(** C24: tensordot (tnco.utils.tensor.tensordot). *)
From Coq Require Import List Arith ZArith Lia Ring_theory Ring ArithRing.
Import ListNotations.
From Verif Require Import M_Base M_Path M_PyTree M_OSet M_Tensor S_Tensor P_Sum P_Array P_Tensordot.

(** C24: the entries of the result are the sums, over the shared indices that are not
    hyper-indices, of the products of the entries; its indices are the
    hyper-indices and those of one tensor only, without repetitions, and are the
    ones returned with return_inds_only. For all shapes, entries and indices. *)
Theorem C24_tensordot_is_einsum (K : Type) (A : alg K) (dim : nat -> nat) ax xs ay ys hyper : semiring A ->
  NoDup xs -> NoDup ys -> well_shaped ax -> well_shaped ay -> shape ax = map dim xs -> shape ay = map dim ys ->
  incl hyper xs -> incl hyper ys ->
  exists az zs, tensordot A ax xs ay ys hyper = Ok (az, zs) /\ tensordot_inds xs ys hyper = Ok zs /\
    NoDup zs /\ (forall x, In x zs <-> In x hyper \/ (In x xs /\ ~ In x ys) \/ (In x ys /\ ~ In x xs)) /\
    well_shaped az /\ shape az = map dim zs /\
    forall ks v, NoDup ks -> (forall x, In x ks <-> In x xs /\ In x ys /\ ~ In x hyper) -> in_range dim zs v ->
      entry_at A az zs v = sum_over A dim ks (fun w => mul A (entry_at A ax xs w) (entry_at A ay ys w)) v.
Proof. exact (@tensordot_einsum K A dim ax xs ay ys hyper). Qed.
Print Assumptions C24_tensordot_is_einsum.

(** It raises when a hyper-index is not shared, whatever the arrays. *)
Theorem C24_raises (K : Type) (A : alg K) xs ys hyper ax ay : NoDup xs -> NoDup ys -> ~ (forall x, In x hyper -> In x xs /\ In x ys) ->
  tensordot A ax xs ay ys hyper = Err Throw /\ tensordot_inds xs ys hyper = Err Throw.
Proof. exact (@tensordot_raises K A xs ys hyper ax ay). Qed.
Print Assumptions C24_raises.

(** Two tensors over the naturals with the indices 7, 3, 5 and 5, 7, 4 of dimensions
    2, 1, 2 and 3; index 7 is a hyper-index. *)
Definition nat_alg : alg nat := mkAlg 0 1 Nat.add Nat.mul.
Lemma nat_alg_ok : semiring nat_alg.
Proof. unfold semiring. constructor; simpl; intros; ring. Qed.
Definition ex_dim (x : nat) : nat := match x with 3 => 1 | 4 => 3 | _ => 2 end.
Definition ex_ax := mkA [2; 1; 2] [1; 2; 3; 4].
Definition ex_ay := mkA [2; 2; 3] [1; 0; 2; 5; 1; 1; 3; 0; 4; 2; 2; 1].
Example C24_applies : semiring nat_alg /\ NoDup [7; 3; 5] /\ NoDup [5; 7; 4] /\ well_shaped ex_ax /\ well_shaped ex_ay /\
  shape ex_ax = map ex_dim [7; 3; 5] /\ shape ex_ay = map ex_dim [5; 7; 4] /\ incl [7] [7; 3; 5] /\ incl [7] [5; 7; 4] /\
  tensordot nat_alg ex_ax [7; 3; 5] ex_ay [5; 7; 4] [7] = Ok (mkA [2; 1; 3] [7; 0; 10; 23; 11; 7], [7; 3; 4]) /\
  tensordot nat_alg ex_ax [7; 3; 5] ex_ay [5; 7; 4] [3] = Err Throw.
Proof.
  split; [exact nat_alg_ok|]. split; [repeat constructor; simpl; intuition discriminate|]. split; [repeat constructor; simpl; intuition discriminate|].
  split; [reflexivity|]. split; [reflexivity|]. split; [reflexivity|]. split; [reflexivity|].
  split; [intros x; simpl; tauto|]. split; [intros x; simpl; tauto|]. split; vm_compute; reflexivity.
Qed.
