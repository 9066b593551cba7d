(** Model of the infinite-memory cost models:
    include/tnco/optimize/infinite_memory/cost_model/simple.hpp and
    simple_sparse_inds.hpp. Costs are exact integers (the code uses float types;
    rounding is not modelled). *)
From Verif Require Import M_Base M_Bitset M_CTree.
Set Implicit Arguments.
Local Open Scope Z_scope.

(** dims[pos] of the vector alternative (simple.hpp:52); the vector has one
    entry per index (checked by ContractionTree::is_valid). *)
Definition dim_at (d : dims_t) (pos : nat) : Z :=
  match d with
  | DInt x => Z.of_N x
  | DVec l => Z.of_N (nth pos l 1%N)
  end.

(** simple.hpp:37-55 get_cost: pow(dims, count) for an integer, a product over
    the set positions for a vector. *)
Definition simple_get_cost (inds : bitset) (d : dims_t) : Z :=
  match d with
  | DInt x => Z.of_N x ^ Z.of_nat (bcount inds)
  | DVec l => fold_left (fun c pos => c * Z.of_N (nth pos l 1%N)) (bpositions inds) 1
  end.

(** simple_sparse_inds.hpp:37-49 get_cost. *)
Definition sparse_get_cost (inds sparse : bitset) (n_projs : Z) (d : dims_t) : Z :=
  let x := simple_get_cost (band inds sparse) d in
  simple_get_cost (bdiff inds sparse) d * (if x <? n_projs then x else n_projs).

(** The two cost models; simple_sparse_inds.hpp:62-67 rejects n_projs = 0. *)
Inductive cmodel :=
| Simple
| Sparse (sparse_inds : bitset) (n_projs : Z).

Definition cmodel_make_sparse (sparse : bitset) (n_projs : Z) : res cmodel :=
  if n_projs =? 0 then Err Throw else Ok (Sparse sparse n_projs).

(** simple.hpp:65-83 and simple_sparse_inds.hpp:69-88 contraction_cost: note
    that only the first two index sets are used. *)
Definition ccost_of (m : cmodel) (inds_A inds_B inds_C : bitset) (d : dims_t) : Z :=
  match m with
  | Simple => simple_get_cost (bor inds_A inds_B) d
  | Sparse sp np => sparse_get_cost (bor inds_A inds_B) sp np d
  end.
