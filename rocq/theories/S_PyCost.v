(** Specification for C73: costs and widths are those of S_App ([values], [width]). *)
From Verif Require Import M_Base M_Tree M_CTree M_Path M_PyTree M_PyNodes M_PyViews S_PyTree S_App M_Alike M_PyCost.
Set Implicit Arguments.

Definition sparse_of (m : pmodel) : list nat := match pm_sparse m with Some l => l | None => [] end.
(** A cost model that can be made: the number of projections is positive, and given if
    there are sparse indices. *)
Definition model_valid (m : pmodel) : Prop :=
  (forall k, pm_projs m = Some k -> (1 <= k)%Z) /\ (sparse_of m <> [] -> pm_projs m <> None).
(** [dim x] is the dimension that [d] gives for each of the indices [xs] and for the
    sparse indices. *)
Definition dims_give (d : pydims) (m : pmodel) (xs : list nat) (dim : nat -> N) : Prop :=
  forall x, In x xs \/ In x (sparse_of m) -> dim_is d x (dim x).
(** [d] has no dimension for one of these. *)
Definition dim_missing (d : pydims) (m : pmodel) (xs : list nat) : Prop :=
  exists x, (In x xs \/ In x (sparse_of m)) /\ forall k, ~ dim_is d x k.

(** [k] is the sum of what [cost] gives for each contraction of [ms] (the two tensors and
    the result). *)
Inductive sums (cost : nat -> nat -> nat -> res Z) : list (nat * nat * nat) -> Z -> Prop :=
| sums_none : sums cost [] 0
| sums_one a b c ms x k : cost a b c = Ok x -> sums cost ms k -> sums cost ((a, b, c) :: ms) (x + k).

(** What contraction_cost gives for one contraction of the tree [t]: the tensors [a] and [b]
    into [p], with the indices and the dimensions that [t] reports. *)
Definition im_contraction_cost (m : pmodel) (t : pytree) (a b p : nat) : res Z :=
  let! A := py_inds t a in let! B := py_inds t b in let! P := py_inds t p in py_ccost m A B P (PyDict (py_dims t)).
(** The same with sliced indices. *)
Definition fw_contraction_cost (m : pfmodel) (t : pytree) (sl : list nat) (a b p : nat) : res Z :=
  let! A := py_inds t a in let! B := py_inds t b in let! P := py_inds t p in py_fccost m A B P (PyDict (py_dims t)) sl.
(** Without the indices [sl], no tensor of [t] is wider than the maximum, as reported by
    width. *)
Definition width_bounded (lg : N -> Z) (m : pfmodel) (t : pytree) (sl : list nat) : Prop :=
  forall v xs ys, v < length (nodes (core t)) -> py_inds t v = Ok xs -> (forall x, In x ys <-> In x xs /\ ~ In x sl) ->
  exists w, py_width lg m ys (PyDict (py_dims t)) = Ok w /\ (w <= pf_max m)%Z.
(** The indices [skip] alone make a tensor of [t] wider than the maximum, as reported by
    width. *)
Definition skips_too_wide (lg : N -> Z) (m : pfmodel) (t : pytree) (skip : list nat) : Prop :=
  exists v xs ys w, v < length (nodes (core t)) /\ py_inds t v = Ok xs /\ (forall x, In x ys <-> In x xs /\ In x skip) /\
  py_width lg m ys (PyDict (py_dims t)) = Ok w /\ (pf_max m < w)%Z.
