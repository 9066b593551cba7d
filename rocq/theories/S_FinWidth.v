(** Specification vocabulary for widths and slices. *)
From Coq Require Import List ZArith Bool Permutation.
Import ListNotations.
From Verif Require Import M_Base M_Tree M_CTree M_Cost M_FinWidth S_Tree S_Opt.
Local Open Scope Z_scope.

(** Sum over the positions below [n] that satisfy [p]. *)
Fixpoint sum_over (p : nat -> bool) (f : nat -> Z) (n : nat) : Z :=
  match n with
  | O => 0
  | S m => sum_over p f m + (if p m then f m else 0)
  end.

(** What is used of the logarithm: it is not negative from 1 on. *)
Definition log_like (lg : N -> Z) : Prop := forall d, (1 <= d)%N -> 0 <= lg d.

(** Logarithm of the dimension of index [x]. *)
Definition log_dim (lg : N -> Z) (d : dims_t) (x : nat) : Z :=
  match d with DInt k => lg k | DVec l => lg (nth x l 1%N) end.

(** Width of the tensor with the indices [p], the number of indices being [n]: the
    sum of the logarithms of the dimensions; the sparse indices together count
    for at most the logarithm of the number of projections. *)
Definition set_width (lg : N -> Z) (m : cmodel) (d : dims_t) (n : nat) (p : nat -> bool) : Z :=
  match m with
  | Simple => sum_over p (log_dim lg d) n
  | Sparse sp np =>
      sum_over (fun x => p x && negb (nth x sp false)) (log_dim lg d) n +
      Z.min (sum_over (fun x => p x && nth x sp false) (log_dim lg d) n) (lg (Z.to_N np))
  end.

(** Every dimension is at least 1. *)
Definition dims_positive (d : dims_t) : Prop := forall x, 1 <= dimension d x.

(** Membership in an index set; in an optional one (None is the empty set). *)
Definition mem (b : list bool) (x : nat) : bool := nth x b false.
Definition omem (b : option (list bool)) (x : nat) : bool :=
  match b with Some k => mem k x | None => false end.

(** Node [v] of the tree fits: without the slices it is at most [mx] wide. *)
Definition node_fits (lg : N -> Z) (m : cmodel) (mx : Z) (n : nat) (c : ctree) (sl : nat -> bool) (v : nat) : Prop :=
  set_width lg m (dims c) n (fun x => carries c v x && negb (sl x)) <= mx.
(** Every tensor of the tree fits. *)
Definition all_fit (lg : N -> Z) (m : cmodel) (mx : Z) (n : nat) (c : ctree) (sl : nat -> bool) : Prop :=
  forall v, (v < length (inds c))%nat -> node_fits lg m mx n c sl v.
(** For every tensor, the part of it that may not be sliced fits. *)
Definition skips_fit (lg : N -> Z) (m : cmodel) (mx : Z) (n : nat) (c : ctree) (skip : nat -> bool) : Prop :=
  forall v, (v < length (inds c))%nat -> set_width lg m (dims c) n (fun x => carries c v x && skip x) <= mx.

(** No index is in both sets. *)
Definition disjoint (p q : nat -> bool) : Prop := forall x, p x = true -> q x = true -> False.

(** A shuffle returns a permutation of its argument. *)
Definition shuffles {R} (fr : frand R) : Prop := forall r l, Permutation (fst (shuffle fr r l)) l.

(** The optional arguments of the constructor fit the tree [c] and the indices
    [skip] that may not be sliced: index sets have one entry per index, given slices
    avoid [skip], a given best tree is a tree over the same indices and dimensions. *)
Definition supplied_ok (c : ctree) (skip : list bool) (mc : option ctree) (sl msl : option (list bool)) : Prop := (
  length skip = n_inds c /\
  (forall k, sl = Some k \/ msl = Some k -> length k = n_inds c /\ disjoint (mem k) (mem skip)) /\
  (forall c', mc = Some c' -> well_formed (nodes c') /\ n_inds c' = n_inds c /\ dims c' = dims c))%nat.

(** The optimizer [s0] was built by the constructor: the logarithm and the shuffle
    are as above, the tree is well formed, the cost model is for as many indices as
    the tree has. *)
Record fw_built {R} (lg : N -> Z) (fr : frand R) (c : ctree) (m : fmodel) (maxnew : nat) (r : R) (ds : bool)
  (skip : list bool) (mc : option ctree) (sl msl : option (list bool)) (s0 : fw_state R) : Prop := {
  fb_log    : log_like lg;
  fb_shuf   : shuffles fr;
  fb_tree   : well_formed (nodes c);
  fb_model  : cmodel_ok (fm_cm m) (n_inds c);
  fb_given  : supplied_ok c skip mc sl msl;
  fb_make   : py_fw_make lg fr c m maxnew r ds skip mc sl msl = Ok s0
}.

(** Every update of the list has a proper shuffle. *)
Definition all_shuffle {R} (us : list (frand R * bool)) : Prop := Forall (fun u => shuffles (fst u)) us.
