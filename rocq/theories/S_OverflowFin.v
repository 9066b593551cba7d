(** Specification vocabulary for C70, finite width. *)
From Coq Require Import ZArith List Permutation.
From Verif Require Import M_Base M_Bitset M_Tree M_CTree M_Cost M_FinWidth M_Float M_FinFloat M_Overflow M_OverflowFin S_Tree S_Opt S_FinWidth S_Overflow.
Set Implicit Arguments.

(** The shuffle returns its elements in some order. *)
Definition xshuffles {R} (fr : xfrand R) : Prop := forall r l, Permutation (fst (xf_shuffle fr r l)) l.
Definition all_xshuffle {R} (us : list (xfrand R * bool)) : Prop := Forall (fun u => xshuffles (fst u)) us.
(** No update of the session computes new slices (update_slices=False). *)
Definition xno_reslice {R} (us : list (xfrand R * bool)) : Prop := Forall (fun u => snd u = false) us.

(** The acceptance rule refuses infinite increases of the cost, and differences that are not
    a number, as the greedy one and Metropolis-Hastings do: no comparison with NaN is true. *)
Definition xrefuses {R} (fr : xfrand R) : Prop :=
  forall r d total, d = PInf \/ d = NaN -> fst (xaccept (xf_base fr) r d total) = false.
Definition all_xrefuse {R} (us : list (xfrand R * bool)) : Prop := Forall (fun u => xrefuses (fst u)) us.

(** The optimizer [s0] was built by the constructor; as [rfw_built] of S_FinFloat. *)
Record xfw_built {R} (xa : xarith) (wa : warith) (fr : xfrand R) (c : ctree) (m : fmodel) (maxnew : nat) (r : R) (ds : bool)
  (skip : list bool) (mc : option ctree) (sl msl : option (list bool)) (s0 : xf_state R) : Prop := {
  xb_shuf   : xshuffles fr;
  xb_tree   : well_formed (nodes c);
  xb_model  : cmodel_ok (fm_cm m) (n_inds c);
  xb_projs  : projs_fit xa (fm_cm m);
  xb_given  : supplied_ok c skip mc sl msl;
  xb_make   : xpy_fw_make xa wa fr c m maxnew r ds skip mc sl msl = Ok s0
}.
