(** Specification for C72. *)
From Verif Require Import M_Base M_Bitset M_Tree M_CTree M_Cost M_Opt M_InfMem M_FinWidth M_Path M_PyTree M_Json
  S_Tree S_Opt S_FinWidth M_Alike.
Set Implicit Arguments.

(** Two sets given as lists, or none *)
Definition same_members (l k : list nat) : Prop := forall x, In x l <-> In x k.
Definition same_option {A} (r : A -> A -> Prop) (a b : option A) : Prop :=
  match a, b with
  | Some x, Some y => r x y
  | None, None => True
  | _, _ => False
  end.

(** The same cost model: same cost type, same sparse indices (given or not), same number
    of projections; for a finite width, same maximum and width type too *)
Definition same_model (a b : pmodel) : Prop :=
  pm_type a = pm_type b /\ same_option same_members (pm_sparse a) (pm_sparse b) /\ pm_projs a = pm_projs b.
Definition same_fmodel (a b : pfmodel) : Prop :=
  pf_max a = pf_max b /\ same_model (pf_model a) (pf_model b) /\ pf_wtype a = pf_wtype b.

(** The cost model could be made: the number of projections is positive. *)
Definition good_projs (m : pmodel) : Prop := forall k, pm_projs m = Some k -> (1 <= k)%Z.

(** An optimizer that was made and then updated any number of times *)
Record im_lived {R} (o : im_obj R) : Prop := {
  il_proof : exists p ts d output chk t m r ds o0 rds,
    pytree_make p ts d output chk = Ok t /\ well_formed (nodes (core t)) /\ good_projs m /\
    io_make t m r ds None = Ok o0 /\ io_run rds o0 = Ok o
}.
(** [maxnew] is the max_number_new_slices it was made with *)
Record fw_lived {R} (lg : N -> Z) (maxnew : nat) (o : fw_obj R) : Prop := {
  fl_proof : exists fr p ts d output chk t m r ds skip o0 us,
    log_like lg /\ shuffles fr /\ all_shuffle us /\
    pytree_make p ts d output chk = Ok t /\ well_formed (nodes (core t)) /\ good_projs (pf_model m) /\
    fo_make lg fr t m maxnew r ds skip None None None = Ok o0 /\ fo_run lg us o0 = Ok o
}.

(** What one can see of an optimizer besides its cost model: its tree, its best tree, the
    indices of these, the two costs, the state of the generator and disable_shared_inds *)
Definition im_alike {R} (a b : im_obj R) : Prop :=
  im_ct (io_state a) = im_ct (io_state b) /\ im_min_ct (io_state a) = im_min_ct (io_state b) /\
  inds_order (io_tree a) = inds_order (io_tree b) /\
  im_total (io_state a) = im_total (io_state b) /\ im_min (io_state a) = im_min (io_state b) /\
  im_rng (io_state a) = im_rng (io_state b) /\ im_ds (io_state a) = im_ds (io_state b).
(** ... and the slices and the indices that may not be sliced *)
Definition fw_alike {R} (a b : fw_obj R) : Prop :=
  fw_ct (fo_state a) = fw_ct (fo_state b) /\ fw_min_ct (fo_state a) = fw_min_ct (fo_state b) /\
  inds_order (fo_tree a) = inds_order (fo_tree b) /\
  fw_total (fo_state a) = fw_total (fo_state b) /\ fw_min (fo_state a) = fw_min (fo_state b) /\
  fw_rng (fo_state a) = fw_rng (fo_state b) /\ fw_ds (fo_state a) = fw_ds (fo_state b) /\
  fw_sl (fo_state a) = fw_sl (fo_state b) /\ fw_min_sl (fo_state a) = fw_min_sl (fo_state b) /\
  same_members (fo_skip a) (fo_skip b).
