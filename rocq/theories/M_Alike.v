(** Model of the comparison of cost models and optimizers, and of the copies that pickle
    makes of optimizers:
    tnco/optimize/infinite_memory/cost_model.py:185-221,
    tnco/optimize/finite_width/cost_model.py:338-378,
    tnco/optimize/infinite_memory/optimizer.py:54-105 and 205-251,
    tnco/optimize/finite_width/optimizer.py:54-134 and 205-354.
    The comparison of trees is in M_ValidTree. A frozenset of indices is a list; sets are
    compared with [same_set]. The state of the generator is compared by [eqr] (the code
    compares the texts of the states). *)
From Verif Require Import M_Base M_Bitset M_Tree M_CTree M_Cost M_Opt M_InfMem M_FinWidth M_Path M_PyTree M_PyNodes M_Random M_App
  M_ValidTree M_Json.
Set Implicit Arguments.

Definition opt_eqb {A} (eqb : A -> A -> bool) (a b : option A) : bool :=
  match a, b with
  | Some x, Some y => eqb x y
  | None, None => true
  | _, _ => false
  end.

(** infinite_memory/cost_model.py: cost_type, sparse_inds (None or a frozenset), n_projs *)
Record pmodel := mkPM { pm_type : text; pm_sparse : option (list nat); pm_projs : option Z }.
(** cost_model.py:218-221 __eq__ *)
Definition pmodel_eqb (a b : pmodel) : bool :=
  teqb (pm_type a) (pm_type b) && opt_eqb same_set (pm_sparse a) (pm_sparse b) && opt_eqb Z.eqb (pm_projs a) (pm_projs b).
(** cost_model.py:185-207 __get_core__: None counts as the empty set *)
Definition pm_core (m : pmodel) (order : list nat) : res cmodel :=
  get_core (match pm_sparse m with Some l => l | None => [] end) (pm_projs m) order.

(** finite_width/cost_model.py: max_width and width_type besides *)
Record pfmodel := mkPF { pf_max : Z; pf_model : pmodel; pf_wtype : text }.
(** finite_width/cost_model.py:374-378 __eq__ *)
Definition pfmodel_eqb (a b : pfmodel) : bool :=
  (pf_max a =? pf_max b)%Z && pmodel_eqb (pf_model a) (pf_model b) && teqb (pf_wtype a) (pf_wtype b).

Section Same.
Variable (R : Type) (eqr : R -> R -> bool).

(** * Infinite memory *)
(** The Python object: the tree it was given (its caches are used by __get_ctree__), the
    cost model, the C++ optimizer. *)
Record im_obj := mkIO { io_tree : pytree; io_model : pmodel; io_state : im_state R }.

(** optimizer.py:54-105 *)
Definition io_make (t : pytree) (m : pmodel) (r : R) (ds : bool) (mc : option pytree) : res im_obj :=
  let! k := pm_core m (inds_order t) in
  let! s := im_make (core t) k r ds (match mc with Some x => Some (core x) | None => None end) in
  Ok (mkIO t m s).
(** update, for each of a list of acceptance rules *)
Definition io_run (rds : list (rand R)) (o : im_obj) : res im_obj :=
  let! s := im_run rds (io_state o) in Ok (mkIO (io_tree o) (io_model o) s).

(** 235-248 __reduce__: ctree, cmodel, the state of the generator, disable_shared_inds,
    min_ctree *)
Definition io_reduce (o : im_obj) : res (pytree * pmodel * R * bool * pytree) :=
  let s := io_state o in
  let! t := get_ctree (io_tree o) (im_ct s) in
  let! mt := get_ctree (io_tree o) (im_min_ct s) in
  Ok (t, io_model o, im_rng s, im_ds s, mt).
(** 250-251 __eq__ *)
Definition io_equal (a b : im_obj) : res bool :=
  let! x := io_reduce a in
  let! y := io_reduce b in
  let '(t, m, r, ds, mt) := x in
  let '(t', m', r', ds', mt') := y in
  Ok (pytree_eqb t t' && pmodel_eqb m m' && eqr r r' && Bool.eqb ds ds' && pytree_eqb mt mt').
(** pickle.loads(pickle.dumps(o)): the tuple given back to the constructor. The tree and
    the model are taken as they are (copies of trees: C43). *)
Definition io_copy (o : im_obj) : res im_obj :=
  let! x := io_reduce o in
  let '(t, m, r, ds, mt) := x in io_make t m r ds (Some mt).

(** * Finite width *)
Record fw_obj := mkFO { fo_tree : pytree; fo_model : pfmodel; fo_skip : list nat; fo_state : fw_state R }.

(** a set of indices turned into a bitset: Bitset(map(order.index, xs), n) *)
Definition name_bits (order xs : list nat) : res bitset :=
  let! ps := rank_all order xs in of_positions ps (length order).
Definition opt_bits (order : list nat) (xs : option (list nat)) : res (option bitset) :=
  match xs with
  | Some l => let! b := name_bits order l in Ok (Some b)
  | None => Ok None
  end.
(** optimizer.py:54-134; [maxnew] is max_number_new_slices *)
Definition fo_make (lg : N -> Z) (fr : frand R) (t : pytree) (m : pfmodel) (maxnew : nat) (r : R) (ds : bool) (skip : list nat)
  (mc : option pytree) (sl msl : option (list nat)) : res fw_obj :=
  if negb (forallb (fun x => memb x (inds_order t)) skip) then Err Throw else        (* 98-101 *)
  let! sl' := opt_bits (inds_order t) sl in                                          (* 113-115 *)
  let! msl' := opt_bits (inds_order t) msl in                                        (* 116-118 *)
  let! b := name_bits (inds_order t) skip in                                         (* 121-122 *)
  let! k := pm_core (pf_model m) (inds_order t) in                                   (* 126 *)
  let! fm := fmodel_make k (pf_max m) in
  let! s := py_fw_make lg fr (core t) fm maxnew r ds b (match mc with Some x => Some (core x) | None => None end) sl' msl' in
  Ok (mkFO t m skip s).
Definition fo_run (lg : N -> Z) (us : list (frand R * bool)) (o : fw_obj) : res fw_obj :=
  let! s := fw_run lg us (fo_state o) in Ok (mkFO (fo_tree o) (fo_model o) (fo_skip o) s).

(** 333-348 __reduce__: the slices and the indices to skip as sets of indices;
    max_number_new_slices is not there *)
Definition fo_reduce (o : fw_obj)
  : res (pytree * pfmodel * R * bool * pytree * list nat * list nat * list nat) :=
  let s := fo_state o in
  let! t := get_ctree (fo_tree o) (fw_ct s) in
  let! mt := get_ctree (fo_tree o) (fw_min_ct s) in
  let! sl := slice_names (inds_order (fo_tree o)) (fw_sl s) in
  let! msl := slice_names (inds_order (fo_tree o)) (fw_min_sl s) in
  Ok (t, fo_model o, fw_rng s, fw_ds s, mt, sl, msl, fo_skip o).
(** 353-354 __eq__ *)
Definition fo_equal (a b : fw_obj) : res bool :=
  let! x := fo_reduce a in
  let! y := fo_reduce b in
  let '(t, m, r, ds, mt, sl, msl, sk) := x in
  let '(t', m', r', ds', mt', sl', msl', sk') := y in
  Ok (pytree_eqb t t' && pfmodel_eqb m m' && eqr r r' && Bool.eqb ds ds' && pytree_eqb mt mt' &&
      same_set sl sl' && same_set msl msl' && same_set sk sk').
(** pickle.loads(pickle.dumps(o)), 333-345 __build__: max_number_new_slices is the default 0 *)
Definition fo_copy (lg : N -> Z) (fr : frand R) (o : fw_obj) : res fw_obj :=
  let! x := fo_reduce o in
  let '(t, m, r, ds, mt, sl, msl, sk) := x in fo_make lg fr t m 0 r ds sk (Some mt) (Some sl) (Some msl).
End Same.
