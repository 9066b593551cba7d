(** Model of the cost functions of the Python cost models, which take indices by name:
    tnco/optimize/infinite_memory/cost_model.py:129-183 contraction_cost and
    tnco/optimize/finite_width/cost_model.py:175-219 width, 221-273 delta_width, 275-336
    contraction_cost. A frozenset of sparse indices is a list, in the order of iteration.
    Costs are exact and [lg] is log2, as in M_Cost and M_FinWidth. *)
From Verif Require Import M_Base M_Bitset M_CTree M_Cost M_FinWidth M_Path M_PyTree M_App M_Alike.
Set Implicit Arguments.

(** infinite 158-160, finite 196-198, 250-252, 312-314: the sparse indices after the
    others, if there are any *)
Definition with_sparse (m : pmodel) (xs : list nat) : list nat :=
  match pm_sparse m with Some sp => unique (xs ++ sp) | None => xs end.

(** infinite 162-172, finite 200-210, 254-264, 316-326: an integer for all, or one
    dimension for each index in this order; ValueError if one is missing *)
Definition dims_in (d : pydims) (order : list nat) : res dims_t :=
  match d with
  | PyInt k => Ok (DInt k)
  | PyDict l =>
      if negb (forallb (fun x => memb x (map fst l)) order) then Err Throw else
      let! ds := dims_of d order in Ok (DVec ds)
  end.

(** infinite 129-183 *)
Definition py_ccost (m : pmodel) (xs ys zs : list nat) (d : pydims) : res Z :=
  let order := with_sparse m (unique (xs ++ ys ++ zs)) in                            (* 157-160 *)
  let! dd := dims_in d order in                                                      (* 162-172 *)
  let! k := pm_core m order in                                                       (* 175 *)
  let! a := name_bits order xs in                                                    (* 178-180 *)
  let! b := name_bits order ys in
  let! c := name_bits order zs in
  Ok (ccost_of k a b c dd).                                                          (* 183 *)

(** finite 339-360 __get_core__ *)
Definition pf_core (m : pfmodel) (order : list nat) : res fmodel :=
  let! k := pm_core (pf_model m) order in fmodel_make k (pf_max m).

(** finite 175-219; without sparse indices a repeated index stays repeated in the order *)
Definition py_width (lg : N -> Z) (m : pfmodel) (xs : list nat) (d : pydims) : res Z :=
  let order := with_sparse (pf_model m) xs in                                        (* 195-198 *)
  let! dd := dims_in d order in                                                      (* 200-210 *)
  let! k := pf_core m order in                                                       (* 213 *)
  let! b := name_bits order xs in                                                    (* 216 *)
  Ok (width_of lg k b dd).                                                           (* 219 *)

(** finite 221-273: the position is the one in the given indices *)
Definition py_dwidth (lg : N -> Z) (m : pfmodel) (xs : list nat) (d : pydims) (x : nat) : res Z :=
  if negb (memb x xs) then Err Throw else                                            (* 242-243 *)
  let! pos := rank xs x in                                                           (* 246 *)
  let order := with_sparse (pf_model m) xs in                                        (* 249-252 *)
  let! dd := dims_in d order in                                                      (* 254-264 *)
  let! k := pf_core m order in                                                       (* 267 *)
  let! b := name_bits order xs in                                                    (* 270 *)
  Ok (delta_width_of lg k b dd pos).                                                 (* 273 *)

(** finite 275-336 *)
Definition py_fccost (m : pfmodel) (xs ys zs : list nat) (d : pydims) (sl : list nat) : res Z :=
  if negb (forallb (fun z => memb z (xs ++ ys)) zs) then Err Throw else              (* 306-308 *)
  let order := with_sparse (pf_model m) (unique (xs ++ ys ++ zs ++ sl)) in           (* 311-314 *)
  let! dd := dims_in d order in                                                      (* 316-326 *)
  let! k := pf_core m order in                                                       (* 329 *)
  let! a := name_bits order xs in                                                    (* 332-334 *)
  let! b := name_bits order ys in
  let! c := name_bits order zs in
  let! s := name_bits order sl in
  Ok (fcost_of k a b c dd s).                                                        (* 337 *)
