(** Specification of C64: the same call with other names of the indices. *)
From Verif Require Import M_Base M_PyTree M_Tensor M_TnApp M_LoadTn M_App M_Seed.
Set Implicit Arguments.

(** Different names stay different. *)
Definition injective (f : nat -> nat) : Prop := forall x y, f x = f y -> x = y.

(** A dictionary with indices as keys. *)
Notation rename_keys f := (map (fun e => (f (fst e), snd e))).
Definition rename_dims (f : nat -> nat) (d : pydims) : pydims :=
  match d with PyDict l => PyDict (rename_keys f l) | PyInt k => PyInt k end.

(** A network: dimensions, arrays, tags and the path of fusions stay as they are. *)
Definition rename_tensor {K} (f : nat -> nat) (t : tensor K) : tensor K := mkT (map f (t_inds t)) (t_dims t) (t_array t).
Definition rename_network {K} (f : nat -> nat) (n : tnet K) : tnet K :=
  mkN (map (rename_tensor f) (n_list n)) (map f (n_inds n)) (rename_keys f (n_dims n)) (map f (n_out n)) (map f (n_sparse n)).
Definition rename_object {K} (f : nat -> nat) (o : object K) : object K :=
  mkO (rename_network f (o_net o)) (o_tags o) (option_map (map (fun e => (f (fst e), f (snd e)))) (o_hyper o)) (o_path o).

(** A call of optimize with the other network. *)
Definition rename_call {B K} (f : nat -> nat) (c : call B K) : call B K :=
  mkCall (rename_object f (ca_tn c)) (ca_dec c) (ca_fuse c) (ca_betas c) (ca_steps c) (ca_runs c) (ca_projs c).

(** A result of a finite-width optimizer: the sliced indices have the new names. *)
Definition rename_result (f : nat -> nat) (r : fw_result) : fw_result :=
  mkFwR (fr_cost r) (fr_path r) (fr_costs r) (fr_paths r) (map (map f) (fr_dslices r)) (map f (fr_slices r)).

(** An exception is the same exception. *)
Definition map_res {A B} (h : A -> B) (r : res A) : res B :=
  match r with Ok a => Ok (h a) | Err e => Err e end.

(** A set of the new names lists them in the order in which the set of the old names
    lists those. *)
Definition follows (f : nat -> nat) (arr arr' : list nat -> list nat) : Prop := forall l, arr' (map f l) = map f (arr l).
