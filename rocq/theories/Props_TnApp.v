(** C37, C38, C41: index maps, tensors, tensor networks and lists of indices. *)
From Coq Require Import List Arith ZArith.
Import ListNotations.
From Verif Require Import M_Base M_Path M_Tensor M_TnApp S_OSet S_TnApp.
From Verif Require P_TnApp P_TnLoad.

(** C37. Equal tokens raise. Otherwise each name other than the tokens that some entry
    lists gets the indices whose entries list it, in order; the names stand in the
    order of their first occurrence; the dimensions are those listed; the output and
    sparse indices are those whose entries list the tokens. *)
Theorem C37_read_inds (m : list item) (o s : nat) : NoDup (map fst m) ->
  (o = s -> read_inds m o s = Err Throw) /\
  (o <> s -> exists r, read_inds m o s = Ok r /\
    set_like (names m) (map fst (r_map r)) (fun t => In t (names m) /\ t <> o /\ t <> s) /\
    (forall t xs, dict_get (r_map r) t = Ok xs <-> t <> o /\ t <> s /\ In t (names m) /\ xs = listed m t) /\
    map fst (r_dims r) = map fst m /\ (forall i d, dict_get (r_dims r) i = Ok d <-> exists ts, In (i, (d, ts)) m) /\
    NoDup (r_out r) /\ (forall i, In i (r_out r) <-> In i (listed m o)) /\
    NoDup (r_sparse r) /\ (forall i, In i (r_sparse r) <-> In i (listed m s))).
Proof.
  intros HN. split; [intros ->; unfold read_inds; rewrite Nat.eqb_refl; reflexivity|]. intros H. exact (P_TnApp.read_ok HN H).
Qed.
Print Assumptions C37_read_inds.
(** Tensor [t] has index [i] exactly when the entry of [i] lists [t]. *)
Theorem C37_listed (m : list item) (t i : nat) : In i (listed m t) <-> exists d ts, In (i, (d, ts)) m /\ In t ts.
Proof. exact (P_TnApp.listed_in m t i). Qed.
Print Assumptions C37_listed.

Definition ex_map : list item := [(7, (2%Z, [11; 12])); (5, (3%Z, [12; 0; 11])); (9, (4%Z, [13; 1; 12; 12]))].
Example C37_applies : NoDup (map fst ex_map) /\ 0 <> 1 /\
  read_inds ex_map 0 1 = Ok (mkR [(11, [7; 5]); (12, [7; 5; 9; 9]); (13, [9])] [(7, 2%Z); (5, 3%Z); (9, 4%Z)] [5] [9]).
Proof. split; [repeat constructor; simpl; intuition discriminate|]. split; [discriminate|reflexivity]. Qed.

(** C38, tensors: one dimension per index, all positive, as the arguments say; arguments
    that give no such dimensions raise. *)
Theorem C38_tensor (K : Type) (inds : list nat) (dims : dims_arg) (array : option (nda K)) :
  (make_tensor inds dims array = Err Throw /\ ~ exists ds, dims_given inds dims array ds) \/
  exists ds, make_tensor inds dims array = Ok (mkT inds ds array) /\ dims_given inds dims array ds.
Proof. exact (P_TnApp.make_tensor_ok inds dims array). Qed.
Print Assumptions C38_tensor.

(** C38, networks of tensors that have one dimension per index. *)
Theorem C38_network (K : Type) (ts : list (tensor K)) (out sparse : option (list nat)) :
  (forall t, In t ts -> length (t_dims t) = length (t_inds t)) ->
  (make_network ts out sparse = Err Throw /\ ~ valid_network ts out sparse) \/
  exists n, make_network ts out sparse = Ok n /\ valid_network ts out sparse /\ n_list n = ts /\
    NoDup (n_inds n) /\ (forall x, In x (n_inds n) <-> index_of ts x) /\
    (forall dim, agreed ts dim -> forall x d, dict_get (n_dims n) x = Ok d <-> index_of ts x /\ d = dim x) /\
    NoDup (n_out n) /\ (forall x, In x (n_out n) <-> match out with Some o => In x o | None => times ts x = 1 end) /\
    NoDup (n_sparse n) /\ (forall x, In x (n_sparse n) <-> exists s, sparse = Some s /\ In x s).
Proof. exact (@P_TnApp.make_network_ok K ts out sparse). Qed.
Print Assumptions C38_network.

Example C38_applies : let t1 := mkT [7; 5] [2%Z; 3%Z] (None : option (nda nat)) in let t2 := mkT [5; 9] [3%Z; 4%Z] None in
  make_tensor [7; 5] DNone (Some (mkA [2; 3] [1; 2; 3; 4; 5; 6])) = Ok (mkT [7; 5] [2%Z; 3%Z] (Some (mkA [2; 3] [1; 2; 3; 4; 5; 6]))) /\
  make_tensor [7; 5] (DOne 2%Z) (Some (mkA [2; 3] [1; 2; 3; 4; 5; 6])) = Err Throw /\
  (forall t, In t [t1; t2] -> length (t_dims t) = length (t_inds t)) /\
  make_network [t1; t2] None (Some [9]) = Ok (mkN [t1; t2] [7; 5; 9] [(7, 2%Z); (5, 3%Z); (9, 4%Z)] [7; 9] [9]) /\
  make_network [t1; t2] (Some [8]) None = Err Throw.
Proof. split; [reflexivity|]. split; [reflexivity|]. split; [intros t [<-|[<-|[]]]; reflexivity|]. split; reflexivity. Qed.

(** C41. Loading a list of (dimension, names), before fusing: it raises unless the tokens
    differ and every index has a positive dimension and a tensor; otherwise the network
    has a tensor for each name, with the indices (positions in the list) whose entries
    list the name, the listed dimensions, and the output and sparse indices marked by the
    tokens. *)
Theorem C41_load_list (K : Type) (obj : list (Z * list nat)) (o s : nat) :
  (load_inds K obj o s = Err Throw /\ ~ loadable obj o s) \/
  exists ns n, load_inds K obj o s = Ok (ns, n) /\ loadable obj o s /\
    set_like (names (numbered obj)) ns (fun t => In t (names (numbered obj)) /\ t <> o /\ t <> s) /\ length (n_list n) = length ns /\
    (forall k t, nth_error ns k = Some t -> exists T, nth_error (n_list n) k = Some T /\ t_inds T = listed (numbered obj) t /\ t_array T = None) /\
    (forall i d, dict_get (n_dims n) i = Ok d <-> exists l, nth_error obj i = Some (d, l)) /\
    (forall i, In i (n_out n) <-> In i (listed (numbered obj) o)) /\ (forall i, In i (n_sparse n) <-> In i (listed (numbered obj) s)) /\
    (forall T k x, In T (n_list n) -> nth_error (t_inds T) k = Some x -> exists d, nth_error (t_dims T) k = Some d /\ dict_get (n_dims n) x = Ok d).
Proof. exact (P_TnLoad.load_ok K obj o s). Qed.
Print Assumptions C41_load_list.

Example C41_applies :
  load_inds nat [(2%Z, [11; 12]); (3%Z, [12; 0; 11]); (4%Z, [13; 1])] 0 1 =
    Ok ([11; 12; 13], mkN [mkT [0; 1] [2%Z; 3%Z] None; mkT [0; 1] [2%Z; 3%Z] None; mkT [2] [4%Z] None] [0; 1; 2] [(0, 2%Z); (1, 3%Z); (2, 4%Z)] [1] [2]) /\
  load_inds nat [(2%Z, [11; 12]); (3%Z, [0])] 0 1 = Err Throw.
Proof. split; reflexivity. Qed.
