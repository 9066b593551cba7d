(** Specification vocabulary for read_inds and TensorNetwork. *)
From Coq Require Import List Arith ZArith.
Import ListNotations.
From Verif Require Import M_Base M_Path M_Tensor M_TnApp.

(** The indices whose entries list [t], in order, once for each time they do. *)
Definition listed (m : list item) (t : nat) : list nat :=
  flat_map (fun e => repeat (fst e) (count_occ Nat.eq_dec (snd (snd e)) t)) m.
(** All names in the order in which the entries list them. *)
Definition names (m : list item) : list nat := flat_map (fun e => snd (snd e)) m.

(** The dimensions that the arguments of Tensor give to the indices. *)
Definition dims_given {K : Type} (inds : list nat) (dims : dims_arg) (array : option (nda K)) (ds : list Z) : Prop :=
  length ds = length inds /\ (forall d, In d ds -> (1 <= d)%Z) /\
  (dims = DNone -> array <> None) /\
  (forall d, dims = DOne d -> (1 <= d)%Z /\ forall d', In d' ds -> d' = d) /\
  (forall l, dims = DMany l -> ds = l) /\
  (forall a, array = Some a -> ds = map Z.of_nat (shape a)).

(** The tensors agree on the dimension of every index. *)
Definition agreed {K : Type} (ts : list (tensor K)) (dim : nat -> Z) : Prop :=
  forall t, In t ts -> t_dims t = map dim (t_inds t).
Definition index_of {K : Type} (ts : list (tensor K)) (x : nat) : Prop := exists t, In t ts /\ In x (t_inds t).
(** How often the index occurs in the tensors. *)
Definition times {K : Type} (ts : list (tensor K)) (x : nat) : nat := count_occ Nat.eq_dec (flat_map (@t_inds K) ts) x.
Definition valid_network {K : Type} (ts : list (tensor K)) (out sparse : option (list nat)) : Prop :=
  (exists dim, agreed ts dim) /\
  (out = None -> forall x, times ts x <= 2) /\
  (forall o x, out = Some o -> In x o -> index_of ts x) /\
  (forall s x, sparse = Some s -> In x s -> index_of ts x).

(** A list of (dimension, names): the entries of an index map whose indices are the
    positions in the list. *)
Definition numbered (obj : list (Z * list nat)) : list item := combine (seq 0 (length obj)) obj.
(** Every index has a positive dimension and belongs to some tensor. *)
Definition loadable (obj : list (Z * list nat)) (o s : nat) : Prop :=
  o <> s /\ forall i d ns, nth_error obj i = Some (d, ns) -> (1 <= d)%Z /\ exists t, In t ns /\ t <> o /\ t <> s.
