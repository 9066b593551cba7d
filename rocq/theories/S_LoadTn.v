(** Specification vocabulary for loading a TensorNetwork. *)
From Coq Require Import List Arith NArith ZArith Bool.
Import ListNotations.
From Verif Require Import M_Base M_Path M_PyTree M_Tensor M_Decompose M_TnApp M_LoadTn.
From Verif Require Import S_Path S_Random S_Tensor S_Contract S_Decompose.

Set Implicit Arguments.
Section LoadTn.
Variable K : Type.
Variable A : alg K.

(** The indices of the tensors; the dimension of an index. *)
Definition inds_of (n : tnet K) : list (list nat) := map (@t_inds K) (n_list n).
Definition size (n : tnet K) (x : nat) : nat := match dict_get (n_dims n) x with Ok d => Z.to_nat d | Err _ => 0 end.

(** An object that the constructors Tensor and TensorNetwork give, from arrays in which
    the number of entries is the one of the shape, and tags for each tensor. *)
Definition built (n : tnet K) : Prop :=
  exists ts out sparse, make_network ts out sparse = Ok n /\
    forall t, In t ts -> (exists inds dims a, make_tensor inds dims a = Ok t) /\ (forall a, t_array t = Some a -> well_shaped a).
(** No tensor has an index twice. *)
Definition plain (n : tnet K) : Prop := forall xs, In xs (inds_of n) -> NoDup xs.

(** All tensors have arrays, and [l] lists them; no tensor has one. *)
Definition arrays_are (n : tnet K) (l : list (nda K)) : Prop := map (@t_array K) (n_list n) = map Some l.
Definition no_arrays (n : tnet K) : Prop := forall t, In t (n_list n) -> t_array t = None.

(** The tensor of the outputs, at the values [v]: the sum, over the values of all other
    indices, of the products of the entries. *)
Definition summed (n : tnet K) : list nat := filter (fun x => negb (existsb (Nat.eqb x) (n_out n))) (nodup Nat.eq_dec (concat (inds_of n))).
Definition value (n : tnet K) (l : list (nda K)) (v : nat -> nat) : K :=
  sum_over A (size n) (summed n) (network A l (inds_of n)) v.

(** Merging hyper-indices replaces each index [x] by [f x] ([f x] is [x] when nothing is
    merged), and is harmless: each of the new indices is still in some tensor, and no tensor
    has one twice. *)
Definition harmless (ts us : list (list nat)) (f : nat -> nat) : Prop :=
  (forall t x, has ts t x -> exists u, has us u (f x)) /\ (forall xs, In xs us -> NoDup xs).
Inductive merging (eqb : K -> K -> bool) (dec : bool) (o : object K) : (nat -> nat) -> Prop :=
| merge_none : dec = false \/ n_sparse (o_net o) <> [] -> merging eqb dec o (fun x => x)
| merge_some l bs us m : dec = true -> n_sparse (o_net o) = [] -> o_hyper o = None ->
    arrays_are (o_net o) l -> decompose_network A eqb l (inds_of (o_net o)) = Ok (bs, us, m) ->
    harmless (inds_of (o_net o)) us (sent m) -> merging eqb dec o (sent m).

(** Object [o'], with the arrays [l'], stands for the same tensor as [o] with the arrays
    [l], when the outputs are renamed by [f]. *)
Record loaded (o o' : object K) (l l' : list (nda K)) (f : nat -> nat) : Prop := {
  (** It is again an object that can be loaded, optimized and contracted. *)
  ld_built : built (o_net o');
  ld_plain : plain (o_net o');
  ld_tags : length (o_tags o') = length (n_list (o_net o'));
  ld_arrays : arrays_are (o_net o') l';
  (** Its outputs are the renamed outputs; its sparse indices are the same. *)
  ld_out : forall x, In x (n_out (o_net o')) <-> exists y, In y (n_out (o_net o)) /\ x = f y;
  ld_sparse : forall x, In x (n_sparse (o_net o')) <-> In x (n_sparse (o_net o));
  (** It has no new indices, and they keep their dimensions. *)
  ld_inds : forall x, In x (concat (inds_of (o_net o'))) -> In x (concat (inds_of (o_net o))) /\ size (o_net o') x = size (o_net o) x;
  ld_dim : forall y, In y (n_out (o_net o)) -> size (o_net o') (f y) = size (o_net o) y;
  ld_same : n_sparse (o_net o) <> [] -> inds_of (o_net o') = inds_of (o_net o);
  ld_empty : n_list (o_net o') = [] <-> n_list (o_net o) = [];
  (** Its value is the value of [o]. That is zero where outputs that are now the same have
      different values. *)
  ld_value : forall v v', in_range (size (o_net o)) (n_out (o_net o)) v -> (forall y, In y (n_out (o_net o)) -> v' (f y) = v y) -> value (o_net o') l' v' = value (o_net o) l v;
  ld_zero : forall v y y', in_range (size (o_net o)) (n_out (o_net o)) v -> In y (n_out (o_net o)) -> In y' (n_out (o_net o)) -> f y = f y' -> v y <> v y' -> value (o_net o) l v = zero A }.

(** The tags of the tensors that an object was made of. *)
Fixpoint leaves (t : tag) : list tag := match t with Pair x y => leaves x ++ leaves y | _ => [t] end.
End LoadTn.
