(** Model of the comparison of tensors (Tensor.__eq__, tnco/app/tn.py:139-145) and of
    networks (the __eq__ that @dataclass gives to TensorNetwork, app/tn.py:176, which
    compares the tuples of the fields tensors, output_inds, sparse_inds and tags).

    The entries of the arrays are of any type: [sub] is their difference and [small x]
    tells whether abs(x) < atol, which is False for NaN. Both arrays are numpy arrays of
    numbers. The tags of tensors are not compared, so they do not appear. *)
From Verif Require Import M_Base M_Path M_PyTree M_OSet M_Tensor M_TnApp.
Set Implicit Arguments.

Section Equal.
Variable K : Type.
Variable A : alg K.
Variable sub : K -> K -> K.
Variable small : K -> bool.

(** numpy broadcasting of two shapes, from the last axis to the first: two sizes must
    agree, or one of them is 1. *)
Fixpoint join (s t : list nat) : res (list nat) :=
  match s, t with
  | [], _ => Ok t
  | _, [] => Ok s
  | d :: s', e :: t' =>
      if d =? e then let! r := join s' t' in Ok (d :: r)
      else if d =? 1 then let! r := join s' t' in Ok (e :: r)
      else if e =? 1 then let! r := join s' t' in Ok (d :: r)
      else Err Throw
  end.
Definition broadcast (s t : list nat) : res (list nat) := let! r := join (rev s) (rev t) in Ok (rev r).
(** The position in an array of shape [s] that stands at position [ix] of the broadcast
    array: the last axes of [ix], and 0 along axes of size 1. *)
Definition at_shape (s ix : list nat) : list nat :=
  map (fun p => if fst p =? 1 then 0 else snd p) (combine s (skipn (length ix - length s) ix)).
(** a - b *)
Definition subtract (a b : nda K) : res (nda K) :=
  let! sh := broadcast (shape a) (shape b) in
  Ok (mkA sh (map (fun ix => sub (entry A a (at_shape (shape a) ix)) (entry A b (at_shape (shape b) ix))) (indices sh))).

(** self.inds == other.inds *)
Fixpoint eqb_inds (l k : list nat) : bool :=
  match l, k with
  | [], [] => true
  | x :: l', y :: k' => (x =? y) && eqb_inds l' k'
  | _, _ => false
  end.

(** Tensor.__eq__ (app/tn.py:139-145) *)
Definition eq_tensor (t u : tensor K) : res bool :=
  let rest := eqb_inds (t_inds t) (t_inds u) && eqb_dims (t_dims t) (t_dims u) in   (* 145 *)
  match t_array t, t_array u with
  | None, Some _ | Some _, None => Ok false                                         (* 140-141 *)
  | None, None => Ok rest
  | Some a, Some b =>
      let! d := subtract a b in
      if negb (forallb small (data d)) then Ok false else Ok rest                   (* 142-144 *)
  end.
(** t == x, where [None] stands for an object without the attribute array:
    line 140 raises an AttributeError. *)
Definition eq_tensor_any (t : tensor K) (x : option (tensor K)) : res bool :=
  match x with Some u => eq_tensor t u | None => Err Throw end.

(** A network in memory: each of its tensors is an object with an identity, and it has
    tags, which are compared by [eq_tags]. *)
Variable G : Type.
Variable eq_tags : G -> G -> bool.
Record network := mkNw { w_net : tnet K; w_ids : list nat; w_tags : G }.

(** The comparison of two tuples of tensors: it goes along both to the first pair that
    differs, and only then compares the lengths. Elements that are the same object are
    equal without a call of __eq__. *)
Fixpoint eq_tuple (l k : list (nat * tensor K)) : res bool :=
  match l, k with
  | x :: l', y :: k' =>
      let! b := if fst x =? fst y then Ok true else eq_tensor (snd x) (snd y) in
      if b then eq_tuple l' k' else Ok false
  | [], [] => Ok true
  | _, _ => Ok false
  end.
Definition objects (n : network) : list (nat * tensor K) := combine (w_ids n) (n_list (w_net n)).
(** frozenset == frozenset *)
Definition eq_set (l k : list nat) : bool := (length l =? length k) && subset l k.
(** TensorNetwork.__eq__ *)
Definition eq_network (n m : network) : res bool :=
  let! b := eq_tuple (objects n) (objects m) in
  Ok (b && eq_set (n_out (w_net n)) (n_out (w_net m)) && eq_set (n_sparse (w_net n)) (n_sparse (w_net m)) && eq_tags (w_tags n) (w_tags m)).
(** n == x, where [None] stands for an object of another class: both sides give
    NotImplemented, and == is then False. *)
Definition eq_network_any (n : network) (x : option network) : res bool :=
  match x with Some m => eq_network n m | None => Ok false end.
End Equal.
