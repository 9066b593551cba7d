(** Model of tensordot (tnco/utils/tensor.py:175-256) and of the numpy operations it
    uses: transpose, reshape and the product @ of two stacks of matrices.

    An array is its shape and its entries in row-major order. The entries are of any
    type with a zero, a sum and a product: floating-point rounding is not
    modelled. Indices are naturals (in Python: any hashable). *)
From Verif Require Import M_Base M_Path M_PyTree M_OSet.
Set Implicit Arguments.

(** The arithmetic of the entries. *)
Record alg (K : Type) := mkAlg { zero : K; one : K; add : K -> K -> K; mul : K -> K -> K }.

Record nda (K : Type) := mkA { shape : list nat; data : list K }.
Arguments mkA {K}.

Definition prod (l : list nat) : nat := fold_right Nat.mul 1 l.
(** All positions of an array, in row-major order. *)
Fixpoint indices (sh : list nat) : list (list nat) :=
  match sh with
  | [] => [[]]
  | d :: sh' => flat_map (fun i => map (cons i) (indices sh')) (seq 0 d)
  end.
(** The place of a position in row-major order. *)
Fixpoint ravel (sh ix : list nat) : nat :=
  match sh, ix with
  | _ :: sh', i :: ix' => i * prod sh' + ravel sh' ix'
  | _, _ => 0
  end.

Section Arrays.
Variable K : Type.
Variable A : alg K.

(** a[ix] *)
Definition entry (a : nda K) (ix : list nat) : K := nth (ravel (shape a) ix) (data a) (zero A).

(** a.transpose(axes): b[ix] = a[jx] where jx[axes[k]] = ix[k]; raises unless axes
    is a permutation of the axes. *)
Definition position (l : list nat) (x : nat) : nat :=
  match index Nat.eqb x l with Ok i => i | Err _ => length l end.
Definition transpose (a : nda K) (axes : list nat) : res (nda K) :=
  let r := length (shape a) in
  if (length axes =? r) && forallb (fun j => memb j axes) (seq 0 r) then
    let sh := map (fun j => nth j (shape a) 0) axes in
    Ok (mkA sh (map (fun ix => entry a (map (fun j => nth (position axes j) ix 0) (seq 0 r))) (indices sh)))
  else Err Throw.
(** a.reshape(sh): raises unless the size is the same. (A negative size, which numpy
    would infer, does not occur.) *)
Definition reshape (a : nda K) (sh : list nat) : res (nda K) :=
  if prod sh =? length (data a) then Ok (mkA sh (data a)) else Err Throw.

Definition sum_upto (n : nat) (f : nat -> K) : K := fold_right (add A) (zero A) (map f (seq 0 n)).
(** a @ b for two stacks of matrices. numpy would also broadcast a stack of size
    one: not modelled, since both stacks have the same size (246-256). *)
Definition matmul (a b : nda K) : res (nda K) :=
  match shape a, shape b with
  | [h; m; k], [h'; k'; n] =>
      if (h =? h') && (k =? k') then
        Ok (mkA [h; m; n]
          (map (fun ix => let e j := nth j ix 0 in
                          sum_upto k (fun j => mul A (entry a [e 0; e 1; j]) (entry b [e 0; j; e 2])))
               (indices [h; m; n])))
      else Err Throw
  | _, _ => Err Throw
  end.

(** 218: dims; a later entry replaces an earlier one. *)
Definition dict_of {V} (l : list (nat * V)) : list (nat * V) :=
  fold_left (fun d e => dict_set d (fst e) (snd e)) l [].
(** fts.reduce(op.mul, map(dims.get, xs), 1): raises on a missing index. *)
Definition sizes (dims : list (nat * nat)) (xs : list nat) : res (list nat) := mapM (dict_get dims) xs.

(** 221-238: the groups of indices. Raises unless the hyper-indices are shared. *)
Record groups := mkG { g_hyper : oset; g_shared : oset; g_x : oset; g_y : oset }.
Definition group (xs ys : oset) (hyper_inds : list nat) : res groups :=
  let hyper := ofs hyper_inds in
  let both := intersection xs (OSet ys) in
  if negb (issuperset both (OSet hyper)) then Err Throw else                      (* 224 *)
  Ok (mkG hyper (difference both (OSet hyper)) (difference xs (OSet both)) (difference ys (OSet both))).
(** 238 *)
Definition new_inds (g : groups) : list nat :=
  iter (union (union (g_hyper g) (OSet (g_x g))) (OSet (g_y g))).

(** 175-242 with return_inds_only=True. *)
Definition tensordot_inds (xs0 ys0 hyper_inds : list nat) : res (list nat) :=
  let! g := group (ofs xs0) (ofs ys0) hyper_inds in
  Ok (new_inds g).

(** 175-256 with arrays. *)
Definition tensordot (ax : nda K) (xs0 : list nat) (ay : nda K) (ys0 : list nat) (hyper_inds : list nat)
  : res (nda K * list nat) :=
  let xs := ofs xs0 in
  let ys := ofs ys0 in
  let dims := dict_of (combine (iter xs) (shape ax) ++ combine (iter ys) (shape ay)) in   (* 218 *)
  let! g := group xs ys hyper_inds in
  let new_xs := iter (union (union (g_hyper g) (OSet (g_x g))) (OSet (g_shared g))) in  (* 234 *)
  let new_ys := iter (union (union (g_hyper g) (OSet (g_shared g))) (OSet (g_y g))) in  (* 235 *)
  let zs := new_inds g in
  let! px := mapM (fun x => index Nat.eqb x (iter xs)) new_xs in
  let! tx := transpose ax px in
  let! h := sizes dims (iter (g_hyper g)) in
  let! dx := sizes dims (iter (g_x g)) in
  let! ds := sizes dims (iter (g_shared g)) in
  let! rx := reshape tx [prod h; prod dx; prod ds] in                              (* 246-249 *)
  let! py := mapM (fun x => index Nat.eqb x (iter ys)) new_ys in
  let! ty := transpose ay py in
  let! dy := sizes dims (iter (g_y g)) in
  let! ry := reshape ty [prod h; prod ds; prod dy] in                              (* 250-253 *)
  let! m := matmul rx ry in
  let! dz := sizes dims zs in
  let! z := reshape m dz in                                                       (* 256 *)
  Ok (z, zs).
End Arrays.
