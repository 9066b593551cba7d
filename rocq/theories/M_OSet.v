(** Model of OrderedFrozenSet (tnco/ordered_frozenset.py).

    Elements are naturals (in Python: any hashable). A value is its tuple [_order];
    the frozenset [_set] has the same elements. *)
From Verif Require Import M_Base M_Path M_PyTree.
Set Implicit Arguments.

Record oset := mkO { order : list nat }.

(** 41-43 *)
Definition ofs (l : list nat) : oset := mkO (unique l).
(** 51-52, 57-58, 60-68 *)
Definition iter (s : oset) : list nat := order s.
Definition len (s : oset) : nat := length (order s).
Definition copy (s : oset) : oset := ofs (iter s).
(** 54-55: the hash of the tuple, by [hash]. *)
Definition oset_hash (hash : list nat -> Z) (s : oset) : Z := hash (order s).

(** The right operand: an OrderedFrozenSet, a set or frozenset with its elements in
    the order of iteration, or some other iterable. *)
Inductive operand := OSet (s : oset) | PySet (l : list nat) | Iterable (l : list nat).
Definition elements (o : operand) : list nat :=
  match o with OSet s => order s | PySet l => l | Iterable l => l end.
(** 83-84 and the like *)
Definition coerce (o : operand) : oset :=
  match o with OSet s => s | PySet l => ofs l | Iterable l => ofs l end.

(** 70-86 *)
Definition difference (s : oset) (o : operand) : oset :=
  ofs (filter (fun x => negb (memb x (order (coerce o)))) (order s)).
(** 88-103 *)
Definition intersection (s : oset) (o : operand) : oset :=
  ofs (filter (fun x => memb x (order (coerce o))) (order s)).
(** 105-117 *)
Definition isdisjoint (s : oset) (o : operand) : bool := negb (existsb (fun x => memb x (elements o)) (order s)).
(** 119-131 *)
Definition issubset (s : oset) (o : operand) : bool := forallb (fun x => memb x (elements o)) (order s).
(** 133-145 *)
Definition issuperset (s : oset) (o : operand) : bool := forallb (fun x => memb x (order s)) (elements o).
(** 147-164 *)
Definition symmetric_difference (s : oset) (o : operand) : oset :=
  let b := order (coerce o) in
  let sd x := xorb (memb x (order s)) (memb x b) in
  ofs (filter sd (order s ++ b)).
(** 166-180 *)
Definition union (s : oset) (o : operand) : oset := ofs (order s ++ order (coerce o)).

(** 182-212: the operators accept sets only. *)
Definition is_set (o : operand) : bool := match o with Iterable _ => false | _ => true end.
Definition op_or (s : oset) (o : operand) : res oset := if is_set o then Ok (union s o) else Err Throw.
Definition op_and (s : oset) (o : operand) : res oset := if is_set o then Ok (intersection s o) else Err Throw.
Definition op_xor (s : oset) (o : operand) : res oset := if is_set o then Ok (symmetric_difference s o) else Err Throw.
Definition op_sub (s : oset) (o : operand) : res oset := if is_set o then Ok (difference s o) else Err Throw.
(** 214-262: comparisons of the frozensets. *)
Definition sub_list (l k : list nat) : bool := forallb (fun x => memb x k) l.
Definition op_le (s : oset) (o : operand) : res bool :=
  if is_set o then Ok (sub_list (order s) (elements o)) else Err Throw.
Definition op_ge (s : oset) (o : operand) : res bool :=
  if is_set o then Ok (sub_list (elements o) (order s)) else Err Throw.
Definition op_lt (s : oset) (o : operand) : res bool :=
  if is_set o then Ok (sub_list (order s) (elements o) && negb (sub_list (elements o) (order s))) else Err Throw.
Definition op_gt (s : oset) (o : operand) : res bool :=
  if is_set o then Ok (sub_list (elements o) (order s) && negb (sub_list (order s) (elements o))) else Err Throw.
Definition op_eq (s : oset) (o : operand) : res bool :=
  if is_set o then Ok (sub_list (order s) (elements o) && sub_list (elements o) (order s)) else Err Throw.
