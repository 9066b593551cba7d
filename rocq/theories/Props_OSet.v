(** C32: OrderedFrozenSet is a set with first-occurrence order. *)
From Coq Require Import List Arith ZArith.
Import ListNotations.
From Verif Require Import M_Base M_OSet S_OSet P_OSet.

(** C32: iteration yields each element once, in order of first occurrence; len counts
    the distinct elements; a copy is the same. *)
Theorem C32_iteration l : set_like l (iter (ofs l)) (fun x => In x l) /\
  len (ofs l) = length (nodup Nat.eq_dec l) /\ copy (ofs l) = ofs l.
Proof. exact (conj (oset_iter l) (oset_len l)). Qed.
Print Assumptions C32_iteration.

(** C32: the set operations, and the order of their results: that of the left operand,
    then that of the right one. *)
Theorem C32_operations l o : operand_made o ->
  set_like (l ++ elements o) (iter (union (ofs l) o)) (fun x => In x l \/ In x (elements o)) /\
  set_like l (iter (intersection (ofs l) o)) (fun x => In x l /\ In x (elements o)) /\
  set_like l (iter (difference (ofs l) o)) (fun x => In x l /\ ~ In x (elements o)) /\
  set_like (l ++ elements o) (iter (symmetric_difference (ofs l) o))
    (fun x => (In x l /\ ~ In x (elements o)) \/ (In x (elements o) /\ ~ In x l)).
Proof. exact (@oset_ops l o). Qed.
Print Assumptions C32_operations.

(** C32: the operators are the operations on sets and raise on anything else. *)
Theorem C32_operators l o :
  (op_or (ofs l) o = if is_set o then Ok (union (ofs l) o) else Err Throw) /\
  (op_and (ofs l) o = if is_set o then Ok (intersection (ofs l) o) else Err Throw) /\
  (op_sub (ofs l) o = if is_set o then Ok (difference (ofs l) o) else Err Throw) /\
  (op_xor (ofs l) o = if is_set o then Ok (symmetric_difference (ofs l) o) else Err Throw).
Proof. exact (oset_operators l o). Qed.
Print Assumptions C32_operators.

(** C32: comparisons are those of sets; == ignores the order. *)
Theorem C32_comparisons l o : is_set o = true -> exists le ge lt gt eq,
  op_le (ofs l) o = Ok le /\ op_ge (ofs l) o = Ok ge /\ op_lt (ofs l) o = Ok lt /\ op_gt (ofs l) o = Ok gt /\ op_eq (ofs l) o = Ok eq /\
  (le = true <-> incl l (elements o)) /\ (ge = true <-> incl (elements o) l) /\
  (lt = true <-> incl l (elements o) /\ ~ incl (elements o) l) /\ (gt = true <-> incl (elements o) l /\ ~ incl l (elements o)) /\
  (eq = true <-> forall x, In x l <-> In x (elements o)).
Proof. exact (@oset_compare l o). Qed.
Print Assumptions C32_comparisons.

Theorem C32_tests l o : (isdisjoint (ofs l) o = true <-> forall x, ~ (In x l /\ In x (elements o))) /\
  (issubset (ofs l) o = true <-> incl l (elements o)) /\ (issuperset (ofs l) o = true <-> incl (elements o) l).
Proof. exact (oset_tests l o). Qed.
Print Assumptions C32_tests.

(** C32, equal objects have equal hashes: only if they have the same order. *)
Theorem C32_hash_partial hash l k : (forall i, nth_error (iter (ofs l)) i = nth_error (iter (ofs k)) i) ->
  oset_hash hash (ofs l) = oset_hash hash (ofs k).
Proof. exact (@oset_hash_same hash l k). Qed.
Print Assumptions C32_hash_partial.
(** Otherwise it is false, for any hash of tuples that tells (0, 1) and (1, 0) apart. *)
Theorem C32_hash_refuted hash : hash [0; 1] <> hash [1; 0] ->
  exists l k, op_eq (ofs l) (OSet (ofs k)) = Ok true /\ oset_hash hash (ofs l) <> oset_hash hash (ofs k).
Proof. exact (@oset_hash_bad hash). Qed.
Print Assumptions C32_hash_refuted.

Example C32_applies : operand_made (OSet (ofs [4; 1; 4])) /\
  iter (ofs [3; 1; 2; 1]) = [3; 1; 2] /\
  iter (union (ofs [3; 1; 2; 1]) (OSet (ofs [4; 1; 4]))) = [3; 1; 2; 4] /\
  iter (symmetric_difference (ofs [3; 1; 2; 1]) (Iterable [4; 1; 0; 4])) = [3; 2; 4; 0] /\
  op_eq (ofs [3; 1; 2; 1]) (PySet [1; 2; 3]) = Ok true /\ hd 0 [0; 1] <> hd 0 [1; 0].
Proof. split; [exists [4; 1; 4]; reflexivity|]. repeat split. discriminate. Qed.
