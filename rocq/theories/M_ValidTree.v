(** Model of is_valid_contraction_tree (tnco/testing/utils.py:360-444) and of the
    comparison of contraction trees (tnco/ctree.py:263-264, include/tnco/tree.hpp:52-54,
    include/tnco/ctree.hpp:96-99).

    A frozenset is a list; [ord] gives the order in which one is iterated. ts_inds is a
    list (an iterator would be used up by line 403). A failed assertion is [Err Crash], a
    missing key [Err Throw]. *)
From Verif Require Import M_Base M_Bitset M_Tree M_CTree M_Path M_PyTree M_PyNodes M_PyViews.
Set Implicit Arguments.

Fixpoint all2 {A B} (f : A -> B -> bool) (l : list A) (k : list B) : bool :=
  match l, k with
  | [], [] => true
  | x :: l', y :: k' => f x y && all2 f l' k'
  | _, _ => false
  end.
Definition dims_eqb (a b : dims_t) : bool :=
  match a, b with
  | DInt x, DInt y => (x =? y)%N
  | DVec l, DVec k => all2 N.eqb l k
  | _, _ => false
  end.
(** ctree.hpp:96-99 *)
Definition ctree_eqb (a b : ctree) : bool :=
  all2 node_eqb (nodes a) (nodes b) && all2 (all2 Bool.eqb) (inds a) (inds b) && dims_eqb (dims a) (dims b).
(** ctree.py:263-264 *)
Definition pytree_eqb (a b : pytree) : bool := ctree_eqb (core a) (core b) && all2 Nat.eqb (inds_order a) (inds_order b).

(** 390-391: swap_with_nn for each of the positions *)
Fixpoint swaps (ks : list nat) (t : tree) : res tree :=
  match ks with
  | [] => Ok t
  | k :: ks' => let! t' := swap_with_nn t (Z.of_nat k) in swaps ks' t'
  end.
Definition with_nodes (t : pytree) (ns : tree) : pytree :=
  mkPT (mkCT ns (inds (core t)) (dims (core t))) (n_tensors t) (tensors_pos t) (inds_order t).

(** all(f(x, v) for (x, v) in d.items()), which stops at the first that is false *)
Fixpoint all_items {V} (f : nat -> V -> res bool) (d : list (nat * V)) : res bool :=
  match d with
  | [] => Ok true
  | (x, v) :: d' => let! b := f x v in if b then all_items f d' else Ok false
  end.

(** d[x] += 1 for a defaultdict(int) *)
Definition incr (d : list (nat * nat)) (x : nat) : list (nat * nat) :=
  dict_set d x (S (match dict_get d x with Ok k => k | Err _ => 0 end)).
(** 423-431: the loop over the nodes; None is the 'return False' of line 428. *)
Fixpoint count_shared (ord : list nat -> list nat) (t : pytree) (chk : bool) (ns : list node) (d : list (nat * nat))
  : res (option (list (nat * nat))) :=
  match ns with
  | [] => Ok (Some d)
  | n :: ns' =>
      match c0 n, c1 n with
      | Some x, Some y =>
          let! ix := py_inds t x in
          let! iy := py_inds t y in                                               (* 425-426 *)
          let both := ord (filter (fun i => memb i iy) ix) in
          if chk && (length both =? 0) then Ok None else                          (* 427-428 *)
          count_shared ord t chk ns' (fold_left incr both d)                      (* 430-431 *)
      | _, _ => count_shared ord t chk ns' d
      end
  end.

(** 360-444. [chk] is None or False, or True. *)
Definition is_valid_contraction_tree (ord : list nat -> list nat) (t : pytree) (ts : option (list (list nat))) (d : option pydims)
  (out : option (list nat)) (hyper : option (list (nat * Z))) (chk : bool) : res bool :=
  let! x := tree_reduce ord t in
  let! copy := tree_build x in                                                    (* 385 *)
  if negb (pytree_eqb copy t) then Ok false else                                  (* 386 *)
  let! ns := swaps (seq 0 (length (nodes (core copy)))) (nodes (core copy)) in
  if pytree_eqb (with_nodes copy ns) t then Err Crash else                        (* 392 *)
  let! b := match d with
            | None => Ok true
            | Some (PyInt k) => all_items (fun _ v => Ok (k =? v)%N) (py_dims t)
            | Some (PyDict l) => all_items (fun x v => let! k := dict_get l x in Ok (k =? v)%N) (py_dims t)
            end in
  if negb b then Ok false else                                                    (* 395-399 *)
  let! b := match ts with
            | None => Ok true
            | Some ts =>
                let! xs := mapM (names_of (inds_order t)) (firstn (n_leaves (nodes (core t))) (inds (core t))) in
                Ok (all2 same_set xs ts && same_set (concat ts) (M_PyViews.all_inds t))
            end in
  if negb b then Ok false else                                                    (* 402-406 *)
  if negb (ctree_is_valid (core t) chk) then Ok false else                        (* 409-411 *)
  let! b := match out with
            | None => Ok true
            | Some o => let! xs := output_inds t in Ok (same_set xs o)
            end in
  if negb b then Ok false else                                                    (* 414-417 *)
  match hyper with
  | None => Ok true
  | Some h =>
      let! c := count_shared ord t chk (nodes (core t)) [] in
      match c with
      | None => Ok false
      | Some c =>
          let! xs := output_inds t in
          all_items (fun x v => let! k := dict_get h x in Ok (k =? Z.of_nat v)%Z) (fold_left incr (ord xs) c)   (* 434-441 *)
      end
  end.
