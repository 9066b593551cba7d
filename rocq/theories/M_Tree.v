(** Model of include/tnco/node.hpp, include/tnco/tree.hpp and of traverse and
    get_contraction in include/tnco/utils.hpp. *)
From Verif Require Import M_Base.
Set Implicit Arguments.

(** node.hpp:31-42. [None] is the null index (-1); the constructor maps every
    negative number to null, see [node_make]. *)
Record node := mkNode { c0 : option nat; c1 : option nat; par : option nat }.

Definition opt_of_Z (x : Z) : option nat :=
  if (x <? 0)%Z then None else Some (Z.to_nat x).

(** node.hpp:65-67. *)
Definition is_root (n : node) : bool := match par n with None => true | _ => false end.
Definition is_leaf (n : node) : bool := match c0 n with None => true | _ => false end.

Definition oeqb (a b : option nat) : bool :=
  match a, b with
  | None, None => true
  | Some x, Some y => x =? y
  | _, _ => false
  end.

(** node.hpp:69-105 Node::is_valid (the consistency checks of lines 75-90 are
    trivially true of this representation). *)
Definition node_is_valid (n : node) : bool :=
  negb (xorb (oeqb (c0 n) None) (oeqb (c1 n) None)) &&
  negb (negb (is_leaf n) && oeqb (c0 n) (c1 n)) &&
  negb (negb (is_leaf n) && negb (is_root n) &&
        (oeqb (par n) (c0 n) || oeqb (par n) (c1 n))).

(** node.hpp:44-54 Node constructor. *)
Definition node_make (ch0 ch1 parent : Z) : res node :=
  let n := mkNode (opt_of_Z ch0) (opt_of_Z ch1) (opt_of_Z parent) in
  if node_is_valid n then Ok n else Err Throw.

(** node.hpp:61-63 operator==. *)
Definition node_eqb (a b : node) : bool :=
  oeqb (par a) (par b) && oeqb (c0 a) (c0 b) && oeqb (c1 a) (c1 b).

Definition tree := list node.

(** tree.hpp:195-202 n_leaves. *)
Definition n_leaves (t : tree) : nat := (length t + 1) / 2.

Definition opt_lt (x : option nat) (n : nat) : bool :=
  match x with None => true | Some i => i <? n end.

(** tree.hpp:101-112: number of nodes listing [v] as a child / as the parent. *)
Definition count_children (t : tree) (v : nat) : nat :=
  list_sum (map (fun n => if is_leaf n then 0
                          else Nat.b2n (oeqb (c0 n) (Some v)) + Nat.b2n (oeqb (c1 n) (Some v))) t).
Definition count_parents (t : tree) (v : nat) : nat :=
  list_sum (map (fun n => if is_root n then 0 else Nat.b2n (oeqb (par n) (Some v))) t).

(** tree.hpp:116-122 and 126-132 as C++ parses them:
    [c == node.is_leaf() ? 0 : 2] is [(c == node.is_leaf()) ? 0 : 2], where the
    bool is promoted to 0/1 and the int result is converted to bool. *)
Definition count_parents_ok (c : nat) (n : node) : bool :=
  negb (c =? Nat.b2n (is_leaf n)).
Definition count_children_ok (c : nat) (n : node) : bool :=
  negb (c =? Nat.b2n (is_root n)).

Definition all_pos (t : tree) (f : nat -> node -> bool) : bool :=
  forallb (fun i => match nth_error t i with Some n => f i n | None => true end)
          (seq 0 (length t)).

(** tree.hpp:56-138 Tree::is_valid (first component). The tree is not empty
    (checked first by the constructor). *)
Definition tree_is_valid (t : tree) : bool :=
  forallb (fun n => opt_lt (par n) (length t) && opt_lt (c0 n) (length t) &&
                    opt_lt (c1 n) (length t) && node_is_valid n) t &&
  match nth_error t (length t - 1) with Some n => is_root n | None => false end &&
  (length (filter is_root t) =? 1) &&
  (length (filter is_leaf (firstn (n_leaves t) t)) =? n_leaves t) &&
  (length t =? 2 * n_leaves t - 1) &&
  all_pos t (fun i n => count_parents_ok (count_parents t i) n) &&
  all_pos t (fun i n => count_children_ok (count_children t i) n).

(** tree.hpp:40-48 Tree constructor. *)
Definition tree_make (nodes : list node) : res tree :=
  if length nodes =? 0 then Err Throw else
  if tree_is_valid nodes then Ok nodes else Err Throw.

(** tree.hpp:50 default constructor. *)
Definition tree_default : tree := [mkNode None None None].

(** node.children[i] = x with i = 0 or 1. *)
Definition set_child (n : node) (second : bool) (x : nat) : node :=
  if second then mkNode (c0 n) (Some x) (par n) else mkNode (Some x) (c1 n) (par n).
Definition set_par (n : node) (x : nat) : node := mkNode (c0 n) (c1 n) (Some x).

(** tree.hpp:140-191 swap_with_nn for a non-negative position. The references
    node_A ... node_D are re-read where they are used; a null link used as a
    subscript is an access out of range. *)
Definition swap_nn (t : tree) (pos_D : nat) : res tree :=
  if length t <=? pos_D then Ok t else                          (* 154-156 *)
  let! node_D := get t pos_D in                                 (* 159 *)
  match par node_D with
  | None => Ok t                                                (* 160-162 *)
  | Some pos_B =>                                               (* 165 *)
      let! node_B := get t pos_B in                             (* 166 *)
      match par node_B with
      | None => Ok t                                            (* 167-169 *)
      | Some pos_A =>                                           (* 172 *)
          let! node_A := get t pos_A in                         (* 173 *)
          match (if oeqb (c0 node_A) (Some pos_B) then c1 node_A else c0 node_A) with
          | None => Err Oob
          | Some pos_C =>                                       (* 176 *)
              let! _ := get t pos_C in                          (* 177 *)
              (* 180 *)
              let! t1 := set t pos_A
                (set_child node_A (negb (oeqb (c0 node_A) (Some pos_C))) pos_D) in
              (* 181 *)
              let! node_B := get t1 pos_B in
              let! t2 := set t1 pos_B
                (set_child node_B (negb (oeqb (c0 node_B) (Some pos_D))) pos_C) in
              (* 182 *)
              let! node_C := get t2 pos_C in
              let! t3 := set t2 pos_C (set_par node_C pos_B) in
              (* 183 *)
              let! node_D := get t3 pos_D in
              set t3 pos_D (set_par node_D pos_A)
          end
      end
  end.

(** tree.hpp:217 the bound method takes a signed position; a negative one passes
    the guard of line 154 and is used as a subscript. *)
Definition swap_with_nn (t : tree) (pos : Z) : res tree :=
  if (pos <? 0)%Z then Err Oob else swap_nn t (Z.to_nat pos).

(** utils.hpp:34-51 traverse: explicit stack (top first) and visited bits; the
    callback is recorded as the list of positions it is called with. *)
Fixpoint traverse_loop (fuel : nat) (t : tree) (stack : list nat) (visited : list bool)
                       (out : list nat) : res (list nat) :=
  match stack with
  | [] => Ok out
  | pos :: rest =>
      match fuel with
      | O => Err Fuel
      | S f =>
          let! n := get t pos in
          let! vis := get visited pos in
          if vis || is_leaf n then traverse_loop f t rest visited (out ++ [pos])
          else
            match c0 n, c1 n with
            | Some x, Some y =>
                let! visited' := set visited pos true in
                traverse_loop f t (x :: y :: stack) visited' out
            | _, _ => Err Oob
            end
      end
  end.
(** Each node is on top of the stack at most twice. *)
Definition traverse (t : tree) : res (list nat) :=
  traverse_loop (2 * length t) t [length t - 1] (repeat false (length t)) [].

(** utils.hpp:53-71 get_contraction. *)
Fixpoint contraction_of (t : tree) (order : list nat) : res (list (nat * nat * nat)) :=
  match order with
  | [] => Ok []
  | pos :: order' =>
      let! n := get t pos in
      let! rest := contraction_of t order' in
      match c0 n, c1 n with
      | Some x, Some y => Ok ((x, y, pos) :: rest)
      | None, _ => Ok rest
      | Some _, None => Err Oob
      end
  end.
Definition get_contraction (t : tree) : res (list (nat * nat * nat)) :=
  let! order := traverse t in contraction_of t order.
