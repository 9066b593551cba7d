(** Model of include/tnco/optimize/optimizer.hpp (base Optimizer) and of
    include/tnco/optimize/infinite_memory/utils.hpp (CostCache, HyperCache,
    get_cost). *)
From Verif Require Import M_Base M_Bitset M_Tree M_CTree.
Set Implicit Arguments.

(** The pseudo-random generator: an arbitrary state with an arbitrary [prng()]
    (optimizer.hpp:48) and an arbitrary outcome of
    [uniform(prng) <= prob(delta_cost, total_cost)] (infinite_memory/
    optimizer.hpp:162). Theorems quantify over every such record, hence over every
    seed and every acceptance rule. *)
Record rand (R : Type) := mkRand {
  draw   : R -> nat * R;
  accept : R -> Z -> Z -> bool * R
}.

(** optimizer.hpp:86-172 get_ctree_nn. [None] is {null, null, null, null}. *)
Definition get_ctree_nn {R} (rd : rand R) (c : ctree) (disable_shared : bool) (r : R)
  (pos_B : option nat) : res (option (nat * nat * nat * nat) * R) :=
  match pos_B with
  | None => Ok (None, r)                                            (* 112-114 *)
  | Some pos_B =>
      let! node_B := get (nodes c) pos_B in                         (* 117 *)
      if is_root node_B || is_leaf node_B then Ok (None, r) else    (* 118-120 *)
      match par node_B, c0 node_B, c1 node_B with
      | Some pos_A, Some pos_0, Some pos_1 =>
          let! node_A := get (nodes c) pos_A in                     (* 122 *)
          match (if oeqb (c0 node_A) (Some pos_B) then c1 node_A else c0 node_A) with
          | None => Err Oob
          | Some pos_C =>                                           (* 123-124 *)
              let! inds_C := get (inds c) pos_C in                  (* 125 *)
              let! inds_0 := get (inds c) pos_0 in
              let! inds_1 := get (inds c) pos_1 in
              let inter_C0 := bintersects inds_0 inds_C in          (* 131 *)
              let inter_C1 := bintersects inds_1 inds_C in          (* 132 *)
              if disable_shared || (inter_C0 && inter_C1) then      (* 135 *)
                let '(x, r') := draw rd r in                        (* 139 *)
                if Nat.odd x
                then Ok (Some (pos_A, pos_C, pos_0, pos_1), r')
                else Ok (Some (pos_A, pos_C, pos_1, pos_0), r')
              else if inter_C0                                      (* 143 *)
                then Ok (Some (pos_A, pos_C, pos_0, pos_1), r)
                else Ok (Some (pos_A, pos_C, pos_1, pos_0), r)
          end
      | _, _, _ => Err Oob
      end
  end.

(** infinite_memory/utils.hpp:22-66 CostCache. *)
Record cost_cache := mkCC { pcost : list Z; ccost : list Z }.

(** utils.hpp:36-56 the callback, given the cost of a contraction. *)
Definition cost_cache_visit (cc : bitset -> bitset -> bitset -> Z) (c : ctree)
  (k : cost_cache) (pos : nat) : res cost_cache :=
  let! n := get (nodes c) pos in
  if is_leaf n then
    let! x := set (ccost k) pos 0%Z in
    let! y := set (pcost k) pos 0%Z in
    Ok (mkCC y x)
  else
    match c0 n, c1 n with
    | Some a, Some b =>
        let! inds_A := get (inds c) pos in
        let! inds_B := get (inds c) a in
        let! inds_C := get (inds c) b in
        let cost_A := cc inds_A inds_B inds_C in
        let! pcost_B := get (pcost k) a in
        let! pcost_C := get (pcost k) b in
        let! x := set (ccost k) pos cost_A in
        let! y := set (pcost k) pos (cost_A + pcost_B + pcost_C)%Z in
        Ok (mkCC y x)
    | _, _ => Err Oob
    end.

Fixpoint fold_res {S A} (f : S -> A -> res S) (l : list A) (s : S) : res S :=
  match l with
  | [] => Ok s
  | x :: l' => let! s' := f s x in fold_res f l' s'
  end.

(** utils.hpp:31-57 CostCache constructor. *)
Definition cost_cache_make (cc : bitset -> bitset -> bitset -> Z) (c : ctree) : res cost_cache :=
  let! order := traverse (nodes c) in
  fold_res (cost_cache_visit cc c) order
    (mkCC (repeat 0%Z (length (nodes c))) (repeat 0%Z (length (nodes c)))).

(** utils.hpp:102-116 get_cost. *)
Definition get_cost_visit (cc : bitset -> bitset -> bitset -> Z) (c : ctree)
  (total : Z) (pos : nat) : res Z :=
  let! n := get (nodes c) pos in
  if is_leaf n then Ok total else
  match c0 n, c1 n with
  | Some a, Some b =>
      let! inds_A := get (inds c) pos in
      let! inds_B := get (inds c) a in
      let! inds_C := get (inds c) b in
      Ok (total + cc inds_A inds_B inds_C)%Z
  | _, _ => Err Oob
  end.
Definition get_cost (cc : bitset -> bitset -> bitset -> Z) (c : ctree) : res Z :=
  let! order := traverse (nodes c) in
  fold_res (get_cost_visit cc c) order 0%Z.

(** utils.hpp:68-92 HyperCache. *)
Definition hyper_of_node (c : ctree) (pos : nat) : res bitset :=
  let! n := get (nodes c) pos in
  if is_leaf n then Ok (bempty (n_inds c)) else
  match c0 n, c1 n with
  | Some a, Some b =>
      let! inds_A := get (inds c) pos in
      let! inds_B := get (inds c) a in
      let! inds_C := get (inds c) b in
      Ok (band (band inds_A inds_B) inds_C)
  | _, _ => Err Oob
  end.
Fixpoint map_res {A B} (f : A -> res B) (l : list A) : res (list B) :=
  match l with
  | [] => Ok []
  | x :: l' => let! y := f x in let! r := map_res f l' in Ok (y :: r)
  end.
Definition hyper_cache_make (c : ctree) : res (list bitset) :=
  map_res (hyper_of_node c) (seq 0 (length (nodes c))).

(** optimizer.hpp:174-189 base Optimizer::is_valid. *)
Definition base_is_valid (c min_c : ctree) (disable_shared : bool) : bool :=
  ctree_is_valid c (negb disable_shared) && ctree_is_valid min_c (negb disable_shared).
