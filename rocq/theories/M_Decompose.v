(** Model of is_diagonal and decompose_hyper_inds (tnco/utils/tensor.py:32-142) and of
    decompose_hyper_inds for a network (tnco/utils/tn.py:780-856).

    Arrays as in [M_Tensor]; indices are naturals. numpy's allclose is the exact
    comparison [eqb] of the entries: tolerances (atol, and the rtol of line 137)
    are not modelled, so neither is the loss of atol in the recursive call
    (142). The sets of merged indices are lists. *)
From Verif Require Import M_Base M_Path M_PyTree M_OSet M_Tensor.
Set Implicit Arguments.

Section Decompose.
Variable K : Type.
Variable A : alg K.
Variable eqb : K -> K -> bool.

(** 32-63. An entry minus itself is zero, so only those off the diagonal are compared. *)
Definition is_diagonal (a : nda K) : res bool :=
  match shape a with
  | n :: m :: _ =>
      Ok ((n =? m) &&                                                             (* 52 *)
          forallb (fun ix => (nth 0 ix 0 =? nth 1 ix 0) || eqb (entry A a ix) (zero A)) (indices (shape a)))  (* 56-63 *)
  | _ => Err Throw                                                                (* 48 *)
  end.

(** 110-112 *)
Definition pad (xs : list nat) (r : nat) : list nat := xs ++ filter (fun x => negb (memb x xs)) (seq 0 r).
(** 116-117 *)
Definition pairs (r : nat) : list (nat * nat) :=
  flat_map (fun i => map (pair i) (seq (S i) (r - S i))) (seq 0 r).
(** 115-119 *)
Fixpoint first_diagonal (a : nda K) (l : list (nat * nat)) : res (option (nat * nat)) :=
  match l with
  | [] => Ok None
  | (i, j) :: l' =>
      let! b := transpose A a (pad [i; j] (length (shape a))) in
      let! d := is_diagonal b in
      if d then Ok (Some (i, j)) else first_diagonal a l'
  end.

(** 133-134: the entries [x, x]; stacking an empty list raises. (With two axes of
    size zero numpy may raise in line 56 already.) *)
Definition diagonal (a : nda K) : res (nda K) :=
  match shape a with
  | 0 :: _ => Err Throw
  | n :: _ :: sh => Ok (mkA (n :: sh) (map (fun ix => entry A a (nth 0 ix 0 :: ix)) (indices (n :: sh))))
  | _ => Err Throw
  end.

(** _hyper_inds.get(x, frozenset()) *)
Definition merged_with (h : list (nat * list nat)) (x : nat) : list nat :=
  match dict_get h x with Ok s => s | Err _ => [] end.
(** _hyper_inds.pop(x, None) *)
Definition discard (h : list (nat * list nat)) (x : nat) : list (nat * list nat) :=
  match dict_pop h x with Ok (_, h') => h' | Err _ => h end.

(** 137: the value of all entries. *)
Definition all_same (a : nda K) : option K :=
  match data a with
  | [] => None
  | c :: l => if forallb (fun e => eqb e c) (c :: l) then Some c else None
  end.

(** 66-142; [h] is _hyper_inds. Every call has one index fewer: [fuel]. *)
Fixpoint decompose_aux (fuel : nat) (a : nda K) (xs : list nat) (h : list (nat * list nat))
  : res (nda K * list nat * list (nat * list nat)) :=
  match fuel with
  | 0 => Err Fuel
  | S fuel' =>
      if negb (length (shape a) =? length xs) then Err Throw else                 (* 100 *)
      if negb (length (unique xs) =? length xs) then Err Throw else               (* 102 *)
      let! p := first_diagonal a (pairs (length xs)) in                           (* 115-119 *)
      match p with
      | None => Ok (a, xs, h)                                                     (* 121 *)
      | Some (i, j) =>
          let axes := pad [i; j] (length xs) in
          let xs' := map (fun k => nth k xs 0) axes in                            (* 124 *)
          let! b := transpose A a axes in                                         (* 125 *)
          let x0 := nth 0 xs' 0 in
          let x1 := nth 1 xs' 0 in
          let h1 := dict_set h x1 (unique (merged_with h x0 ++ merged_with h x1 ++ [x0])) in   (* 128-130 *)
          let h' := discard h1 x0 in                                              (* 131 *)
          let! c := diagonal b in                                                 (* 133 *)
          match all_same c with
          | Some e => Ok (mkA [] [e], [], h')                                     (* 137-139 *)
          | None => decompose_aux fuel' c (tl xs') h'                             (* 142 *)
          end
      end
  end.
Definition decompose (a : nda K) (xs : list nat) : res (nda K * list nat * list (nat * list nat)) :=
  decompose_aux (S (length xs)) a xs [].

(** tn.py:813-821. zip stops at the shorter list. *)
Fixpoint decompose_all (arrays : list (nda K)) (ts : list (list nat))
  : res (list (nda K) * list (list nat) * list (nat * list nat)) :=
  match arrays, ts with
  | a :: arrays', xs :: ts' =>
      let! (bh, h) := decompose a xs in
      let (b, ys) := bh in
      let! (rest, hs) := decompose_all arrays' ts' in
      let (bs, us) := rest in
      Ok (b :: bs, ys :: us, h ++ hs)
  | _, _ => Ok ([], [], [])
  end.

(** color2inds.pop for each colour, and the union *)
Fixpoint pop_all (c2i : list (nat * oset)) (cs : list nat) (acc : oset) : res (oset * list (nat * oset)) :=
  match cs with
  | [] => Ok (acc, c2i)
  | c :: cs' =>
      let! (s, c2i') := dict_pop c2i c in
      pop_all c2i' cs' (union acc (OSet s))
  end.
(** 829-843, one round. The frozenset [xs] is iterated in some order, but the colours
    are sorted. *)
Definition merge_colors (st : list (nat * nat) * list (nat * oset)) (e : nat * list nat)
  : res (list (nat * nat) * list (nat * oset)) :=
  let (i2c, c2i) := st in
  let (x, xs) := e in
  if length xs =? 0 then Ok st else                                               (* 832 *)
  let! cs0 := mapM (dict_get i2c) (unique (xs ++ [x])) in                         (* 835; 838 raises on None *)
  match sort (unique cs0) with                                                    (* 838 *)
  | [] => Err Oob
  | c :: cs =>
      let! (s, c2i1) := dict_pop c2i c in
      let! (u, c2i2) := pop_all c2i1 cs s in                                      (* 840 *)
      Ok (fold_left (fun d y => dict_set d y c) (iter u) i2c, dict_set c2i2 c u)  (* 840-843 *)
  end.
Fixpoint merge_all (st : list (nat * nat) * list (nat * oset)) (l : list (nat * list nat))
  : res (list (nat * nat) * list (nat * oset)) :=
  match l with
  | [] => Ok st
  | e :: l' => let! st' := merge_colors st e in merge_all st' l'
  end.

(** 846-849: every index is mapped to the first of its class; mit.first raises on an
    empty one. *)
Definition class_map (s : oset) : res (list (nat * nat)) :=
  match iter s with
  | [] => Err Throw
  | y :: _ => Ok (map (fun x => (x, y)) (iter s))
  end.

(** 780-856. hyper_inds_map.get gives None for a missing index (853); here that is an
    error. *)
Definition decompose_network (arrays : list (nda K)) (ts : list (list nat))
  : res (list (nda K) * list (list nat) * list (nat * nat)) :=
  let all := iter (ofs (concat ts)) in                                            (* 803 *)
  let! (r, hyper) := decompose_all arrays ts in
  let (bs, us) := r in
  let i2c := combine all (seq 0 (length all)) in                                  (* 824 *)
  let c2i := map (fun e => (snd e, ofs [fst e])) i2c in                           (* 825-827 *)
  let! (_, c2i') := merge_all (i2c, c2i) hyper in
  let! ms := mapM (fun e => class_map (snd e)) c2i' in
  let m := dict_of (concat ms) in                                                 (* 846-849 *)
  let! vs := mapM (mapM (dict_get m)) us in                                       (* 852-853 *)
  Ok (bs, vs, m).
End Decompose.
