(** Model of the functions on linear (einsum) contraction paths:
    tnco/utils/tn.py merge_contraction_paths and split_contraction_path.

    A path is a list of pairs of positions. Positions are naturals: Python would also
    accept negative ones, counted from the end; they are not modelled. Progress
    bars are dropped. *)
From Verif Require Import M_Base.
Set Implicit Arguments.

Definition path := list (nat * nat).

(** Python's list.pop(i). *)
Fixpoint pop {A} (l : list A) (i : nat) : res (A * list A) :=
  match l, i with
  | [], _ => Err Oob
  | a :: l', O => Ok (a, l')
  | a :: l', S i' => let! (b, r) := pop l' i' in Ok (b, a :: r)
  end.

(** Python's list.index(x): position of the first equal element, else ValueError. *)
Fixpoint index {A} (eqb : A -> A -> bool) (x : A) (l : list A) : res nat :=
  match l with
  | [] => Err Throw
  | a :: l' => if eqb x a then Ok 0 else let! i := index eqb x l' in Ok (S i)
  end.

(** sorted((x, y)) *)
Definition sort2 (x y : nat) : nat * nat := if x <=? y then (x, y) else (y, x).

(** sorted(l) *)
Fixpoint insert (x : nat) (l : list nat) : list nat :=
  match l with
  | [] => [x]
  | y :: l' => if x <=? y then x :: l else y :: insert x l'
  end.
Definition sort (l : list nat) : list nat := fold_right insert [] l.

(** ** merge_contraction_paths (tn.py:309-375) *)
(** What the lists of positions hold: the number of a tensor, or the pair made for
    an intermediate tensor (line 356). *)
Inductive mlab := Orig (t : nat) | New (i len : nat).
Definition mlab_eqb (a b : mlab) : bool :=
  match a, b with
  | Orig s, Orig t => s =? t
  | New i m, New j n => (i =? j) && (m =? n)
  | _, _ => false
  end.

(** 345-366: the loop over one path, the [i]-th. *)
Fixpoint merge_one (i : nat) (p : path) (pos mpos : list mlab) (mpath : path) : res (list mlab * path) :=
  match p with
  | [] => Ok (mpos, mpath)
  | (x0, y0) :: p' =>
      let '(x, y) := sort2 x0 y0 in                                (* 353 *)
      let! (ly, pos1) := pop pos y in                              (* 354 *)
      let! (lx, pos2) := pop pos1 x in                             (* 355 *)
      let z := New i (length pos2) in                              (* 356 *)
      let! ix := index mlab_eqb lx mpos in                         (* 360-362 *)
      let! iy := index mlab_eqb ly mpos in
      let '(mx, my) := sort2 ix iy in
      let! (_, mpos1) := pop mpos my in                            (* 364-366 *)
      let! (_, mpos2) := pop mpos1 mx in
      merge_one i p' (pos2 ++ [z]) (mpos2 ++ [z]) (mpath ++ [(mx, my)])
  end.

(** 339-366: the loop over the paths. *)
Fixpoint merge_all (n : nat) (i : nat) (ps : list path) (mpos : list mlab) (mpath : path) : res (list mlab * path) :=
  match ps with
  | [] => Ok (mpos, mpath)
  | p :: ps' =>
      let! (mpos', mpath') := merge_one i p (map Orig (seq 0 n)) mpos mpath in
      merge_all n (S i) ps' mpos' mpath'
  end.

(** 309-375 *)
Definition merge_paths (n : nat) (ps : list path) (autocomplete : bool) : res path :=
  let! (mpos, mpath) := merge_all n 0 ps (map Orig (seq 0 n)) [] in
  Ok (if autocomplete then mpath ++ repeat (0, 1) (length mpos - 1) else mpath).

(** ** split_contraction_path (tn.py:378-494) *)
(** Dicts are association lists in insertion order; a missing key is a KeyError.
    The frozensets of tensors are lists: the unions are of disjoint sets. *)
Fixpoint dict_pop {V} (d : list (nat * V)) (k : nat) : res (V * list (nat * V)) :=
  match d with
  | [] => Err Throw
  | (k', v) :: d' => if k =? k' then Ok (v, d') else let! (w, r) := dict_pop d' k in Ok (w, (k', v) :: r)
  end.
Fixpoint dict_get {V} (d : list (nat * V)) (k : nat) : res V :=
  match d with
  | [] => Err Throw
  | (k', v) :: d' => if k =? k' then Ok v else dict_get d' k
  end.
(** Assignment: an existing key keeps its place. *)
Fixpoint dict_set {V} (d : list (nat * V)) (k : nat) (v : V) : list (nat * V) :=
  match d with
  | [] => [(k, v)]
  | (k', v') :: d' => if k =? k' then (k, v) :: d' else (k', v') :: dict_set d' k v
  end.
Definition memb (x : nat) (l : list nat) : bool := existsb (Nat.eqb x) l.

(** 415-440: colours of the connected components. [tensors], [t2c], [c2t] and [next]
    (n_intermediate_tensors) are the variables of the loop. *)
Fixpoint split_colors (p : path) (tensors : list nat) (t2c : list (nat * nat)) (c2t : list (nat * list nat))
  (next : nat) : res (list (nat * list nat)) :=
  match p with
  | [] => Ok c2t
  | (x0, y0) :: p' =>
      let '(x, y) := sort2 x0 y0 in
      let next' := S next in                                       (* 424 *)
      let! (ty, ts1) := pop tensors y in                           (* 427 *)
      let! cy := dict_get t2c ty in
      let! (tx, ts2) := pop ts1 x in                               (* 428 *)
      let! cx := dict_get t2c tx in
      let cz := Nat.min cx cy in                                   (* 431 *)
      let! (sx, c1) := dict_pop c2t cx in                          (* 434-436 *)
      let! (sy, c2) := dict_pop c1 cy in
      let s := sx ++ sy ++ [next'] in
      let c2t' := dict_set c2 cz s in
      let t2c' := fold_left (fun d t => dict_set d t cz) s t2c in  (* 437 *)
      split_colors p' (ts2 ++ [next']) t2c' c2t' next'             (* 440 *)
  end.

(** mit.first(mit.locate(cc, ...)) (466); no such component: ValueError. *)
Fixpoint locate (t : nat) (cc : list (list nat)) : res nat :=
  match cc with
  | [] => Err Throw
  | s :: cc' => if memb t s then Ok 0 else let! i := locate t cc' in Ok (S i)
  end.

(** 452-487 *)
Fixpoint split_steps (p : path) (cc : list (list nat)) (tensors : list nat) (cct : list (list nat))
  (paths : list path) (next : nat) : res (list path) :=
  match p with
  | [] => Ok paths
  | (x0, y0) :: p' =>
      let '(x, y) := sort2 x0 y0 in
      let next' := S next in                                       (* 460 *)
      let! tx := get tensors x in                                  (* 463 *)
      let! ty := get tensors y in
      let! k := locate tx cc in                                    (* 466 *)
      let! s := get cc k in
      if negb (memb ty s) then Err Throw else                      (* 467 *)
      let! (_, ts1) := pop tensors y in                            (* 470-472 *)
      let! (_, ts2) := pop ts1 x in
      let! l := get cct k in
      let! ix := index Nat.eqb tx l in                             (* 476 *)
      let! iy := index Nat.eqb ty l in
      let '(x', y') := sort2 ix iy in
      let! q := get paths k in                                     (* 479 *)
      let! paths' := set paths k (q ++ [(x', y')]) in
      let! (_, l1) := pop l y' in                                  (* 482-484 *)
      let! (_, l2) := pop l1 x' in
      let! cct' := set cct k (l2 ++ [next']) in
      split_steps p' cc (ts2 ++ [next']) cct' paths' next'
  end.

(** 412-494, with return_connected_components: one path for each component (empty
    for a tensor that is not contracted) and the tensors of each. *)
Definition split_cc (n : nat) (p : path) (normalize : bool) : res (list path * list (list nat)) :=
  let! c2t := split_colors p (seq 0 n) (map (fun t => (t, t)) (seq 0 n)) (map (fun t => (t, [t])) (seq 0 n)) n in
  let cc := map snd c2t in                                         (* 443 *)
  let cct := if normalize then map sort cc else map (fun _ => seq 0 n) cc in    (* 447-448 *)
  let! paths := split_steps p cc (seq 0 n) cct (map (fun _ => []) cc) n in
  Ok (paths, map (filter (fun t => t <? n)) cc).                   (* 488-490 *)
(** 493-494, without: only the non-empty paths. *)
Definition split_paths (n : nat) (p : path) (normalize : bool) : res (list path) :=
  let! (paths, _) := split_cc n p normalize in
  Ok (filter (fun q => negb (length q =? 0)) paths).
