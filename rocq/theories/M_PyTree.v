(** Model of tnco/ctree.py: ContractionTree.__init__ from a path (lines 67-251) and
    ContractionTree.path (350-388).

    Indices are naturals (in Python: any hashable). Tensors are lists of indices.
    A frozenset is a list without duplicates; its order, unspecified in Python, does
    not matter: the sets are converted to bitsets, and the order of the indices is
    fixed by the leaves, which come first (lines 208, 226). *)
From Verif Require Import M_Base M_Bitset M_Tree M_CTree M_Path.
Set Implicit Arguments.

(** mit.unique_everseen *)
Fixpoint unique_aux (seen l : list nat) : list nat :=
  match l with
  | [] => []
  | x :: l' => if memb x seen then unique_aux seen l' else x :: unique_aux (x :: seen) l'
  end.
Definition unique (l : list nat) : list nat := unique_aux [] l.

Definition triple := (nat * nat * nat)%type.
(** mit.flatten(contraction) *)
Definition flatten3 (c : list triple) : list nat := flat_map (fun t => let '(x, y, z) := t in [x; y; z]) c.

(** 100-108: the contractions of the path, the k-th intermediate tensor having the
    number k + n. *)
Fixpoint contraction_from (p : path) (k : nat) (pos : list nat) : res (list triple) :=
  match p with
  | [] => Ok []
  | (a, b) :: p' =>
      let '(x, y) := sort2 a b in
      let! (py, pos1) := pop pos y in
      let! (px, pos2) := pop pos1 x in
      let! rest := contraction_from p' (S k) (pos2 ++ [k]) in
      Ok ((px, py, k) :: rest)
  end.

(** 111-115: the input tensors that take part, in increasing order. *)
Definition used_tensors (n : nat) (c : list triple) : list nat :=
  sort (filter (fun x => x <? n) (unique (flatten3 c))).

Definition count (x : nat) (l : list nat) : nat := length (filter (Nat.eqb x) l).

(** ts_inds[x] for each [x] of a list *)
Fixpoint get_all {A} (ts : list A) (xs : list nat) : res (list A) :=
  match xs with
  | [] => Ok []
  | x :: xs' => let! a := get ts x in let! r := get_all ts xs' in Ok (a :: r)
  end.

(** 118-150: output indices and hyper-counts. [occ] are the indices of the tensors
    that take part, with repetitions. The dict hyper_count is a function: every key
    that is looked up occurs in these tensors. *)
Definition outputs (occ : list nat) (output : option (list nat)) : res (list nat) :=
  match output with
  | None =>
      if existsb (fun x => 1 <? count x occ - 1) occ then Err Throw               (* 131-134 *)
      else Ok (filter (fun x => count x occ - 1 =? 0) (unique occ))               (* 135-137 *)
  | Some o => Ok (filter (fun x => memb x occ) (unique o))                        (* 138-142 *)
  end.
Definition hyper_count (occ out : list nat) (x : nat) : nat :=
  (count x occ - 1) + (if memb x out then 1 else 0).                              (* 122-127, 145-146 *)

Definition decr (h : nat -> nat) (x : nat) : nat -> nat := fun y => if y =? x then h x - 1 else h y.

(** 175-181: the loop over the shared indices. *)
Fixpoint shared_loop (shared : list nat) (h : nat -> nat) (iz : list nat) : res (list nat * (nat -> nat)) :=
  match shared with
  | [] => Ok (iz, h)
  | s :: shared' =>
      if h s =? 0 then Err Throw else                                             (* 177 *)
      let h' := decr h s in                                                       (* 178 *)
      shared_loop shared' h' (if 0 <? h' s then iz ++ [s] else iz)                (* 179-180 *)
  end.

(** 148-184: the indices of the intermediate tensors. *)
Fixpoint build_tensors (check_shared : bool) (c : list triple) (ts : list (list nat)) (h : nat -> nat)
  : res (list (list nat)) :=
  match c with
  | [] => Ok ts
  | (x, y, z) :: c' =>
      let! tx := get ts x in
      let! ty := get ts y in
      let ix := unique tx in
      let iy := unique ty in
      let shared := filter (fun i => memb i iy) ix in                             (* 168 *)
      if check_shared && (length shared =? 0) then Err Throw else                 (* 169-170 *)
      let iz := filter (fun i => negb (memb i iy)) ix ++ filter (fun i => negb (memb i ix)) iy in   (* 173 *)
      let! (iz', h') := shared_loop shared h iz in
      let! ts' := set ts z iz' in                                                 (* 184 *)
      build_tensors check_shared c' ts' h'
  end.

(** 195: dict(zip(pos_, range(len(pos_)))) and its get: position in the list. *)
Definition rank (pos : list nat) (x : nat) : res nat := index Nat.eqb x pos.
Fixpoint rank_all (pos : list nat) (xs : list nat) : res (list nat) :=
  match xs with
  | [] => Ok []
  | x :: xs' => let! a := rank pos x in let! r := rank_all pos xs' in Ok (a :: r)
  end.

(** 196-206: the links of the tree. A node is given by its children and parent, -1
    being null. *)
Definition znode := (Z * Z * Z)%type.
Fixpoint link_all (pos : list nat) (c : list triple) (ns : list znode) : res (list znode) :=
  match c with
  | [] => Ok ns
  | (x, y, z) :: c' =>
      let! x' := rank pos x in
      let! y' := rank pos y in
      let! z' := rank pos z in
      let! nx := get ns x' in
      let! ns1 := set ns x' (fst nx, Z.of_nat z') in                              (* 204 *)
      let! ny := get ns1 y' in
      let! ns2 := set ns1 y' (fst ny, Z.of_nat z') in                             (* 205 *)
      let! nz := get ns2 z' in
      let! ns3 := set ns2 z' (Z.of_nat x', Z.of_nat y', snd nz) in                (* 206 *)
      link_all pos c' ns3
  end.
(** 229-240 *)
Fixpoint make_nodes (ns : list znode) : res (list node) :=
  match ns with
  | [] => Ok []
  | (x, y, z) :: ns' => let! n := node_make x y z in let! r := make_nodes ns' in Ok (n :: r)
  end.

(** 67-75: 'dims' is a dict or a number. *)
Inductive pydims := PyDict (d : list (nat * N)) | PyInt (d : N).
(** 212-223, 243-246 *)
Fixpoint dims_of (d : pydims) (order : list nat) : res (list N) :=
  match order with
  | [] => Ok []
  | x :: order' =>
      let! k := match d with PyDict l => dict_get l x | PyInt k => Ok k end in
      let! r := dims_of d order' in
      Ok (k :: r)
  end.

Fixpoint mapM {A B} (f : A -> res B) (l : list A) : res (list B) :=
  match l with
  | [] => Ok []
  | x :: l' => let! y := f x in let! r := mapM f l' in Ok (y :: r)
  end.

(** The Python object: the C++ tree and the three cached fields. *)
Record pytree := mkPT { core : ctree; n_tensors : nat; tensors_pos : list nat; inds_order : list nat }.

(** 67-251. The empty path fails: it is taken for an empty list of nodes (81) and
    the cache is missing (90). *)
Definition pytree_make (p : path) (ts : list (list nat)) (d : pydims) (output : option (list nat))
  (check_shared : bool) : res pytree :=
  if length p =? 0 then Err Throw else
  let n := length ts in
  let! c := contraction_from p n (seq 0 n) in
  let used := used_tensors n c in
  let! uts := get_all ts used in
  let occ := concat uts in
  let! out := outputs occ output in
  let h := hyper_count occ out in
  let! ts1 := build_tensors check_shared c (ts ++ repeat [] (length c)) h in      (* 148-184 *)
  let pos := sort (unique (flatten3 c)) in                                        (* 187 *)
  let! zn := link_all pos c (repeat (-1, -1, -1)%Z (length pos)) in
  let! ts2 := get_all ts1 pos in                                                  (* 209 *)
  let order := unique (concat ts2) in                                             (* 226 *)
  let! ds := dims_of d order in
  let! ns := make_nodes zn in
  let! xs := mapM (rank_all order) ts2 in                                         (* 242 *)
  let! t := ctree_make_pos ns xs (DVec ds) check_shared in                        (* 249 *)
  Ok (mkPT t n used order).

(** 350-388 path(). *)
Definition rescale (n_tens n_lv : nat) (tpos : list nat) (v : nat) : res nat :=   (* 365-368 *)
  if v <? length tpos then get tpos v else Ok (v + (n_tens - n_lv)).

Fixpoint path_loop (c : list triple) (all_pos : list nat) : res path :=           (* 379-386 *)
  match c with
  | [] => Ok []
  | (x, y, z) :: c' =>
      let! ix := index Nat.eqb x all_pos in
      let! iy := index Nat.eqb y all_pos in
      let '(lo, hi) := if iy <? ix then (iy, ix) else (ix, iy) in
      let! (_, p1) := pop all_pos hi in
      let! (_, p2) := pop p1 lo in
      let! r := path_loop c' (p2 ++ [z]) in
      Ok ((ix, iy) :: r)
  end.

Definition py_path (t : pytree) : res path :=
  let! c := get_contraction (nodes (core t)) in                                   (* 359 *)
  let f := rescale (n_tensors t) (n_leaves (nodes (core t))) (tensors_pos t) in
  let! c' := mapM (fun v => let '(x, y, z) := v in
                            let! x' := f x in let! y' := f y in let! z' := f z in Ok (x', y', z')) c in   (* 370 *)
  path_loop c' (seq 0 (n_tensors t)).
