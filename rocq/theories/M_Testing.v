(** Model of tnco/testing/utils.py: get_connected_components (39-134),
    generate_random_inds (137-178) and generate_random_tensors (181-357).

    Indices are naturals (in Python: any hashable). A frozenset is a list without
    duplicates; the code does not use its order. A failed assertion is [Err Crash], any
    other exception [Err Throw]. Progress bars and verbose are not modelled. *)
From Verif Require Import M_Base M_Path M_PyTree M_Circuit.
Set Implicit Arguments.

(** * get_connected_components *)

(** index2color.get(x): 0 is None, S c is c. *)
Definition get_color (i2c : list (nat * nat)) (x : nat) : nat :=
  match dict_get i2c x with Ok c => S c | Err _ => 0 end.
(** color2index.get(c, frozenset()) *)
Definition get_inds (c2i : list (nat * list nat)) (c : nat) : list nat :=
  match dict_get c2i c with Ok l => l | Err _ => [] end.
(** color2index.pop(c, None) *)
Definition drop {V} (d : list (nat * V)) (c : nat) : list (nat * V) := filter (fun e => negb (fst e =? c)) d.

(** 71-98: the colours after one more tensor. *)
Definition paint (s : list (nat * nat) * list (nat * list nat)) (xs : list nat)
  : list (nat * nat) * list (nat * list nat) :=
  let '(i2c, c2i) := s in
  match xs with
  | [] => s                                                                            (* 77-78 *)
  | _ =>
      let colors := unique (flat_map (fun x => match get_color i2c x with S c => [c] | 0 => [] end) xs) in (* 81-84 *)
      let all := unique (xs ++ flat_map (get_inds c2i) colors) in                      (* 87-89 *)
      let color := match colors with
                   | c :: cs => fold_left Nat.min cs c
                   | [] => list_max (map (fun e => S (fst e)) c2i)                     (* 92-93: max([-1, ...]) + 1 *)
                   end in
      (fold_left (fun d x => dict_set d x color) all i2c,                              (* 96 *)
       dict_set (fold_left drop colors c2i) color all)                                 (* 97-98 *)
  end.

(** 101-106 *)
Definition one_color_each (i2c : list (nat * nat)) (ts : list (list nat)) : bool :=
  match unique (map (fun xs => length (unique (map (get_color i2c) xs))) ts) with
  | [n] => n =? 1
  | _ => false
  end.
(** 109-115 *)
Definition all_colored (i2c : list (nat * nat)) (ts : list (list nat)) : bool :=
  let l := unique (concat ts) ++ map fst i2c in forallb (fun x => count x l =? 2) l.
(** 118-129: [c] is the next of the new colours. *)
Fixpoint tensor_colors (i2c : list (nat * nat)) (c : nat) (ts : list (list nat)) : res (list nat) :=
  match ts with
  | [] => Ok []
  | [] :: ts' => let! l := tensor_colors i2c (S c) ts' in Ok (c :: l)
  | (x :: _) :: ts' => let! d := dict_get i2c x in let! l := tensor_colors i2c c ts' in Ok (d :: l)
  end.

Definition get_connected_components (ts : list (list nat)) : res (list (list nat)) :=
  let ts := filter (fun xs => negb (length xs =? 0)) ts in                             (* 61 *)
  if length ts =? 0 then Ok [] else                                                    (* 64-65 *)
  let '(i2c, c2i) := fold_left paint ts ([], []) in
  if negb (one_color_each i2c ts) then Err Crash else
  if negb (all_colored i2c ts) then Err Crash else
  let! cc := tensor_colors i2c (list_max (map (fun e => S (fst e)) c2i)) ts in
  Ok (map snd (group_by (combine cc (seq 0 (length cc))))).                            (* 132-134 *)

(** * generate_random_inds *)
(** [names seed i] is what the i-th call of get_ returns. The loop ends with
    probability one; here it has [fuel]. *)
Fixpoint more_names (names : nat -> nat) (n fuel i : nat) (l : list nat) : res (list nat) :=
  match fuel with
  | 0 => Err Fuel
  | S fuel' =>
      let l' := unique (l ++ [names i]) in                                             (* 174 *)
      if length l' =? n then Ok l' else more_names names n fuel' (S i) l'
  end.
Definition generate_random_inds (names : nat -> nat -> nat) (fuel n seed : nat) : res (list nat) :=
  if n =? 0 then Ok [] else more_names (names seed) n fuel 0 [].

(** * generate_random_tensors *)
(** random.Random: [rsample r n k] are the positions that rng.sample takes [k] elements
    from, of a population of [n]; [rrange r n] is rng.randrange(n); [rshuffle r n] are
    the positions in the order into which rng.shuffle brings them; [rseed] is
    rng.randrange(2**32). *)
Record rng (R : Type) := mkRng {
  rsample : R -> nat -> nat -> list nat * R;
  rrange : R -> nat -> nat * R;
  rshuffle : R -> nat -> list nat * R;
  rseed : R -> nat * R
}.

Section Generate.
Variables (R : Type) (g : rng R).
(** The order in which list(...) lists a set of integers. *)
Variable order : list nat -> list nat.
(** The arguments; Python also takes negative ones, which are not modelled. *)
Variables (n_tensors n_inds k n_output_inds n_cc : nat) (randomize_names : bool).

(** rng.sample(pop, k=k) *)
Definition sample {A} (r : R) (pop : list A) (k : Z) : res (list A * R) :=
  if (k <? 0)%Z || (Z.of_nat (length pop) <? k)%Z then Err Throw else
  let '(ps, r') := rsample g r (length pop) (Z.to_nat k) in
  let! l := mapM (get pop) ps in Ok (l, r').
(** rng.randrange(n) *)
Definition randrange (r : R) (n : nat) : res (nat * R) :=
  if n =? 0 then Err Throw else Ok (rrange g r n).
(** A list of [m] results of [f]. *)
Fixpoint times {A} (f : R -> res (A * R)) (m : nat) (r : R) : res (list A * R) :=
  match m with
  | 0 => Ok ([], r)
  | S m' => let! (a, r1) := f r in let! (l, r2) := times f m' r1 in Ok (a :: l, r2)
  end.

(** 222-224 *)
Definition n_hyper_output_inds : nat := if k <=? 2 then 0 else n_output_inds / 2 + n_output_inds mod 2.
Definition n_nhyper_output_inds : nat := if k <=? 2 then n_output_inds else n_output_inds / 2.

Definition same_set (a b : list nat) : bool := forallb (fun x => memb x b) a && forallb (fun x => memb x a) b.

(** 255-259 *)
Fixpoint grow (m : nat) (r : R) (avail used : list nat) (inds : list (list nat))
  : res (list nat * list nat * list (list nat) * R) :=
  match m with
  | 0 => Ok (avail, used, inds, r)
  | S m' =>
      let! (x1, r1) := sample r (order avail) 1 in
      let! x := get x1 0 in                                                            (* 256 *)
      let! (us, r2) := sample r1 (order used) (Z.of_nat k - 1) in
      grow m' r2 (filter (fun y => negb (y =? x)) avail) (unique (used ++ [x])) (inds ++ [us ++ [x]])
  end.

(** '*' (275, 280, 294): not the number of a tensor. *)
Definition star : nat := n_tensors.

(** 247-284: the tensors of each index. *)
Definition draw_inds (r : R) : res (list (list nat) * R) :=
  let avail := seq 0 n_tensors in                                                      (* 248 *)
  let! (first, r1) := sample r (order avail) (Z.of_nat k) in                           (* 252 *)
  let! (avail, used, inds, r2) :=
    grow (n_tensors - k) r1 (filter (fun x => negb (memb x first)) avail) (unique first) [first] in
  if negb (same_set used (seq 0 n_tensors) && (length avail =? 0)
           && same_set (concat inds) (seq 0 n_tensors)) then Err Crash else            (* 262-264 *)
  if negb (Z.of_nat (length inds) =? Z.of_nat n_tensors + 1 - Z.of_nat k)%Z then Err Crash else (* 267 *)
  let! (l1, r3) := times (fun r => sample r (seq 0 n_tensors) (Z.of_nat k))
                     (n_inds - length inds - n_output_inds) r2 in                      (* 270-272 *)
  let! (l2, r4) := times (fun r => let! (t, r') := randrange r n_tensors in Ok ([t; star], r'))
                     n_nhyper_output_inds r3 in                                        (* 275-276 *)
  let! (l3, r5) := times (fun r => let! (ts, r') := sample r (seq 0 n_tensors) (Z.of_nat k - 1) in Ok (ts ++ [star], r'))
                     n_hyper_output_inds r4 in                                         (* 279-281 *)
  let inds := inds ++ l1 ++ l2 ++ l3 in
  if negb (length inds =? n_inds) then Err Crash else Ok (inds, r5).                   (* 284 *)

(** 300: the tensors, each in a random order. *)
Fixpoint permute (l : list (list nat)) (r : R) : res (list (list nat) * R) :=
  match l with
  | [] => Ok ([], r)
  | xs :: l' =>
      let! (ys, r1) := sample r xs (Z.of_nat (length xs)) in
      let! (l2, r2) := permute l' r1 in Ok (ys :: l2, r2)
  end.

(** mit.unique_everseen of tuples *)
Definition unique_tuples : list (list nat) -> list (list nat) := nodup (list_eq_dec Nat.eq_dec).

(** 247-306: one attempt; None if two tensors are the same. *)
Definition attempt (r : R) : res (option (list (list nat) * list nat) * R) :=
  let! (inds, r1) := draw_inds r in
  let d := group_by (flat_map (fun e => map (fun t => (t, fst e)) (snd e))
                       (combine (seq 0 (length inds)) inds)) in                        (* 287-291 *)
  let out := match dict_get d star with Ok l => l | Err _ => [] end in                 (* 294 *)
  if negb (length out =? n_output_inds) then Err Crash else
  let! (tensors, r2) := permute (map snd (drop d star)) r1 in                          (* 297-300 *)
  Ok (if length (unique_tuples tensors) =? n_tensors then Some (tensors, unique out) else None, r2).
(** 245, 308-310 *)
Fixpoint attempts (m : nat) (r : R) : res ((list (list nat) * list nat) * R) :=
  match m with
  | 0 => Err Throw
  | S m' =>
      let! (o, r') := attempt r in
      match o with Some x => Ok (x, r') | None => attempts m' r' end
  end.

(** 312-327: the components next to each other; [n] is the number of the first. *)
Fixpoint combine_tensors (n : nat) (l : list (list (list nat) * list nat)) : list (list nat) :=
  match l with
  | [] => []
  | (ts, _) :: l' => map (map (fun x => x + n * n_inds)) ts ++ combine_tensors (S n) l'
  end.
Fixpoint combine_output (n : nat) (l : list (list (list nat) * list nat)) : list nat :=
  match l with
  | [] => []
  | (_, o) :: l' => map (fun x => x + n * n_inds) o ++ combine_output (S n) l'
  end.

(** The names that get_ returns, and how many are drawn at most. *)
Variables (names : nat -> nat -> nat) (fuel : nat).

(** Random(seed) is [r]. A name that is missing in the map (None in Python) is an error
    here. *)
Definition generate_random_tensors (r : R) : res (list (list nat) * list nat) :=
  if (Z.of_nat n_inds - Z.of_nat n_output_inds <? Z.of_nat n_tensors + 1 - Z.of_nat k)%Z
     || (n_tensors <? k) then Err Throw else                                           (* 232-233 *)
  let! (l, r1) := times (attempts 10) n_cc r in                                        (* 240-310 *)
  if n_cc =? 0 then Err Throw else                                                     (* 313: reduce of nothing *)
  let ts := combine_tensors 0 l in
  let '(ps, r2) := rshuffle g r1 (length ts) in
  let! ts := mapM (get ts) ps in                                                       (* 319 *)
  let out := unique (combine_output 0 l) in                                            (* 322-327 *)
  let! (ts, out) :=
    if randomize_names then
      let all := unique (concat ts) in                                                 (* 336 *)
      let! new := generate_random_inds names fuel (length all) (fst (rseed g r2)) in
      let m := combine all new in                                                      (* 337-341 *)
      let! ts' := mapM (mapM (dict_get m)) ts in                                       (* 345-346 *)
      let! out' := mapM (dict_get m) out in                                            (* 349 *)
      Ok (ts', out')
    else Ok (ts, out) in
  if negb (length (unique_tuples ts) =? length ts) then Err Crash else Ok (ts, out).   (* 355-357 *)
End Generate.
