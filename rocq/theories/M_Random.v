(** Model of get_random_contraction_path (tnco/utils/tn.py:42-248).

    Indices are naturals (in Python: any hashable). A frozenset is a list without
    duplicates, in an arbitrary order: where the code takes the first element of
    one (lines 134-135), the model takes [pick] of it, any function that returns an
    element. Dicts keyed by the integers 0..m-1 are lists; in [hyper_count] the
    value 0 stands for a missing key. The random generator is any pair of
    functions. The options seed, verbose, output_inds (ignored by the code) and
    _return_contraction (for tests) are not modelled, nor are progress bars. *)
From Verif Require Import M_Base M_Path M_PyTree.
Set Implicit Arguments.

(** random.Random: [randrange r n] is a position below [n]; [sample2 r n] are two
    different positions below [n] (rng.sample(l, k=2) takes the elements there). *)
Record prng (R : Type) := mkPrng {
  randrange : R -> nat -> nat * R;
  sample2 : R -> nat -> (nat * nat) * R
}.

(** 99-103: all indices mapped to integers, in the order of their first occurrence. *)
Definition remap (ts : list (list nat)) : res (list (list nat)) :=
  let inds := unique (concat ts) in
  mapM (fun xs => let! ks := mapM (rank inds) xs in Ok (unique ks)) ts.

(** 105-110: map index -> tensors. *)
Definition index_tensors (m : nat) (ts : list (list nat)) : list (list nat) :=
  map (fun x => filter (fun t => memb x (nth t ts [])) (seq 0 (length ts))) (seq 0 m).

(** 119-135: the colour of each index. [c2i] is color2inds, [i2c] is index2color. *)
Fixpoint set_all (ks : list nat) (v : nat) (l : list nat) : res (list nat) :=
  match ks with
  | [] => Ok l
  | k :: ks' => let! l' := set l k v in set_all ks' v l'
  end.
Definition color_step (pick : list nat -> nat) (xs : list nat) (c2i : list (list nat)) (i2c : list nat)
  : res (list (list nat) * list nat) :=
  match xs with
  | [] => Ok (c2i, i2c)                                                  (* 126 *)
  | _ =>
      let! cs := get_all i2c xs in
      let colors := unique cs in                                         (* 128 *)
      let! sets := get_all c2i colors in
      let all := unique (concat sets) in                                 (* 131 *)
      let! c2i' := set c2i (pick colors) all in                          (* 134 *)
      let! i2c' := set_all all (pick colors) i2c in                      (* 135 *)
      Ok (c2i', i2c')
  end.
Fixpoint color_loop (pick : list nat -> nat) (ts : list (list nat)) (c2i : list (list nat)) (i2c : list nat)
  : res (list nat) :=
  match ts with
  | [] => Ok i2c
  | xs :: ts' => let! (c2i', i2c') := color_step pick xs c2i i2c in color_loop pick ts' c2i' i2c'
  end.
Definition colors (pick : list nat -> nat) (m : nat) (ts : list (list nat)) : res (list nat) :=
  color_loop pick ts (map (fun x => [x]) (seq 0 m)) (seq 0 m).

(** 144-146: the indices grouped by colour. *)
Definition groups (i2c : list nat) : list (list nat) :=
  map (fun c => filter (fun x => nth x i2c 0 =? c) (seq 0 (length i2c))) (unique i2c).

(** 193-197 *)
Fixpoint use_shared (shared : list nat) (h : list nat) : res (list nat) :=
  match shared with
  | [] => Ok h
  | x :: shared' =>
      let! k := get h x in
      if k =? 0 then Err Throw else
      let! h' := set h x (k - 1) in
      use_shared shared' h'
  end.
(** 203-205 *)
Fixpoint push_all (zs : list nat) (tz : nat) (i2t : list (list nat)) : res (list (list nat)) :=
  match zs with
  | [] => Ok i2t
  | x :: zs' =>
      let! l := get i2t x in
      let! i2t' := set i2t x (l ++ [tz]) in
      push_all zs' tz i2t'
  end.
Definition swap_pos (l : list nat) (i j : nat) : res (list nat) :=
  let! a := get l i in
  let! b := get l j in
  let! l1 := set l i b in
  set l1 j a.

(** What the loops over the components share: ts_inds, index2tensors, hyper_count. *)
Record rstate := mkR { r_ts : list (list nat); r_i2t : list (list nat); r_h : list nat }.

(** 184-209: the contraction of tensors [tx] and [ty]. *)
Definition contract_two (s : rstate) (tx ty : nat) : res rstate :=
  let! xs := get (r_ts s) tx in
  let! ys := get (r_ts s) ty in                                           (* 185 *)
  let shared := filter (fun x => memb x ys) xs in                         (* 188 *)
  match shared with
  | [] => Err Throw                                                       (* 191 *)
  | _ =>
      let! h' := use_shared shared (r_h s) in
      let zs := filter (fun x => negb (memb x ys)) xs ++ filter (fun x => negb (memb x xs)) ys ++
                filter (fun x => negb (nth x h' 0 =? 0)) shared in        (* 201 *)
      let! i2t' := push_all zs (length (r_ts s)) (r_i2t s) in
      Ok (mkR (r_ts s ++ [zs]) i2t' h')
  end.

Section Random.
Variable R : Type.
Variable g : prng R.

(** 167-215: the loop over the available indices of one component. *)
Fixpoint comp_loop (fuel : nat) (avail : list nat) (s : rstate) (contracted : list nat) (p : list triple) (r : R)
  : res (rstate * list triple * R) :=
  match fuel with
  | O => Err Fuel
  | S fuel' =>
      match avail with
      | [] => Ok (s, p, r)
      | _ =>
          let '(i, r1) := randrange g r (length avail) in
          let! avail' := swap_pos avail i (length avail - 1) in           (* 170 *)
          let! x := get avail' (length avail - 1) in                      (* 171 *)
          let! k := get (r_h s) x in
          let! tsx := get (r_i2t s) x in
          if (k =? 0) || (length tsx <=? 1) then                          (* 174 *)
            comp_loop fuel' (removelast avail') s contracted p r1         (* 175 *)
          else
            let live := filter (fun t => negb (memb t contracted)) tsx in (* 179-181 *)
            if length live <? 2 then Err Throw else
            let '((a, b), r2) := sample2 g r1 (length live) in
            let! tx := get live a in
            let! ty := get live b in
            let! s' := contract_two s tx ty in
            comp_loop fuel' avail' s' (tx :: ty :: contracted) (p ++ [(tx, ty, length (r_ts s))]) r2
      end
  end.

(** 148-221: the loop over the components. *)
Fixpoint comps_loop (avails : list (list nat)) (s : rstate) (r : R) : res (list (list triple) * R) :=
  match avails with
  | [] => Ok ([], r)
  | avail :: avails' =>
      let! (s', p, r') := comp_loop (S (length avail + length (r_ts s))) avail s [] [] r in
      let! (ps, r'') := comps_loop avails' s' r' in
      Ok (p :: ps, r'')
  end.
End Random.

(** Python's bisect.bisect_left(l, x). *)
Fixpoint bisect (fuel : nat) (l : list nat) (x lo hi : nat) : res nat :=
  match fuel with
  | O => Err Fuel
  | S fuel' =>
      if lo <? hi then
        let mid := (lo + hi) / 2 in
        let! v := get l mid in
        if v <? x then bisect fuel' l x (mid + 1) hi else bisect fuel' l x lo mid
      else Ok lo
  end.
Definition bisect_left (l : list nat) (x : nat) : res nat := bisect (S (length l)) l x 0 (length l).

(** 227-243: conversion of one path to linear form. *)
Fixpoint linear_path (p : list triple) (loc : list nat) : res path :=
  match p with
  | [] => Ok []
  | (x, y, z) :: p' =>
      let! ix := bisect_left loc x in
      let! iy := bisect_left loc y in
      let '(px, py) := sort2 ix iy in                                     (* 238 *)
      let! (_, loc1) := pop loc py in                                     (* 239 *)
      let! (_, loc2) := pop loc1 px in                                    (* 240 *)
      let! q := linear_path p' (loc2 ++ [z]) in                           (* 241 *)
      Ok ((px, py) :: q)                                                  (* 242 *)
  end.

(** 42-243: with merge_paths=False, one path per component. *)
Definition random_paths {R : Type} (g : prng R) (pick : list nat -> nat) (ts : list (list nat)) (r : R) : res (list path) :=
  let n := length ts in
  let! ts' := remap ts in
  let m := length (unique (concat ts)) in
  let i2t := index_tensors m ts' in
  let h := map (fun l => length l - 1) i2t in                             (* 112-117 *)
  let! i2c := colors pick m ts' in
  let! (ps, _) := comps_loop g (groups i2c) (mkR ts' i2t h) r in
  mapM (fun p => linear_path p (seq 0 n)) ps.
(** 245-248: with merge_paths=True. *)
Definition random_path {R : Type} (g : prng R) (pick : list nat -> nat) (ts : list (list nat)) (autocomplete : bool) (r : R) : res path :=
  let! ps := random_paths g pick ts r in
  merge_paths (length ts) ps autocomplete.
