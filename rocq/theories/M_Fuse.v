(** Model of fuse (tnco/utils/tn.py:549-777).

    Indices are naturals (in Python: any hashable). Sets are lists; their order does
    not matter, because all that is done with them is a random choice (line 682),
    membership tests and iterations that commute. The dict hyper_count is a
    function: every key that is looked up occurs in the tensors. [lg] is log2 on the
    dimensions, any function to the integers: widths are sums and are compared
    exactly (no rounding). A dimension that is not positive makes math.log2 raise:
    not modelled. seed, verbose and progress bars are dropped; the random generator
    is any pair of functions, as in [M_Random]. *)
From Verif Require Import M_Base M_Path M_PyTree M_Random.
Set Implicit Arguments.

(** 643-651: map index -> tensors. *)
Definition adjacency (ts : list (list nat)) : list (nat * list nat) :=
  map (fun x => (x, filter (fun t => memb x (nth t ts [])) (seq 0 (length ts)))) (unique (concat ts)).

(** 728-731 *)
Fixpoint move_all (zs : list nat) (px py tz : nat) (d : list (nat * list nat)) : res (list (nat * list nat)) :=
  match zs with
  | [] => Ok d
  | x :: zs' =>
      let! l := dict_get d x in
      move_all zs' px py tz (dict_set d x (filter (fun t => negb (memb t [px; py; tz])) l ++ [tz]))
  end.
(** 733-735 *)
Fixpoint del_all {V} (xs : list nat) (d : list (nat * V)) : res (list (nat * V)) :=
  match xs with
  | [] => Ok d
  | x :: xs' => let! (_, d') := dict_pop d x in del_all xs' d'
  end.

(** The variables of the loop: ts_inds, index2tensors, hyper_count, t_idx,
    all_merged_inds and all_merged_tensors. *)
Record fstate := mkF {
  f_ts : list (nat * list nat);
  f_i2t : list (nat * list nat);
  f_h : nat -> nat;
  f_next : nat;
  f_inds : list nat;
  f_merged : list (nat * nat * list nat)
}.

(** 710-718: the indices of the new tensor. *)
Definition fused_inds (tx ty hyper out : list nat) : list nat :=
  let keep x := (memb x tx && negb (memb x ty)) || (memb x ty && negb (memb x tx)) ||
                memb x hyper || (memb x out && (memb x tx || memb x ty)) in
  unique (filter keep tx ++ filter keep ty).

Section Fuse.
Variable R : Type.
Variable g : prng R.
Variable lg : N -> Z.
Variable dim : nat -> N.        (** dims, after the checks of lines 607-613 *)
Variable max_width : Z.
Variables exclude out : list nat.

(** 615-617 *)
Definition fwidth (xs : list nat) : Z := sumZ (map (fun x => lg (dim x)) xs).

(** 672-754: the loop. *)
Fixpoint fuse_loop (fuel : nat) (avail : list nat) (s : fstate) (r : R) : res fstate :=
  match fuel with
  | O => Err Fuel
  | S fuel' =>
      match avail with
      | [] => Ok s
      | _ =>
          let '(i, r1) := randrange g r (length avail) in
          let! (x, avail') := pop avail i in                                       (* 674 *)
          if f_h s x =? 0 then fuse_loop fuel' avail' s r1 else                    (* 677 *)
          let! l := dict_get (f_i2t s) x in
          if length l <? 2 then Err Throw else
          let '((a, b), r2) := sample2 g r1 (length l) in                          (* 682 *)
          let! px := get l a in
          let! py := get l b in
          let! tx := dict_get (f_ts s) px in
          let! ty := dict_get (f_ts s) py in                                       (* 683 *)
          if existsb (fun y => memb y exclude) (tx ++ ty) then fuse_loop fuel' avail' s r2 else  (* 689 *)
          let shared := filter (fun y => memb y ty) (unique tx) in                 (* 693 *)
          if negb (memb x shared) then Err Throw else                              (* 696 *)
          if existsb (fun y => f_h s y =? 0) shared then Err Throw else            (* 699 *)
          let hyper := filter (fun y => 1 <? f_h s y) shared in                    (* 704 *)
          let tz := fused_inds tx ty hyper out in
          if (max_width <? fwidth tz)%Z then fuse_loop fuel' avail' s r2 else      (* 721 *)
          let h' := fun y => f_h s y - (if memb y shared then 1 else 0) in         (* 725 *)
          let! d1 := move_all tz px py (f_next s) (f_i2t s) in
          let! d2 := del_all (filter (fun y => negb (memb y hyper) && negb (memb y out)) shared) d1 in
          let! (_, ts1) := dict_pop (f_ts s) px in                                 (* 741 *)
          let! (_, ts2) := dict_pop ts1 py in                                      (* 742 *)
          let s' := mkF (dict_set ts2 (f_next s) tz) d2 h' (S (f_next s)) (f_inds s ++ shared)
                        (f_merged s ++ [(px, py, tz)]) in
          fuse_loop fuel' (if h' x =? 0 then avail' else avail' ++ [x]) s' r2      (* 747 *)
      end
  end.
End Fuse.

(** 765-774: conversion to a linear path. *)
Fixpoint renormalize (l : list (nat * nat * list nat)) (positions : list nat) : res path :=
  match l with
  | [] => Ok []
  | (px0, py0, _) :: l' =>
      let '(px, py) := sort2 px0 py0 in                                            (* 770 *)
      let! iy := index Nat.eqb py positions in
      let! (_, pos1) := pop positions iy in                                        (* 771 *)
      let! ix := index Nat.eqb px pos1 in
      let! (_, pos2) := pop pos1 ix in                                             (* 772 *)
      let! p := renormalize l' pos2 in
      Ok ((ix, iy) :: p)                                                           (* 773 *)
  end.

(** dims[x] for a known index *)
Definition dim_at (d : pydims) (x : nat) : N :=
  match d with PyInt k => k | PyDict l => match dict_get l x with Ok k => k | Err _ => 0%N end end.

(** 549-777: the path and the indices of the fused tensors. *)
Definition fuse {R : Type} (g : prng R) (lg : N -> Z) (ts : list (list nat)) (d : pydims) (max_width : Z)
  (output : option (list nat)) (exclude : list nat) (r : R) : res (path * list (list nat)) :=
  let occ := concat ts in
  let all := unique occ in
  if negb (forallb (fun x => memb x all) exclude) then Err Throw else              (* 604 *)
  let! _ := dims_of d all in                                                       (* 612 *)
  let h := fun x => count x occ - 1 in                                             (* 620 *)
  let! out := match output with
              | None => if existsb (fun x => 1 <? h x) all then Err Throw          (* 627 *)
                        else Ok (filter (fun x => h x =? 0) all)                   (* 633 *)
              | Some o => Ok o
              end in
  if negb (forallb (fun x => memb x all) out) then Err Throw else                  (* 640 *)
  let n := length ts in
  let avail := filter (fun x => negb (memb x exclude) && negb (h x =? 0)) all in   (* 654 *)
  let! s := fuse_loop g lg (dim_at d) max_width exclude out (S (length avail + n)) avail
              (mkF (combine (seq 0 n) ts) (adjacency ts) h n [] []) r in
  if existsb (fun x => memb x exclude) (f_inds s) then Err Throw else              (* 760 *)
  let! p := renormalize (f_merged s) (seq 0 (f_next s)) in
  Ok (p, map snd (f_merged s)).
