(** The infinite-memory optimizer with rounded costs. M_Cost, M_Opt and M_InfMem
    compute with exact integers; the code computes in a floating-point type
    (float32, float64, float128 or float1024, globals.hpp:38-114). Here every
    arithmetic operation of these files is followed by a rounding. All costs of
    the code are whole numbers and rounding a whole number to p bits gives a
    whole number, so costs stay in Z. Simplification: the exponent range is not
    bounded, there are no infinities and no NaN; M_Overflow
    adds them. *)
From Verif Require Import M_Base M_Bitset M_Tree M_CTree M_Cost M_Opt M_InfMem.
Set Implicit Arguments.
Local Open Scope Z_scope.

(** An arithmetic: the rounding to the cost type; the value, in the cost type, of
    std::pow(dims, count) (simple.hpp:45: both arguments are integers, so it is
    computed by the C library in double whatever the cost type is); the
    comparison up to a tolerance is_logclose (utils.hpp, used by is_valid). *)
Record arith := mkAr {
  rnd   : Z -> Z;
  rpow  : N -> nat -> Z;
  rclose : Z -> Z -> bool
}.

Section Rounded.
  Variable ar : arith.

  (** Operations of the cost type. *)
  Definition fadd (a b : Z) : Z := rnd ar (a + b).
  Definition fsub (a b : Z) : Z := rnd ar (a - b).
  Definition fmul (a b : Z) : Z := rnd ar (a * b).

  (** simple.hpp:37-55 get_cost; line 52 converts the dimension to the cost
      type before multiplying. *)
  Definition fsimple_get_cost (inds : bitset) (d : dims_t) : Z :=
    match d with
    | DInt x => rpow ar x (bcount inds)
    | DVec l => fold_left (fun c pos => fmul c (rnd ar (Z.of_N (nth pos l 1%N)))) (bpositions inds) 1
    end.

  (** simple_sparse_inds.hpp:37-49 get_cost; n_projs is converted to the cost
      type to compare it and to multiply with it. *)
  Definition fsparse_get_cost (inds sparse : bitset) (n_projs : Z) (d : dims_t) : Z :=
    let x := fsimple_get_cost (band inds sparse) d in
    let y := rnd ar n_projs in
    fmul (fsimple_get_cost (bdiff inds sparse) d) (if x <? y then x else y).

  (** simple.hpp:65-83 and simple_sparse_inds.hpp:69-88 contraction_cost. *)
  Definition fccost_of (m : cmodel) (inds_A inds_B inds_C : bitset) (d : dims_t) : Z :=
    match m with
    | Simple => fsimple_get_cost (bor inds_A inds_B) d
    | Sparse sp np => fsparse_get_cost (bor inds_A inds_B) sp np d
    end.
  Definition fim_ccost (m : cmodel) (d : dims_t) : bitset -> bitset -> bitset -> Z :=
    fun a b c => fccost_of m a b c d.

  (** infinite_memory/utils.hpp:36-56; line 53 is [cost_A + pcost_B + pcost_C]. *)
  Definition fcost_cache_visit (cc : bitset -> bitset -> bitset -> Z) (c : ctree)
    (k : cost_cache) (pos : nat) : res cost_cache :=
    let! n := get (nodes c) pos in
    if is_leaf n then
      let! x := set (ccost k) pos 0 in
      let! y := set (pcost k) pos 0 in
      Ok (mkCC y x)
    else
      match c0 n, c1 n with
      | Some a, Some b =>
          let! inds_A := get (inds c) pos in
          let! inds_B := get (inds c) a in
          let! inds_C := get (inds c) b in
          let cost_A := cc inds_A inds_B inds_C in
          let! pcost_B := get (pcost k) a in
          let! pcost_C := get (pcost k) b in
          let! x := set (ccost k) pos cost_A in
          let! y := set (pcost k) pos (fadd (fadd cost_A pcost_B) pcost_C) in
          Ok (mkCC y x)
      | _, _ => Err Oob
      end.

  (** utils.hpp:31-57 CostCache constructor. *)
  Definition fcost_cache_make (cc : bitset -> bitset -> bitset -> Z) (c : ctree) : res cost_cache :=
    let! order := traverse (nodes c) in
    fold_res (fcost_cache_visit cc c) order
      (mkCC (repeat 0 (length (nodes c))) (repeat 0 (length (nodes c)))).

  (** utils.hpp:102-116 get_cost. *)
  Definition fget_cost_visit (cc : bitset -> bitset -> bitset -> Z) (c : ctree)
    (total : Z) (pos : nat) : res Z :=
    let! n := get (nodes c) pos in
    if is_leaf n then Ok total else
    match c0 n, c1 n with
    | Some a, Some b =>
        let! inds_A := get (inds c) pos in
        let! inds_B := get (inds c) a in
        let! inds_C := get (inds c) b in
        Ok (fadd total (cc inds_A inds_B inds_C))
    | _, _ => Err Oob
    end.
  Definition fget_cost (cc : bitset -> bitset -> bitset -> Z) (c : ctree) : res Z :=
    let! order := traverse (nodes c) in
    fold_res (fget_cost_visit cc c) order 0.

  (** infinite_memory/optimizer.hpp:218-246 is_valid, with the comparisons up
      to the tolerance. *)
  Definition fim_is_valid {R} (s : im_state R) : bool :=
    base_is_valid (im_ct s) (im_min_ct s) (im_ds s) &&
    match fget_cost (fim_ccost (im_cm s) (dims (im_min_ct s))) (im_min_ct s) with
    | Ok x => rclose ar x (im_min s) | Err _ => false end &&
    match fcost_cache_make (fim_ccost (im_cm s) (dims (im_ct s))) (im_ct s) with
    | Ok k => list_eqb (rclose ar) (pcost (im_cc s)) (pcost k) && list_eqb (rclose ar) (ccost (im_cc s)) (ccost k)
    | Err _ => false end &&
    match hyper_cache_make (im_ct s) with
    | Ok h => list_eqb beqb (im_hyper s) h | Err _ => false end.

  (** optimizer.hpp:61-88, the constructor; lines 76-84 are the test that log2
      of both costs is a finite number. *)
  Definition fim_make {R} (c : ctree) (m : cmodel) (r : R) (ds : bool) (min_c : option ctree)
    : res (im_state R) :=
    let mc := match min_c with Some x => x | None => c end in
    if negb (base_is_valid c mc ds) then Err Throw else
    let! k := fcost_cache_make (fim_ccost m (dims c)) c in
    let! h := hyper_cache_make c in
    let! mt := fget_cost (fim_ccost m (dims mc)) mc in
    let s := mkIM c ds r mc m k h mt in
    let! tot := im_total s in
    if (tot <=? 0) || (mt <=? 0) then Err Throw else
    if fim_is_valid s then Ok s else Err Throw.

  (** optimizer.hpp:117-192, one iteration of the loop: as [im_iter] of
      M_InfMem, with rounded operations in lines 152-158, 177 and 185-188. *)
  Definition fim_iter {R} (rd : rand R) (s : im_state R) (total : Z) (pos_B : nat)
    : res (im_state R * option (Z * nat)) :=
    let c := im_ct s in
    let! (nn, r1) := get_ctree_nn rd c (im_ds s) (im_rng s) (Some pos_B) in
    match nn with
    | None => Ok (with_rng s r1, None)
    | Some (pos_A, pos_C, pos_D, pos_E) =>
        let! inds_A := get (inds c) pos_A in
        let! inds_B := get (inds c) pos_B in
        let! inds_C := get (inds c) pos_C in
        let! inds_D := get (inds c) pos_D in
        let! inds_E := get (inds c) pos_E in
        let! hyper_A := get (im_hyper s) pos_A in
        let! hyper_B := get (im_hyper s) pos_B in
        let new_B := bor (bor (bxor inds_D inds_C) hyper_A) hyper_B in
        let! ccost_A := get (ccost (im_cc s)) pos_A in
        let! ccost_B := get (ccost (im_cc s)) pos_B in
        let new_ccost_A := fccost_of (im_cm s) inds_A new_B inds_E (dims c) in         (* 152-153 *)
        let new_ccost_B := fccost_of (im_cm s) new_B inds_D inds_C (dims c) in         (* 154-155 *)
        let delta := fadd (fsub new_ccost_B ccost_B) (fsub new_ccost_A ccost_A) in     (* 158 *)
        let '(acc, r2) := accept rd r1 delta total in                                  (* 162 *)
        let! (c', pos_C', pos_E', hyper', ccs', total') :=
          (if acc then
             let! t' := swap_nn (nodes c) pos_E in
             let! inds' := set (inds c) pos_B new_B in
             let! h1 := set (im_hyper s) pos_A (band (band inds_A new_B) inds_E) in
             let! h2 := set h1 pos_B (band (band new_B inds_D) inds_C) in
             let! k1 := set (ccost (im_cc s)) pos_B new_ccost_B in
             let! k2 := set k1 pos_A new_ccost_A in
             Ok (mkCT t' inds' (dims c), pos_E, pos_C, h2, k2, fadd total delta)       (* 177 *)
           else Ok (c, pos_C, pos_E, im_hyper s, ccost (im_cc s), total)) in
        let p := pcost (im_cc s) in                                                    (* 185-188 *)
        let! pD := get p pos_D in
        let! pE := get p pos_E' in
        let! kB := get ccs' pos_B in
        let! p1 := set p pos_B (fadd (fadd pD pE) kB) in
        let! pB := get p1 pos_B in
        let! pC := get p1 pos_C' in
        let! kA := get ccs' pos_A in
        let! p2 := set p1 pos_A (fadd (fadd pB pC) kA) in
        Ok (mkIM c' (im_ds s) r2 (im_min_ct s) (im_cm s) (mkCC p2 ccs') hyper' (im_min s),
            Some (total', pos_A))
    end.

  Fixpoint fim_loop {R} (rd : rand R) (fuel : nat) (s : im_state R) (total : Z) (pos_B : nat)
    : res (im_state R) :=
    match fuel with
    | O => Err Fuel
    | S f =>
        let! (s', nxt) := fim_iter rd s total pos_B in
        match nxt with
        | None => Ok s'
        | Some (total', pos_B') => fim_loop rd f s' total' pos_B'
        end
    end.

  (** optimizer.hpp:90-216 update; lines 197-201 are [im_update_min]: the
      comparison of two costs needs no rounding. *)
  Definition fim_update {R} (rd : rand R) (s : im_state R) : res (im_state R) :=
    let '(x, r0) := draw rd (im_rng s) in
    let leaf := Nat.modulo x (n_leaves (nodes (im_ct s))) in
    let s0 := with_rng s r0 in
    let! n := get (nodes (im_ct s)) leaf in
    match par n with
    | None => Ok s0
    | Some pos_B =>
        let! total := im_total s0 in
        let! s1 := fim_loop rd (length (nodes (im_ct s))) s0 total pos_B in
        im_update_min s1
    end.

  (** A user's session. *)
  Fixpoint fim_run {R} (rds : list (rand R)) (s : im_state R) : res (im_state R) :=
    match rds with
    | [] => Ok s
    | rd :: rds' => let! s' := fim_update rd s in fim_run rds' s'
    end.

  (** tnco/optimize/infinite_memory/optimizer.py:234-245 __build__; what is
      pickled is [im_pickle] of M_InfMem. *)
  Definition fim_unpickle {R} (x : ctree * cmodel * R * bool * ctree) : res (im_state R) :=
    let '(c, m, r, ds, mc) := x in fim_make c m r ds (Some mc).
End Rounded.
