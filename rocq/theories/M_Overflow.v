(** The infinite-memory optimizer with costs of a bounded range: M_Float with the
    infinities and the NaN of the cost type (float32, float64, float128 or float1024,
    globals.hpp:38-114). A result that is too large after rounding is infinite, as in
    IEEE 754 and in MPFR with the exponent range of fixed_float.hpp. *)
From Verif Require Import M_Base M_Bitset M_Tree M_CTree M_Cost M_Opt M_InfMem M_Float.
Set Implicit Arguments.
Local Open Scope Z_scope.

Inductive xnum := Fin (z : Z) | PInf | MInf | NaN.

(** The rounding, the largest finite number of the cost type, and that of double, in which
    std::pow of integers is computed (simple.hpp:45). *)
Record xarith := mkXA { xr : arith; xmax : Z; xpmax : Z }.

(** Generator and acceptance: as [rand] of M_Opt, but costs may be infinite or NaN. *)
Record xrand (R : Type) := mkXRand { xdraw : R -> nat * R; xaccept : R -> xnum -> xnum -> bool * R }.

(** The fields of the optimizer (infinite_memory/optimizer.hpp:42-59), as [im_state]. *)
Record x_state (R : Type) := mkXS {
  xs_ct : ctree; xs_ds : bool; xs_rng : R; xs_min_ct : ctree; xs_cm : cmodel;
  xs_pc : list xnum; xs_cc : list xnum;     (* CostCache: partial_cost, contraction_cost *)
  xs_hyper : list bitset; xs_min : xnum }.

Section Bounded.
  Variable xa : xarith.
  Notation ar := (xr xa).

  (** The arithmetic of IEEE 754 *)
  Definition over (z : Z) : xnum := if xmax xa <? z then PInf else if z <? - xmax xa then MInf else Fin z.
  Definition xadd (a b : xnum) : xnum :=
    match a, b with
    | NaN, _ | _, NaN | PInf, MInf | MInf, PInf => NaN
    | PInf, _ | _, PInf => PInf
    | MInf, _ | _, MInf => MInf
    | Fin x, Fin y => over (fadd ar x y)
    end.
  Definition xopp (a : xnum) : xnum := match a with Fin x => Fin (- x) | PInf => MInf | MInf => PInf | NaN => NaN end.
  Definition xsub (a b : xnum) : xnum := xadd a (xopp b).
  (** infinity with the sign of x; NaN for 0 *)
  Definition xsign (x : Z) : xnum := if 0 <? x then PInf else if x <? 0 then MInf else NaN.
  Definition xmul (a b : xnum) : xnum :=
    match a, b with
    | NaN, _ | _, NaN => NaN
    | Fin x, Fin y => over (fmul ar x y)
    | PInf, Fin x | Fin x, PInf => xsign x
    | MInf, Fin x | Fin x, MInf => xopp (xsign x)
    | PInf, PInf | MInf, MInf => PInf
    | PInf, MInf | MInf, PInf => MInf
    end.
  Definition xltb (a b : xnum) : bool :=
    match a, b with
    | NaN, _ | _, NaN => false
    | Fin x, Fin y => x <? y
    | MInf, MInf => false
    | MInf, _ => true
    | _, MInf => false
    | Fin _, PInf => true
    | PInf, _ => false
    end.
  (** is_logclose (utils.hpp:78-87): log x - log y is NaN or infinite if a cost is not finite. *)
  Definition xclose (a b : xnum) : bool := match a, b with Fin x, Fin y => rclose ar x y | _, _ => false end.

  (** simple.hpp:37-55 get_cost *)
  Definition xpow (d : N) (k : nat) : xnum := if xpmax xa <? rpow ar d k then PInf else over (rpow ar d k).
  Definition xsimple_get_cost (inds : bitset) (d : dims_t) : xnum :=
    match d with
    | DInt x => xpow x (bcount inds)
    | DVec l => fold_left (fun c pos => xmul c (over (rnd ar (Z.of_N (nth pos l 1%N))))) (bpositions inds) (Fin 1)
    end.
  (** simple_sparse_inds.hpp:37-49 get_cost *)
  Definition xsparse_get_cost (inds sparse : bitset) (n_projs : Z) (d : dims_t) : xnum :=
    let x := xsimple_get_cost (band inds sparse) d in
    let y := over (rnd ar n_projs) in
    xmul (xsimple_get_cost (bdiff inds sparse) d) (if xltb x y then x else y).
  (** simple.hpp:65-83 and simple_sparse_inds.hpp:69-88 contraction_cost *)
  Definition xccost_of (m : cmodel) (inds_A inds_B inds_C : bitset) (d : dims_t) : xnum :=
    match m with
    | Simple => xsimple_get_cost (bor inds_A inds_B) d
    | Sparse sp np => xsparse_get_cost (bor inds_A inds_B) sp np d
    end.
  Definition xim_ccost (m : cmodel) (d : dims_t) : bitset -> bitset -> bitset -> xnum :=
    fun a b c => xccost_of m a b c d.

  (** infinite_memory/utils.hpp:36-56 *)
  Definition xcost_cache_visit (cc : bitset -> bitset -> bitset -> xnum) (c : ctree)
    (k : list xnum * list xnum) (pos : nat) : res (list xnum * list xnum) :=
    let '(ps, ks) := k in
    let! n := get (nodes c) pos in
    if is_leaf n then
      let! x := set ks pos (Fin 0) in
      let! y := set ps pos (Fin 0) in
      Ok (y, x)
    else
      match c0 n, c1 n with
      | Some a, Some b =>
          let! inds_A := get (inds c) pos in
          let! inds_B := get (inds c) a in
          let! inds_C := get (inds c) b in
          let cost_A := cc inds_A inds_B inds_C in
          let! pcost_B := get ps a in
          let! pcost_C := get ps b in
          let! x := set ks pos cost_A in
          let! y := set ps pos (xadd (xadd cost_A pcost_B) pcost_C) in
          Ok (y, x)
      | _, _ => Err Oob
      end.
  (** utils.hpp:31-57 *)
  Definition xcost_cache_make (cc : bitset -> bitset -> bitset -> xnum) (c : ctree) : res (list xnum * list xnum) :=
    let! order := traverse (nodes c) in
    fold_res (xcost_cache_visit cc c) order
      (repeat (Fin 0) (length (nodes c)), repeat (Fin 0) (length (nodes c))).
  (** utils.hpp:102-116 get_cost *)
  Definition xget_cost_visit (cc : bitset -> bitset -> bitset -> xnum) (c : ctree)
    (total : xnum) (pos : nat) : res xnum :=
    let! n := get (nodes c) pos in
    if is_leaf n then Ok total else
    match c0 n, c1 n with
    | Some a, Some b =>
        let! inds_A := get (inds c) pos in
        let! inds_B := get (inds c) a in
        let! inds_C := get (inds c) b in
        Ok (xadd total (cc inds_A inds_B inds_C))
    | _, _ => Err Oob
    end.
  Definition xget_cost (cc : bitset -> bitset -> bitset -> xnum) (c : ctree) : res xnum :=
    let! order := traverse (nodes c) in
    fold_res (xget_cost_visit cc c) order (Fin 0).

  (** optimizer.hpp:248-250 get_total_cost *)
  Definition x_total {R} (s : x_state R) : res xnum := back (xs_pc s).

  (** infinite_memory/optimizer.hpp:218-246 is_valid *)
  Definition x_is_valid {R} (s : x_state R) : bool :=
    base_is_valid (xs_ct s) (xs_min_ct s) (xs_ds s) &&
    match xget_cost (xim_ccost (xs_cm s) (dims (xs_min_ct s))) (xs_min_ct s) with
    | Ok x => xclose x (xs_min s) | Err _ => false end &&
    match xcost_cache_make (xim_ccost (xs_cm s) (dims (xs_ct s))) (xs_ct s) with
    | Ok (ps, ks) => list_eqb xclose (xs_pc s) ps && list_eqb xclose (xs_cc s) ks
    | Err _ => false end &&
    match hyper_cache_make (xs_ct s) with
    | Ok h => list_eqb beqb (xs_hyper s) h | Err _ => false end.

  (** optimizer.hpp:76-83: log2 of the cost is a finite number. *)
  Definition has_log2 (x : xnum) : bool := match x with Fin z => 0 <? z | _ => false end.
  (** optimizer.hpp:61-88 *)
  Definition x_make {R} (c : ctree) (m : cmodel) (r : R) (ds : bool) (min_c : option ctree) : res (x_state R) :=
    let mc := match min_c with Some x => x | None => c end in
    if negb (base_is_valid c mc ds) then Err Throw else
    let! (ps, ks) := xcost_cache_make (xim_ccost m (dims c)) c in
    let! h := hyper_cache_make c in
    let! mt := xget_cost (xim_ccost m (dims mc)) mc in
    let s := mkXS c ds r mc m ps ks h mt in
    let! tot := x_total s in
    if negb (has_log2 tot) || negb (has_log2 mt) then Err Throw else
    if x_is_valid s then Ok s else Err Throw.

  Definition xwith_rng {R} (s : x_state R) (r : R) : x_state R :=
    mkXS (xs_ct s) (xs_ds s) r (xs_min_ct s) (xs_cm s) (xs_pc s) (xs_cc s) (xs_hyper s) (xs_min s).
  (** get_ctree_nn (M_Opt) only draws numbers. *)
  Definition only_draw {R} (rd : xrand R) : rand R := mkRand (xdraw rd) (fun r _ _ => (false, r)).

  (** optimizer.hpp:117-192, one iteration of the loop *)
  Definition x_iter {R} (rd : xrand R) (s : x_state R) (total : xnum) (pos_B : nat)
    : res (x_state R * option (xnum * nat)) :=
    let c := xs_ct s in
    let! (nn, r1) := get_ctree_nn (only_draw rd) c (xs_ds s) (xs_rng s) (Some pos_B) in
    match nn with
    | None => Ok (xwith_rng s r1, None)
    | Some (pos_A, pos_C, pos_D, pos_E) =>
        let! inds_A := get (inds c) pos_A in
        let! inds_B := get (inds c) pos_B in
        let! inds_C := get (inds c) pos_C in
        let! inds_D := get (inds c) pos_D in
        let! inds_E := get (inds c) pos_E in
        let! hyper_A := get (xs_hyper s) pos_A in
        let! hyper_B := get (xs_hyper s) pos_B in
        let new_B := bor (bor (bxor inds_D inds_C) hyper_A) hyper_B in
        let! ccost_A := get (xs_cc s) pos_A in
        let! ccost_B := get (xs_cc s) pos_B in
        let new_ccost_A := xccost_of (xs_cm s) inds_A new_B inds_E (dims c) in         (* 152-153 *)
        let new_ccost_B := xccost_of (xs_cm s) new_B inds_D inds_C (dims c) in         (* 154-155 *)
        let delta := xadd (xsub new_ccost_B ccost_B) (xsub new_ccost_A ccost_A) in     (* 158 *)
        let '(acc, r2) := xaccept rd r1 delta total in                                 (* 162 *)
        let! (c', pos_C', pos_E', hyper', ccs', total') :=
          (if acc then
             let! t' := swap_nn (nodes c) pos_E in
             let! inds' := set (inds c) pos_B new_B in
             let! h1 := set (xs_hyper s) pos_A (band (band inds_A new_B) inds_E) in
             let! h2 := set h1 pos_B (band (band new_B inds_D) inds_C) in
             let! k1 := set (xs_cc s) pos_B new_ccost_B in
             let! k2 := set k1 pos_A new_ccost_A in
             Ok (mkCT t' inds' (dims c), pos_E, pos_C, h2, k2, xadd total delta)       (* 177 *)
           else Ok (c, pos_C, pos_E, xs_hyper s, xs_cc s, total)) in
        let p := xs_pc s in                                                            (* 185-188 *)
        let! pD := get p pos_D in
        let! pE := get p pos_E' in
        let! kB := get ccs' pos_B in
        let! p1 := set p pos_B (xadd (xadd pD pE) kB) in
        let! pB := get p1 pos_B in
        let! pC := get p1 pos_C' in
        let! kA := get ccs' pos_A in
        let! p2 := set p1 pos_A (xadd (xadd pB pC) kA) in
        Ok (mkXS c' (xs_ds s) r2 (xs_min_ct s) (xs_cm s) p2 ccs' hyper' (xs_min s),
            Some (total', pos_A))
    end.
  Fixpoint x_loop {R} (rd : xrand R) (fuel : nat) (s : x_state R) (total : xnum) (pos_B : nat) : res (x_state R) :=
    match fuel with
    | O => Err Fuel
    | S f =>
        let! (s', nxt) := x_iter rd s total pos_B in
        match nxt with
        | None => Ok s'
        | Some (total', pos_B') => x_loop rd f s' total' pos_B'
        end
    end.

  (** optimizer.hpp:196-201 *)
  Definition x_update_min {R} (s : x_state R) : res (x_state R) :=
    let! tc := x_total s in
    if xltb tc (xs_min s)
    then Ok (mkXS (xs_ct s) (xs_ds s) (xs_rng s) (xs_ct s) (xs_cm s) (xs_pc s) (xs_cc s) (xs_hyper s) tc)
    else Ok s.
  (** optimizer.hpp:90-216 *)
  Definition x_update {R} (rd : xrand R) (s : x_state R) : res (x_state R) :=
    let '(x, r0) := xdraw rd (xs_rng s) in
    let leaf := Nat.modulo x (n_leaves (nodes (xs_ct s))) in
    let s0 := xwith_rng s r0 in
    let! n := get (nodes (xs_ct s)) leaf in
    match par n with
    | None => Ok s0
    | Some pos_B =>
        let! total := x_total s0 in
        let! s1 := x_loop rd (length (nodes (xs_ct s))) s0 total pos_B in
        x_update_min s1
    end.
  (** A user's session. *)
  Fixpoint x_run {R} (rds : list (xrand R)) (s : x_state R) : res (x_state R) :=
    match rds with
    | [] => Ok s
    | rd :: rds' => let! s' := x_update rd s in x_run rds' s'
    end.

  (** tnco/optimize/infinite_memory/optimizer.py:234-245 __build__, from what is pickled:
      the trees, the cost model, the generator and disable_shared_inds. *)
  Definition x_restore {R} (s : x_state R) : res (x_state R) :=
    x_make (xs_ct s) (xs_cm s) (xs_rng s) (xs_ds s) (Some (xs_min_ct s)).

  (** prob/greedy.hpp: uniform <= (delta <= 0 ? 1 : 0), for a uniform number that is not 0. *)
  Definition xgreedy (delta : xnum) : bool := match delta with Fin z => z <=? 0 | MInf => true | PInf | NaN => false end.
End Bounded.
