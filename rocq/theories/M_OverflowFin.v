(** The finite-width optimizer with costs of a bounded range: M_FinFloat, where a cost that
    is too large after rounding is infinite, and operations with infinite costs follow
    IEEE 754, as in M_Overflow. Widths do not overflow: they are sums of logarithms of
    64-bit integers. Positions, trees and slices are as in M_FinFloat. *)
From Verif Require Import M_Base M_Bitset M_Tree M_CTree M_Cost M_Opt M_InfMem M_FinWidth M_Float M_FinFloat M_Overflow.
Set Implicit Arguments.
Local Open Scope Z_scope.

(** Generator, acceptance and shuffle (greedy/utils.hpp:82): as [frand] of M_FinWidth, but
    costs may be infinite or NaN. *)
Record xfrand (R : Type) := mkXFR { xf_base : xrand R; xf_shuffle : R -> list nat -> list nat * R }.

(** greedy/optimizer.hpp:61-70: the fields, as [fw_state]. *)
Record xf_state (R : Type) := mkXF {
  xf_ct : ctree; xf_ds : bool; xf_rng : R; xf_min_ct : ctree; xf_m : fmodel; xf_maxnew : nat;
  xf_width : list Z; xf_skip : option bitset; xf_sl : bitset; xf_min_sl : bitset;
  xf_pc : list xnum; xf_cc : list xnum;       (* CostCache: partial_cost, contraction_cost *)
  xf_hyper : list bitset; xf_min : xnum }.

Section Bounded.
  Variables (xa : xarith) (wa : warith).
  Notation ar := (xr xa).

  (** contraction_cost (simple.hpp:124-148, simple_sparse_inds.hpp:136-159). *)
  Definition xfcost_of (m : fmodel) (inds_A inds_B inds_C : bitset) (d : dims_t) (slices : bitset) : xnum :=
    match fm_cm m with
    | Simple => xsimple_get_cost xa (bor (bor inds_A inds_B) slices) d
    | Sparse sp np => xsparse_get_cost xa (bor (bor inds_A inds_B) slices) sp np d
    end.
  (** utils.hpp:24-47: the callback given to the base caches. *)
  Definition xfw_ccost (m : fmodel) (d : dims_t) (slices : bitset) : bitset -> bitset -> bitset -> xnum :=
    fun a b c => xfcost_of m a b c d slices.

  (** get_slices (greedy/utils.hpp:24-147) only shuffles. *)
  Definition only_shuffle {R} (fr : xfrand R) : frand R := mkFR (only_draw (xf_base fr)) (xf_shuffle fr).

  (** greedy/optimizer.hpp:448-450 *)
  Definition xf_total {R} (s : xf_state R) : res xnum := back (xf_pc s).

  (** greedy/optimizer.hpp:387-446 is_valid. *)
  Definition xf_is_valid {R} (s : xf_state R) : bool :=
    base_is_valid (xf_ct s) (xf_min_ct s) (xf_ds s) &&
    match xget_cost xa (xfw_ccost (xf_m s) (dims (xf_min_ct s)) (xf_min_sl s)) (xf_min_ct s) with
    | Ok x => xclose xa x (xf_min s) | Err _ => false end &&
    forallb (rfits wa (xf_m s) (dims (xf_ct s)) (xf_sl s)) (inds (xf_ct s)) &&
    forallb (rfits wa (xf_m s) (dims (xf_ct s)) (xf_min_sl s)) (inds (xf_min_ct s)) &&
    match xcost_cache_make xa (xfw_ccost (xf_m s) (dims (xf_ct s)) (xf_sl s)) (xf_ct s) with
    | Ok (ps, ks) => list_eqb (xclose xa) (xf_pc s) ps && list_eqb (xclose xa) (xf_cc s) ks
    | Err _ => false end &&
    match hyper_cache_make (xf_ct s) with
    | Ok h => list_eqb beqb (xf_hyper s) h | Err _ => false end &&
    list_eqb (wclose wa) (xf_width s) (rwidth_cache_make wa (xf_m s) (xf_ct s)).

  (** 72-115 constructor; 103-111: log2 of the costs is a finite number. *)
  Definition xf_make {R} (fr : xfrand R) (c : ctree) (m : fmodel) (maxnew : nat) (r : R) (ds : bool)
    (skip : option bitset) (min_c : option ctree) (sl min_sl : option bitset) : res (xf_state R) :=
    let mc := match min_c with Some x => x | None => c end in
    if negb (base_is_valid c mc ds) then Err Throw else
    let wc := rwidth_cache_make wa m c in
    let! (sl1, r1) := (match sl with Some x => Ok (x, r) | None => rget_slices wa m (only_shuffle fr) c skip r wc end) in
    let msl := match min_sl with Some x => x | None => sl1 end in
    let! (ps, ks) := xcost_cache_make xa (xfw_ccost m (dims c) sl1) c in
    let! h := hyper_cache_make c in
    let! mt := xget_cost xa (xfw_ccost m (dims mc) msl) mc in
    let s := mkXF c ds r1 mc m maxnew wc skip sl1 msl ps ks h mt in
    let! tot := xf_total s in
    if negb (has_log2 tot) || negb (has_log2 mt) then Err Throw else
    if xf_is_valid s then Ok s else Err Throw.

  (** The fields that an update changes, but for the best tree. *)
  Definition xf_set {R} (s : xf_state R) (c : ctree) (r : R) (wd : list Z) (sl : bitset) (ps ks : list xnum) (h : list bitset) : xf_state R :=
    mkXF c (xf_ds s) r (xf_min_ct s) (xf_m s) (xf_maxnew s) wd (xf_skip s) sl (xf_min_sl s) ps ks h (xf_min s).

  (** 323-331 propagation of the partial costs. *)
  Definition xpropagate (p ks : list xnum) (A B C D E : nat) : res (list xnum) :=
    let! pD := get p D in
    let! pE := get p E in
    let! kB := get ks B in
    let! p1 := set p B (xadd xa (xadd xa pD pE) kB) in
    let! pB := get p1 B in
    let! pC := get p1 C in
    let! kA := get ks A in
    set p1 A (xadd xa (xadd xa pB pC) kA).

  (** 156-334, one iteration of the while loop, as [rfw_iter] of M_FinFloat. *)
  Definition xf_iter {R} (fr : xfrand R) (s : xf_state R) (total : xnum) (pos_B : nat)
    : res (xf_state R * option (xnum * nat)) :=
    let rd := xf_base fr in
    let c := xf_ct s in
    let m := xf_m s in
    let! (nn, r1) := get_ctree_nn (only_draw rd) c (xf_ds s) (xf_rng s) (Some pos_B) in
    match nn with
    | None => Ok (xf_set s c r1 (xf_width s) (xf_sl s) (xf_pc s) (xf_cc s) (xf_hyper s), None)
    | Some (pos_A, pos_C, pos_D, pos_E) =>
        let! inds_A := get (inds c) pos_A in
        let! inds_B := get (inds c) pos_B in
        let! inds_C := get (inds c) pos_C in
        let! inds_D := get (inds c) pos_D in
        let! inds_E := get (inds c) pos_E in
        let! hyper_A := get (xf_hyper s) pos_A in
        let! hyper_B := get (xf_hyper s) pos_B in
        let new_B := bor (bor (bxor inds_D inds_C) hyper_A) hyper_B in
        let! _ := get (xf_width s) pos_B in
        let new_width_B := rwidth_of wa m new_B (dims c) in                             (* 176 *)
        let sliced_B := bdiff new_B (xf_sl s) in
        let sw_B := rwidth_of wa m sliced_B (dims c) in                                 (* 179 *)
        let! ccost_A := get (xf_cc s) pos_A in
        let! ccost_B := get (xf_cc s) pos_B in
        let stay r :=
          let! p := xpropagate (xf_pc s) (xf_cc s) pos_A pos_B pos_C pos_D pos_E in
          Ok (xf_set s c r (xf_width s) (xf_sl s) p (xf_cc s) (xf_hyper s),
              Some (total, pos_A)) in
        if sw_B <=? fm_max m then                                                    (* 188 *)
          let new_ccost_A := xfcost_of m inds_A new_B inds_E (dims c) (xf_sl s) in
          let new_ccost_B := xfcost_of m new_B inds_D inds_C (dims c) (xf_sl s) in
          let delta := xadd xa (xsub xa new_ccost_B ccost_B) (xsub xa new_ccost_A ccost_A) in (* 196 *)
          let '(acc, r2) := xaccept rd r1 delta total in
          if acc then
            let! t' := swap_nn (nodes c) pos_E in
            let! inds' := set (inds c) pos_B new_B in
            let! h1 := set (xf_hyper s) pos_A (band (band inds_A new_B) inds_E) in
            let! h2 := set h1 pos_B (band (band new_B inds_D) inds_C) in
            let! k1 := set (xf_cc s) pos_B new_ccost_B in
            let! k2 := set k1 pos_A new_ccost_A in
            let! wd := set (xf_width s) pos_B new_width_B in
            let! p := xpropagate (xf_pc s) k2 pos_A pos_B pos_E pos_D pos_C in
            Ok (xf_set s (mkCT t' inds' (dims c)) r2 wd (xf_sl s) p k2 h2,
                Some (xadd xa total delta, pos_A))                                   (* 216 *)
          else stay r2
        else if (0 <? xf_maxnew s)%nat then                                          (* 226 *)
          let pos := bpositions (minus_skip sliced_B (xf_skip s)) in
          let! (new_sl, w, r2) :=
            radd_slices wa (only_draw rd) (dims c) (fm_max m) (xf_maxnew s) pos (length pos) (xf_sl s) sw_B r1 in
          if w <=? fm_max m then                                                     (* 285 *)
            let! inds' := set (inds c) pos_B new_B in
            let! t' := swap_nn (nodes c) pos_E in
            let c' := mkCT t' inds' (dims c) in
            let! (ps, ks) := xcost_cache_make xa (xfw_ccost m (dims c) new_sl) c' in  (* 289 *)
            let! new_total := back ps in
            let '(acc, r3) := xaccept rd r2 (xsub xa new_total total) total in        (* 293-295 *)
            if acc then
              let! h1 := set (xf_hyper s) pos_A (band (band inds_A new_B) inds_E) in
              let! h2 := set h1 pos_B (band (band new_B inds_D) inds_C) in
              let! wd := set (xf_width s) pos_B new_width_B in
              Ok (xf_set s c' r3 wd new_sl ps ks h2, Some (new_total, pos_A))
            else
              let! t'' := swap_nn t' pos_C in
              let! inds'' := set inds' pos_B inds_B in
              let! p := xpropagate (xf_pc s) (xf_cc s) pos_A pos_B pos_C pos_D pos_E in
              Ok (xf_set s (mkCT t'' inds'' (dims c)) r3 (xf_width s) (xf_sl s)
                    p (xf_cc s) (xf_hyper s), Some (total, pos_A))
          else stay r2
        else stay r1
    end.

  Fixpoint xf_loop {R} (fr : xfrand R) (fuel : nat) (s : xf_state R) (total : xnum) (pos_B : nat)
    : res (xf_state R) :=
    match fuel with
    | O => Err Fuel
    | S f =>
        let! (s', nxt) := xf_iter fr s total pos_B in
        match nxt with
        | None => Ok s'
        | Some (total', pos_B') => xf_loop fr f s' total' pos_B'
        end
    end.

  (** 354-371 *)
  Definition xf_reslice {R} (fr : xfrand R) (update_slices : bool) (s : xf_state R) : res (xf_state R) :=
    if update_slices && bany (xf_sl s) then
      let! (sl, r) := rget_slices wa (xf_m s) (only_shuffle fr) (xf_ct s) (xf_skip s) (xf_rng s) (xf_width s) in
      let! (ps, ks) := xcost_cache_make xa (xfw_ccost (xf_m s) (dims (xf_ct s)) sl) (xf_ct s) in
      let! nt := back ps in
      let! t := xf_total s in
      if xltb nt t then Ok (xf_set s (xf_ct s) r (xf_width s) sl ps ks (xf_hyper s))
      else Ok (xf_set s (xf_ct s) r (xf_width s) (xf_sl s) (xf_pc s) (xf_cc s) (xf_hyper s))
    else Ok s.

  (** 379-384 *)
  Definition xf_update_min {R} (s : xf_state R) : res (xf_state R) :=
    let! tc := xf_total s in
    if xltb tc (xf_min s)
    then Ok (mkXF (xf_ct s) (xf_ds s) (xf_rng s) (xf_ct s) (xf_m s) (xf_maxnew s) (xf_width s) (xf_skip s)
               (xf_sl s) (xf_sl s) (xf_pc s) (xf_cc s) (xf_hyper s) tc)
    else Ok s.

  (** 117-385 update. *)
  Definition xf_update {R} (fr : xfrand R) (update_slices : bool) (s : xf_state R) : res (xf_state R) :=
    let '(x, r0) := xdraw (xf_base fr) (xf_rng s) in
    let leaf := (x mod n_leaves (nodes (xf_ct s)))%nat in
    let s0 := xf_set s (xf_ct s) r0 (xf_width s) (xf_sl s) (xf_pc s) (xf_cc s) (xf_hyper s) in
    let! n := get (nodes (xf_ct s)) leaf in
    match par n with
    | None => Ok s0
    | Some pos_B =>
        let! total := xf_total s0 in
        let! s1 := xf_loop fr (length (nodes (xf_ct s))) s0 total pos_B in
        let! s2 := xf_reslice fr update_slices s1 in
        xf_update_min s2
    end.

  (** A session: one acceptance rule and one update_slices flag per update. *)
  Fixpoint xf_run {R} (us : list (xfrand R * bool)) (s : xf_state R) : res (xf_state R) :=
    match us with
    | [] => Ok s
    | (fr, b) :: us' => let! s' := xf_update fr b s in xf_run us' s'
    end.

  (** tnco/optimize/finite_width/optimizer.py:54-134 constructor. *)
  Definition xpy_fw_make {R} (fr : xfrand R) (c : ctree) (m : fmodel) (maxnew : nat) (r : R) (ds : bool)
    (skip : bitset) (min_c : option ctree) (sl min_sl : option bitset) : res (xf_state R) :=
    if existsb (fun xs => fm_max m <? rwidth_of wa m (band xs skip) (dims c)) (inds c) then Err Throw else
    xf_make fr c m maxnew r ds (if bany skip then Some skip else None) min_c sl min_sl.

  (** optimizer.py:332-348 __build__, from what is pickled. *)
  Definition xf_restore {R} (fr : xfrand R) (s : xf_state R) : res (xf_state R) :=
    let skip := match xf_skip s with Some k => k | None => bempty (n_inds (xf_ct s)) end in
    xpy_fw_make fr (xf_ct s) (xf_m s) 0 (xf_rng s) (xf_ds s) skip (Some (xf_min_ct s)) (Some (xf_sl s)) (Some (xf_min_sl s)).
End Bounded.
