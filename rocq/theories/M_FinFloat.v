(** The finite-width optimizer with rounded costs and rounded widths. M_FinWidth
    computes with exact numbers; here every operation on costs is followed by a
    rounding, as in M_Float, and every operation on widths is a parameter.
    Widths of a floating-point type with bounded exponent are multiples of one
    small number; they are written as integers in that unit. Simplification: no
    infinities and no NaN. *)
From Verif Require Import M_Base M_Bitset M_Tree M_CTree M_Cost M_Opt M_InfMem M_FinWidth M_Float.
Set Implicit Arguments.
Local Open Scope Z_scope.

(** The arithmetic of widths (width_type is float32, float64, float128 or
    float1024; std::log2 of an integer is a double). *)
Record warith := mkWA {
  wlog   : N -> Z;            (* log2(d), a double *)
  wlogs  : N -> nat -> Z;     (* log2(d) * count, a double, converted to width_type *)
  wcast  : Z -> Z;            (* a double converted to width_type *)
  wacc   : Z -> Z -> Z;       (* width_type += double *)
  wadd   : Z -> Z -> Z;       (* sum of two values of width_type *)
  wclose : Z -> Z -> bool     (* is_close with the tolerance of the constructor, utils.hpp:73-76 *)
}.

Section Rounded.
  Variables (ar : arith) (wa : warith).

  (** ** Widths *)
  (** finite_width/utils.hpp:83-104 DimsCache: log2 of the dimensions as width_type. *)
  Definition rlg_at (d : dims_t) (pos : nat) : Z := lg_at (fun x => wcast wa (wlog wa x)) d pos.

  (** cost_model/simple.hpp:39-58 get_width. *)
  Definition rw_simple (inds : bitset) (d : dims_t) : Z :=
    match d with
    | DInt x => wlogs wa x (bcount inds)
    | DVec l => fold_left (fun w pos => wacc wa w (wlog wa (nth pos l 1%N))) (bpositions inds) 0
    end.

  (** cost_model/simple.hpp:60-77 get_delta_width. *)
  Definition rdw_simple (inds : bitset) (d : dims_t) (pos : nat) : Z :=
    wcast wa ((1 - 2 * Z.b2z (btest inds pos)) * lg_at (wlog wa) d pos).

  (** simple_sparse_inds.hpp:44-46 min: the first argument is a width_type, the
      second a double. *)
  Definition rwmin (x y : Z) : Z := if x <? y then x else wcast wa y.

  (** simple_sparse_inds.hpp:39-51 get_width. *)
  Definition rw_sparse (inds sparse : bitset) (np : Z) (d : dims_t) : Z :=
    wadd wa (rw_simple (bdiff inds sparse) d) (rwmin (rw_simple (band inds sparse) d) (wlog wa (Z.to_N np))).

  (** simple_sparse_inds.hpp:55-79 get_delta_width. *)
  Definition rdw_sparse (inds : bitset) (d : dims_t) (pos : nat) (sparse : bitset) (np : Z) : Z :=
    if btest sparse pos then
      wadd wa (rwmin (rw_simple (band (bflip inds pos) sparse) d) (wlog wa (Z.to_N np)))
              (- rwmin (rw_simple (band inds sparse) d) (wlog wa (Z.to_N np)))
    else rdw_simple inds d pos.

  (** width (simple.hpp:93-106, simple_sparse_inds.hpp:102-116). *)
  Definition rwidth_of (m : fmodel) (inds : bitset) (d : dims_t) : Z :=
    match fm_cm m with
    | Simple => rw_simple inds d
    | Sparse sp np => rw_sparse inds sp np d
    end.
  (** delta_width (simple.hpp:108-122, simple_sparse_inds.hpp:118-134). *)
  Definition rdelta_width_of (m : fmodel) (inds : bitset) (d : dims_t) (pos : nat) : Z :=
    match fm_cm m with
    | Simple => rdw_simple inds d pos
    | Sparse sp np => rdw_sparse inds d pos sp np
    end.

  (** contraction_cost (simple.hpp:124-148, simple_sparse_inds.hpp:136-159). *)
  Definition rfcost_of (m : fmodel) (inds_A inds_B inds_C : bitset) (d : dims_t) (slices : bitset) : Z :=
    match fm_cm m with
    | Simple => fsimple_get_cost ar (bor (bor inds_A inds_B) slices) d
    | Sparse sp np => fsparse_get_cost ar (bor (bor inds_A inds_B) slices) sp np d
    end.
  (** utils.hpp:24-47: the callback given to the base caches. *)
  Definition rfw_ccost (m : fmodel) (d : dims_t) (slices : bitset) : bitset -> bitset -> bitset -> Z :=
    fun a b c => rfcost_of m a b c d slices.

  (** utils.hpp:50-72 WidthCache constructor. *)
  Definition rwidth_cache_make (m : fmodel) (c : ctree) : list Z :=
    map (fun xs => rwidth_of m xs (dims c)) (inds c).

  (** ** get_slices *)
  (** greedy/utils.hpp:88-104. *)
  Fixpoint rslice_loop (m : fmodel) (d : dims_t) (pos : list nat)
    (slices sliced_xs : bitset) (sliced_width : Z) : bitset :=
    match pos with
    | [] => slices
    | x :: pos' =>
        let slices' := bset slices x in
        let w := wadd wa sliced_width (rdelta_width_of m sliced_xs d x) in
        let xs' := breset sliced_xs x in
        if w <=? fm_max m then slices' else rslice_loop m d pos' slices' xs' w
    end.

  (** greedy/utils.hpp:65-107; the order is [slice_greater] of M_FinWidth (53-62)
      with the logarithms of the DimsCache. *)
  Definition rslice_visit {R} (m : fmodel) (fr : frand R) (c : ctree)
    (skip : option bitset) (width : list Z) (st : bitset * R) (tpos : nat) : res (bitset * R) :=
    let '(slices, r) := st in
    let! w := get width tpos in
    if fm_max m <? w then
      let! xs := get (inds c) tpos in
      let sliced_xs := bdiff xs slices in
      let sw := rwidth_of m sliced_xs (dims c) in
      if fm_max m <? sw then
        let '(p, r') := shuffle fr r (bpositions (minus_skip sliced_xs skip)) in
        let q := stable_sort (slice_greater (fun x => wcast wa (wlog wa x)) c width (fm_max m)) p in
        Ok (rslice_loop m (dims c) q slices sliced_xs sw, r')
      else Ok (slices, r)
    else Ok (slices, r).

  (** greedy/utils.hpp:24-147. *)
  Definition rget_slices {R} (m : fmodel) (fr : frand R) (c : ctree)
    (skip : option bitset) (r : R) (width : list Z) : res (bitset * R) :=
    let! order := traverse (nodes c) in
    fold_res (rslice_visit m fr c skip width) order (bempty (n_inds c), r).

  (** ** The optimizer *)
  Definition rfits (m : fmodel) (d : dims_t) (sl : bitset) (xs : bitset) : bool :=
    rwidth_of m (bdiff xs sl) d <=? fm_max m.

  (** greedy/optimizer.hpp:387-446 is_valid: costs and cached widths are compared
      up to the tolerance, the widths of the sliced tensors are not. Line 414
      uses the dims of the current tree for the best tree. *)
  Definition rfw_is_valid {R} (s : fw_state R) : bool :=
    base_is_valid (fw_ct s) (fw_min_ct s) (fw_ds s) &&
    match fget_cost ar (rfw_ccost (fw_m s) (dims (fw_min_ct s)) (fw_min_sl s)) (fw_min_ct s) with
    | Ok x => rclose ar x (fw_min s) | Err _ => false end &&
    forallb (rfits (fw_m s) (dims (fw_ct s)) (fw_sl s)) (inds (fw_ct s)) &&
    forallb (rfits (fw_m s) (dims (fw_ct s)) (fw_min_sl s)) (inds (fw_min_ct s)) &&
    match fcost_cache_make ar (rfw_ccost (fw_m s) (dims (fw_ct s)) (fw_sl s)) (fw_ct s) with
    | Ok k => list_eqb (rclose ar) (pcost (fw_cc s)) (pcost k) && list_eqb (rclose ar) (ccost (fw_cc s)) (ccost k)
    | Err _ => false end &&
    match hyper_cache_make (fw_ct s) with
    | Ok h => list_eqb beqb (fw_hyper s) h | Err _ => false end &&
    list_eqb (wclose wa) (fw_width s) (rwidth_cache_make (fw_m s) (fw_ct s)).

  (** 72-115 constructor. *)
  Definition rfw_make {R} (fr : frand R) (c : ctree) (m : fmodel) (maxnew : nat) (r : R) (ds : bool)
    (skip : option bitset) (min_c : option ctree) (sl min_sl : option bitset) : res (fw_state R) :=
    let mc := match min_c with Some x => x | None => c end in
    if negb (base_is_valid c mc ds) then Err Throw else
    let wc := rwidth_cache_make m c in
    let! (sl1, r1) := (match sl with Some x => Ok (x, r) | None => rget_slices m fr c skip r wc end) in
    let msl := match min_sl with Some x => x | None => sl1 end in
    let! k := fcost_cache_make ar (rfw_ccost m (dims c) sl1) c in
    let! h := hyper_cache_make c in
    let! mt := fget_cost ar (rfw_ccost m (dims mc) msl) mc in
    let s := mkFW c ds r1 mc m maxnew wc skip sl1 msl k h mt in
    let! tot := fw_total s in
    if (tot <=? 0) || (mt <=? 0) then Err Throw else
    if rfw_is_valid s then Ok s else Err Throw.

  (** 242-269: adding random new slices; line 262-265 subtracts the cached
      logarithm from a width. *)
  Fixpoint radd_slices {R} (rd : rand R) (d : dims_t) (max_width : Z) (k : nat)
    (pos : list nat) (n_pos : nat) (sl : bitset) (w : Z) (r : R) : res (bitset * Z * R) :=
    match k with
    | O => Ok (sl, w, r)
    | S k' =>
        if max_width <? w then
          if (n_pos =? 0)%nat then Err Crash else
          let '(x, r') := draw rd r in
          let i := (x mod n_pos)%nat in
          let! a := get pos i in
          let! b := get pos (n_pos - 1) in
          let! pos1 := set pos i b in
          let! pos2 := set pos1 (n_pos - 1) a in
          radd_slices rd d max_width k' pos2 (n_pos - 1) (bset sl a) (wadd wa w (- rlg_at d a)) r'
        else Ok (sl, w, r)
    end.

  (** 323-331 propagation of the partial costs. *)
  Definition rpropagate (p ks : list Z) (A B C D E : nat) : res (list Z) :=
    let! pD := get p D in
    let! pE := get p E in
    let! kB := get ks B in
    let! p1 := set p B (fadd ar (fadd ar pD pE) kB) in
    let! pB := get p1 B in
    let! pC := get p1 C in
    let! kA := get ks A in
    set p1 A (fadd ar (fadd ar pB pC) kA).

  (** 156-334, one iteration of the while loop, as [fw_iter] of M_FinWidth. *)
  Definition rfw_iter {R} (fr : frand R) (s : fw_state R) (total : Z) (pos_B : nat)
    : res (fw_state R * option (Z * nat)) :=
    let rd := fr_base fr in
    let c := fw_ct s in
    let m := fw_m s in
    let! (nn, r1) := get_ctree_nn rd c (fw_ds s) (fw_rng s) (Some pos_B) in
    match nn with
    | None => Ok (fw_set s c r1 (fw_width s) (fw_sl s) (fw_cc s) (fw_hyper s), None)
    | Some (pos_A, pos_C, pos_D, pos_E) =>
        let! inds_A := get (inds c) pos_A in
        let! inds_B := get (inds c) pos_B in
        let! inds_C := get (inds c) pos_C in
        let! inds_D := get (inds c) pos_D in
        let! inds_E := get (inds c) pos_E in
        let! hyper_A := get (fw_hyper s) pos_A in
        let! hyper_B := get (fw_hyper s) pos_B in
        let new_B := bor (bor (bxor inds_D inds_C) hyper_A) hyper_B in
        let! _ := get (fw_width s) pos_B in
        let new_width_B := rwidth_of m new_B (dims c) in                             (* 176 *)
        let sliced_B := bdiff new_B (fw_sl s) in
        let sw_B := rwidth_of m sliced_B (dims c) in                                 (* 179 *)
        let! ccost_A := get (ccost (fw_cc s)) pos_A in
        let! ccost_B := get (ccost (fw_cc s)) pos_B in
        let stay r :=
          let! p := rpropagate (pcost (fw_cc s)) (ccost (fw_cc s)) pos_A pos_B pos_C pos_D pos_E in
          Ok (fw_set s c r (fw_width s) (fw_sl s) (mkCC p (ccost (fw_cc s))) (fw_hyper s),
              Some (total, pos_A)) in
        if sw_B <=? fm_max m then                                                    (* 188 *)
          let new_ccost_A := rfcost_of m inds_A new_B inds_E (dims c) (fw_sl s) in
          let new_ccost_B := rfcost_of m new_B inds_D inds_C (dims c) (fw_sl s) in
          let delta := fadd ar (fsub ar new_ccost_B ccost_B) (fsub ar new_ccost_A ccost_A) in (* 196 *)
          let '(acc, r2) := accept rd r1 delta total in
          if acc then
            let! t' := swap_nn (nodes c) pos_E in
            let! inds' := set (inds c) pos_B new_B in
            let! h1 := set (fw_hyper s) pos_A (band (band inds_A new_B) inds_E) in
            let! h2 := set h1 pos_B (band (band new_B inds_D) inds_C) in
            let! k1 := set (ccost (fw_cc s)) pos_B new_ccost_B in
            let! k2 := set k1 pos_A new_ccost_A in
            let! wd := set (fw_width s) pos_B new_width_B in
            let! p := rpropagate (pcost (fw_cc s)) k2 pos_A pos_B pos_E pos_D pos_C in
            Ok (fw_set s (mkCT t' inds' (dims c)) r2 wd (fw_sl s) (mkCC p k2) h2,
                Some (fadd ar total delta, pos_A))                                   (* 216 *)
          else stay r2
        else if (0 <? fw_maxnew s)%nat then                                          (* 226 *)
          let pos := bpositions (minus_skip sliced_B (fw_skip s)) in
          let! (new_sl, w, r2) :=
            radd_slices rd (dims c) (fm_max m) (fw_maxnew s) pos (length pos) (fw_sl s) sw_B r1 in
          if w <=? fm_max m then                                                     (* 285 *)
            let! inds' := set (inds c) pos_B new_B in
            let! t' := swap_nn (nodes c) pos_E in
            let c' := mkCT t' inds' (dims c) in
            let! k := fcost_cache_make ar (rfw_ccost m (dims c) new_sl) c' in        (* 289 *)
            let! new_total := back (pcost k) in
            let '(acc, r3) := accept rd r2 (fsub ar new_total total) total in        (* 293-295 *)
            if acc then
              let! h1 := set (fw_hyper s) pos_A (band (band inds_A new_B) inds_E) in
              let! h2 := set h1 pos_B (band (band new_B inds_D) inds_C) in
              let! wd := set (fw_width s) pos_B new_width_B in
              Ok (fw_set s c' r3 wd new_sl k h2, Some (new_total, pos_A))
            else
              let! t'' := swap_nn t' pos_C in
              let! inds'' := set inds' pos_B inds_B in
              let! p := rpropagate (pcost (fw_cc s)) (ccost (fw_cc s)) pos_A pos_B pos_C pos_D pos_E in
              Ok (fw_set s (mkCT t'' inds'' (dims c)) r3 (fw_width s) (fw_sl s)
                    (mkCC p (ccost (fw_cc s))) (fw_hyper s), Some (total, pos_A))
          else stay r2
        else stay r1
    end.

  Fixpoint rfw_loop {R} (fr : frand R) (fuel : nat) (s : fw_state R) (total : Z) (pos_B : nat)
    : res (fw_state R) :=
    match fuel with
    | O => Err Fuel
    | S f =>
        let! (s', nxt) := rfw_iter fr s total pos_B in
        match nxt with
        | None => Ok s'
        | Some (total', pos_B') => rfw_loop fr f s' total' pos_B'
        end
    end.

  (** 354-371 *)
  Definition rfw_reslice {R} (fr : frand R) (update_slices : bool) (s : fw_state R) : res (fw_state R) :=
    if update_slices && bany (fw_sl s) then
      let! (sl, r) := rget_slices (fw_m s) fr (fw_ct s) (fw_skip s) (fw_rng s) (fw_width s) in
      let! k := fcost_cache_make ar (rfw_ccost (fw_m s) (dims (fw_ct s)) sl) (fw_ct s) in
      let! nt := back (pcost k) in
      let! t := fw_total s in
      if nt <? t then Ok (fw_set s (fw_ct s) r (fw_width s) sl k (fw_hyper s))
      else Ok (fw_set s (fw_ct s) r (fw_width s) (fw_sl s) (fw_cc s) (fw_hyper s))
    else Ok s.

  (** 117-385 update; 379-384 are [fw_update_min] of M_FinWidth. *)
  Definition rfw_update {R} (fr : frand R) (update_slices : bool) (s : fw_state R) : res (fw_state R) :=
    let '(x, r0) := draw (fr_base fr) (fw_rng s) in
    let leaf := (x mod n_leaves (nodes (fw_ct s)))%nat in
    let s0 := fw_set s (fw_ct s) r0 (fw_width s) (fw_sl s) (fw_cc s) (fw_hyper s) in
    let! n := get (nodes (fw_ct s)) leaf in
    match par n with
    | None => Ok s0
    | Some pos_B =>
        let! total := fw_total s0 in
        let! s1 := rfw_loop fr (length (nodes (fw_ct s))) s0 total pos_B in
        let! s2 := rfw_reslice fr update_slices s1 in
        fw_update_min s2
    end.

  (** A session: one acceptance rule and one update_slices flag per update. *)
  Fixpoint rfw_run {R} (us : list (frand R * bool)) (s : fw_state R) : res (fw_state R) :=
    match us with
    | [] => Ok s
    | (fr, b) :: us' => let! s' := rfw_update fr b s in rfw_run us' s'
    end.

  (** tnco/optimize/finite_width/optimizer.py:54-134 constructor; the check of
      102-109 uses the width of the cost model. *)
  Definition rpy_fw_make {R} (fr : frand R) (c : ctree) (m : fmodel) (maxnew : nat) (r : R) (ds : bool)
    (skip : bitset) (min_c : option ctree) (sl min_sl : option bitset) : res (fw_state R) :=
    if existsb (fun xs => fm_max m <? rwidth_of m (band xs skip) (dims c)) (inds c) then Err Throw else
    rfw_make fr c m maxnew r ds (if bany skip then Some skip else None) min_c sl min_sl.

  (** optimizer.py:332-348; what is pickled is [fw_pickle] of M_FinWidth. *)
  Definition rfw_unpickle {R} (fr : frand R)
    (x : ctree * fmodel * R * bool * ctree * bitset * bitset * bitset) : res (fw_state R) :=
    let '(c, m, r, ds, mc, sl, msl, skip) := x in
    rpy_fw_make fr c m 0 r ds skip (Some mc) (Some sl) (Some msl).
End Rounded.
