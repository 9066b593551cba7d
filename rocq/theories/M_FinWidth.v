(** Model of the finite-width optimizer:
    include/tnco/optimize/finite_width/utils.hpp, cost_model/simple.hpp,
    cost_model/simple_sparse_inds.hpp, greedy/utils.hpp, greedy/optimizer.hpp, and of
    the checks, save and restore of tnco/optimize/finite_width/optimizer.py.

    Widths: [lg d] stands for log2 of the dimension (or of n_projs) [d]. It is an
    arbitrary function to the integers: a run makes finitely many comparisons of
    integer combinations of logarithms and of max_width, and a finite system of such
    inequalities that holds in the reals also holds for suitably scaled integers.
    Rounding of float widths is not modelled. *)
From Verif Require Import M_Base M_Bitset M_Tree M_CTree M_Cost M_Opt M_InfMem.
Set Implicit Arguments.
Local Open Scope Z_scope.

(** ** Widths *)
(** utils.hpp:92-104 DimsCache: log2_dims, a number or a vector. *)
Definition lg_at (lg : N -> Z) (d : dims_t) (pos : nat) : Z :=
  match d with DInt x => lg x | DVec l => lg (nth pos l 1%N) end.

(** cost_model/simple.hpp:39-58 get_width. *)
Definition w_simple (lg : N -> Z) (inds : bitset) (d : dims_t) : Z :=
  match d with
  | DInt x => lg x * Z.of_nat (bcount inds)
  | DVec l => fold_left (fun w pos => w + lg (nth pos l 1%N)) (bpositions inds) 0
  end.

(** cost_model/simple.hpp:60-77 get_delta_width. *)
Definition dw_simple (lg : N -> Z) (inds : bitset) (d : dims_t) (pos : nat) : Z :=
  (1 - 2 * Z.b2z (btest inds pos)) * lg_at lg d pos.

(** simple_sparse_inds.hpp:44-46 min. *)
Definition wmin (x y : Z) : Z := if x <? y then x else y.

(** simple_sparse_inds.hpp:39-51 get_width. *)
Definition w_sparse (lg : N -> Z) (inds sparse : bitset) (np : Z) (d : dims_t) : Z :=
  w_simple lg (bdiff inds sparse) d + wmin (w_simple lg (band inds sparse) d) (lg (Z.to_N np)).

(** simple_sparse_inds.hpp:66-74 flipping one bit. *)
Definition bflip (b : bitset) (i : nat) : bitset := upd b i (negb (btest b i)).

(** simple_sparse_inds.hpp:55-79 get_delta_width. *)
Definition dw_sparse (lg : N -> Z) (inds : bitset) (d : dims_t) (pos : nat) (sparse : bitset) (np : Z) : Z :=
  if btest sparse pos then
    wmin (w_simple lg (band (bflip inds pos) sparse) d) (lg (Z.to_N np)) -
    wmin (w_simple lg (band inds sparse) d) (lg (Z.to_N np))
  else dw_simple lg inds d pos.

(** The cost models: the sparse one extends the simple one by sparse_inds and
    n_projs; max_width is a field of the base class (base.hpp:42). *)
Record fmodel := mkFM { fm_cm : cmodel; fm_max : Z }.

(** simple.hpp:87-91, base.hpp:44-50, simple_sparse_inds.hpp:93-100. *)
Definition fmodel_make (m : cmodel) (max_width : Z) : res fmodel :=
  if max_width <? 0 then Err Throw else
  match m with
  | Sparse _ np => if np =? 0 then Err Throw else Ok (mkFM m max_width)
  | Simple => Ok (mkFM m max_width)
  end.

(** width (simple.hpp:93-106, simple_sparse_inds.hpp:102-116). *)
Definition width_of (lg : N -> Z) (m : fmodel) (inds : bitset) (d : dims_t) : Z :=
  match fm_cm m with
  | Simple => w_simple lg inds d
  | Sparse sp np => w_sparse lg inds sp np d
  end.
(** delta_width (simple.hpp:108-122, simple_sparse_inds.hpp:118-134). *)
Definition delta_width_of (lg : N -> Z) (m : fmodel) (inds : bitset) (d : dims_t) (pos : nat) : Z :=
  match fm_cm m with
  | Simple => dw_simple lg inds d pos
  | Sparse sp np => dw_sparse lg inds d pos sp np
  end.
(** tnco/optimize/finite_width/cost_model.py:221-273 delta_width: the wrapper rejects
    an index that is not in the tensor (line 242); indices are written as positions. *)
Definition py_delta_width (lg : N -> Z) (m : fmodel) (inds : bitset) (d : dims_t) (pos : nat) : res Z :=
  if btest inds pos then Ok (delta_width_of lg m inds d pos) else Err Throw.

(** contraction_cost (simple.hpp:124-148, simple_sparse_inds.hpp:136-159). *)
Definition fcost_of (m : fmodel) (inds_A inds_B inds_C : bitset) (d : dims_t) (slices : bitset) : Z :=
  match fm_cm m with
  | Simple => simple_get_cost (bor (bor inds_A inds_B) slices) d
  | Sparse sp np => sparse_get_cost (bor (bor inds_A inds_B) slices) sp np d
  end.
(** utils.hpp:24-47: the callback given to the base caches, with the slices bound. *)
Definition fw_ccost (m : fmodel) (d : dims_t) (slices : bitset) : bitset -> bitset -> bitset -> Z :=
  fun a b c => fcost_of m a b c d slices.

(** utils.hpp:50-72 WidthCache constructor. *)
Definition width_cache_make (lg : N -> Z) (m : fmodel) (c : ctree) : list Z :=
  map (fun xs => width_of lg m xs (dims c)) (inds c).

(** ** get_slices *)
(** The generator also shuffles (greedy/utils.hpp:82 std::shuffle). *)
Record frand (R : Type) := mkFR {
  fr_base : rand R;
  shuffle : R -> list nat -> list nat * R
}.

(** greedy/utils.hpp:39-47: number of too wide tensors with index [x]. The
    vector of counters is written as a function. *)
Definition n_big (c : ctree) (width : list Z) (max_width : Z) (x : nat) : nat :=
  length (filter (fun t => (max_width <? nth t width 0) && btest (nth t (inds c) []) x)
                 (seq 0 (length (nodes c)))).

(** greedy/utils.hpp:53-62 greater. *)
Definition slice_greater (lg : N -> Z) (c : ctree) (width : list Z) (max_width : Z) (x y : nat) : bool :=
  let nx := n_big c width max_width x in
  let ny := n_big c width max_width y in
  match dims c with
  | DInt _ => (ny <? nx)%nat
  | DVec l => if (nx =? ny)%nat then lg (nth y l 1%N) <? lg (nth x l 1%N) else (ny <? nx)%nat
  end.

(** greedy/utils.hpp:85 std::stable_sort, as insertion sort. *)
Fixpoint ins_sorted (gt : nat -> nat -> bool) (x : nat) (l : list nat) : list nat :=
  match l with
  | [] => [x]
  | y :: l' => if gt y x then y :: ins_sorted gt x l' else x :: l
  end.
Definition stable_sort (gt : nat -> nat -> bool) (l : list nat) : list nat :=
  fold_right (ins_sorted gt) [] l.

(** greedy/utils.hpp:88-104. *)
Fixpoint slice_loop (lg : N -> Z) (m : fmodel) (d : dims_t) (pos : list nat)
  (slices sliced_xs : bitset) (sliced_width : Z) : bitset :=
  match pos with
  | [] => slices
  | x :: pos' =>
      let slices' := bset slices x in
      let w := sliced_width + delta_width_of lg m sliced_xs d x in
      let xs' := breset sliced_xs x in
      if w <=? fm_max m then slices' else slice_loop lg m d pos' slices' xs' w
  end.

Definition minus_skip (xs : bitset) (skip : option bitset) : bitset :=
  match skip with Some k => bdiff xs k | None => xs end.

(** greedy/utils.hpp:65-107, the callback of the traversal. *)
Definition slice_visit {R} (lg : N -> Z) (m : fmodel) (fr : frand R) (c : ctree)
  (skip : option bitset) (width : list Z) (st : bitset * R) (tpos : nat) : res (bitset * R) :=
  let '(slices, r) := st in
  let! w := get width tpos in
  if fm_max m <? w then
    let! xs := get (inds c) tpos in
    let sliced_xs := bdiff xs slices in
    let sw := width_of lg m sliced_xs (dims c) in
    if fm_max m <? sw then
      let '(p, r') := shuffle fr r (bpositions (minus_skip sliced_xs skip)) in
      let q := stable_sort (slice_greater lg c width (fm_max m)) p in
      Ok (slice_loop lg m (dims c) q slices sliced_xs sw, r')
    else Ok (slices, r)
  else Ok (slices, r).

(** greedy/utils.hpp:24-147 get_slices (release build: no final check). *)
Definition get_slices {R} (lg : N -> Z) (m : fmodel) (fr : frand R) (c : ctree)
  (skip : option bitset) (r : R) (width : list Z) : res (bitset * R) :=
  let! order := traverse (nodes c) in
  fold_res (slice_visit lg m fr c skip width) order (bempty (n_inds c), r).

(** ** The optimizer *)
(** greedy/optimizer.hpp:61-70. dims_cache is a function of the dimensions, which never change; it
    is written [lg_at lg (dims ct)] where it is read. *)
Record fw_state (R : Type) := mkFW {
  fw_ct      : ctree;
  fw_ds      : bool;
  fw_rng     : R;
  fw_min_ct  : ctree;
  fw_m       : fmodel;
  fw_maxnew  : nat;                (* max_number_new_slices *)
  fw_width   : list Z;
  fw_skip    : option bitset;
  fw_sl      : bitset;
  fw_min_sl  : bitset;
  fw_cc      : cost_cache;
  fw_hyper   : list bitset;
  fw_min     : Z
}.

(** 448-450 *)
Definition fw_total {R} (s : fw_state R) : res Z := back (pcost (fw_cc s)).

Definition fits (lg : N -> Z) (m : fmodel) (d : dims_t) (sl : bitset) (xs : bitset) : bool :=
  width_of lg m (bdiff xs sl) d <=? fm_max m.

(** 387-446 is_valid, in exact arithmetic. Line 414 uses the dims of the current tree
    for the best tree. The check of the DimsCache (439-442) compares a value with
    itself (scalar case) or with its recomputation. *)
Definition fw_is_valid {R} (lg : N -> Z) (s : fw_state R) : bool :=
  base_is_valid (fw_ct s) (fw_min_ct s) (fw_ds s) &&
  match get_cost (fw_ccost (fw_m s) (dims (fw_min_ct s)) (fw_min_sl s)) (fw_min_ct s) with
  | Ok x => x =? fw_min s | Err _ => false end &&
  forallb (fits lg (fw_m s) (dims (fw_ct s)) (fw_sl s)) (inds (fw_ct s)) &&
  forallb (fits lg (fw_m s) (dims (fw_ct s)) (fw_min_sl s)) (inds (fw_min_ct s)) &&
  match cost_cache_make (fw_ccost (fw_m s) (dims (fw_ct s)) (fw_sl s)) (fw_ct s) with
  | Ok k => list_eqb Z.eqb (pcost k) (pcost (fw_cc s)) && list_eqb Z.eqb (ccost k) (ccost (fw_cc s))
  | Err _ => false end &&
  match hyper_cache_make (fw_ct s) with
  | Ok h => list_eqb beqb h (fw_hyper s) | Err _ => false end &&
  list_eqb Z.eqb (width_cache_make lg (fw_m s) (fw_ct s)) (fw_width s).

(** 72-115 constructor. *)
Definition fw_make {R} (lg : N -> Z) (fr : frand R) (c : ctree) (m : fmodel) (maxnew : nat) (r : R) (ds : bool)
  (skip : option bitset) (min_c : option ctree) (sl min_sl : option bitset) : res (fw_state R) :=
  let mc := match min_c with Some x => x | None => c end in
  if negb (base_is_valid c mc ds) then Err Throw else
  let wc := width_cache_make lg m c in
  let! (sl1, r1) := (match sl with Some x => Ok (x, r) | None => get_slices lg m fr c skip r wc end) in
  let msl := match min_sl with Some x => x | None => sl1 end in
  let! k := cost_cache_make (fw_ccost m (dims c) sl1) c in
  let! h := hyper_cache_make c in
  let! mt := get_cost (fw_ccost m (dims mc) msl) mc in
  let s := mkFW c ds r1 mc m maxnew wc skip sl1 msl k h mt in
  let! tot := fw_total s in
  if (tot <=? 0) || (mt <=? 0) then Err Throw else
  if fw_is_valid lg s then Ok s else Err Throw.

(** 242-269: keep adding random new slices. [k] is the number of slices that may
    still be added. [prng() % n_pos] with n_pos = 0 is undefined. *)
Fixpoint add_slices {R} (lg : N -> Z) (rd : rand R) (d : dims_t) (max_width : Z) (k : nat)
  (pos : list nat) (n_pos : nat) (sl : bitset) (w : Z) (r : R) : res (bitset * Z * R) :=
  match k with
  | O => Ok (sl, w, r)
  | S k' =>
      if max_width <? w then
        if (n_pos =? 0)%nat then Err Crash else
        let '(x, r') := draw rd r in
        let i := (x mod n_pos)%nat in
        let! a := get pos i in                                     (* 245 *)
        let! b := get pos (n_pos - 1) in
        let! pos1 := set pos i b in
        let! pos2 := set pos1 (n_pos - 1) a in
        add_slices lg rd d max_width k' pos2 (n_pos - 1) (bset sl a) (w - lg_at lg d a) r'
      else Ok (sl, w, r)
  end.

(** Fields changed together by an iteration. *)
Definition fw_set {R} (s : fw_state R) (c : ctree) (r : R) (width : list Z) (sl : bitset)
  (k : cost_cache) (h : list bitset) : fw_state R :=
  mkFW c (fw_ds s) r (fw_min_ct s) (fw_m s) (fw_maxnew s) width (fw_skip s) sl (fw_min_sl s) k h (fw_min s).

(** 323-331 propagation of the partial costs. *)
Definition propagate (p ks : list Z) (A B C D E : nat) : res (list Z) :=
  let! pD := get p D in
  let! pE := get p E in
  let! kB := get ks B in
  let! p1 := set p B (pD + pE + kB) in
  let! pB := get p1 B in
  let! pC := get p1 C in
  let! kA := get ks A in
  set p1 A (pB + pC + kA).

(** 156-334, one iteration of the while loop. *)
Definition fw_iter {R} (lg : N -> Z) (fr : frand R) (s : fw_state R) (total : Z) (pos_B : nat)
  : res (fw_state R * option (Z * nat)) :=
  let rd := fr_base fr in
  let c := fw_ct s in
  let m := fw_m s in
  let! (nn, r1) := get_ctree_nn rd c (fw_ds s) (fw_rng s) (Some pos_B) in          (* 157 *)
  match nn with
  | None => Ok (fw_set s c r1 (fw_width s) (fw_sl s) (fw_cc s) (fw_hyper s), None)
  | Some (pos_A, pos_C, pos_D, pos_E) =>
      let! inds_A := get (inds c) pos_A in                                         (* 163-167 *)
      let! inds_B := get (inds c) pos_B in
      let! inds_C := get (inds c) pos_C in
      let! inds_D := get (inds c) pos_D in
      let! inds_E := get (inds c) pos_E in
      let! hyper_A := get (fw_hyper s) pos_A in                                    (* 172-173 *)
      let! hyper_B := get (fw_hyper s) pos_B in
      let new_B := bor (bor (bxor inds_D inds_C) hyper_A) hyper_B in               (* 174 *)
      let! _ := get (fw_width s) pos_B in                                          (* 175 *)
      let new_width_B := width_of lg m new_B (dims c) in                           (* 176 *)
      let sliced_B := bdiff new_B (fw_sl s) in                                     (* 178 *)
      let sw_B := width_of lg m sliced_B (dims c) in                               (* 179 *)
      let! ccost_A := get (ccost (fw_cc s)) pos_A in                               (* 182-183 *)
      let! ccost_B := get (ccost (fw_cc s)) pos_B in
      let stay r :=                                            (* nothing accepted: 323-334 *)
        let! p := propagate (pcost (fw_cc s)) (ccost (fw_cc s)) pos_A pos_B pos_C pos_D pos_E in
        Ok (fw_set s c r (fw_width s) (fw_sl s) (mkCC p (ccost (fw_cc s))) (fw_hyper s),
            Some (total, pos_A)) in
      if sw_B <=? fm_max m then                                                    (* 188 *)
        let new_ccost_A := fcost_of m inds_A new_B inds_E (dims c) (fw_sl s) in    (* 190-193 *)
        let new_ccost_B := fcost_of m new_B inds_D inds_C (dims c) (fw_sl s) in
        let delta := (new_ccost_B - ccost_B) + (new_ccost_A - ccost_A) in          (* 196 *)
        let '(acc, r2) := accept rd r1 delta total in                              (* 201 *)
        if acc then
          let! t' := swap_nn (nodes c) pos_E in                                    (* 203 *)
          let! inds' := set (inds c) pos_B new_B in                                (* 206 *)
          let! h1 := set (fw_hyper s) pos_A (band (band inds_A new_B) inds_E) in   (* 207 *)
          let! h2 := set h1 pos_B (band (band new_B inds_D) inds_C) in             (* 208 *)
          let! k1 := set (ccost (fw_cc s)) pos_B new_ccost_B in                    (* 214 *)
          let! k2 := set k1 pos_A new_ccost_A in                                   (* 215 *)
          let! wd := set (fw_width s) pos_B new_width_B in                         (* 219 *)
          let! p := propagate (pcost (fw_cc s)) k2 pos_A pos_B pos_E pos_D pos_C in (* 211, 323-331 *)
          Ok (fw_set s (mkCT t' inds' (dims c)) r2 wd (fw_sl s) (mkCC p k2) h2,
              Some (total + delta, pos_A))
        else stay r2
      else if (0 <? fw_maxnew s)%nat then                                          (* 226 *)
        let pos := bpositions (minus_skip sliced_B (fw_skip s)) in                 (* 233-237 *)
        let! (new_sl, w, r2) :=
          add_slices lg rd (dims c) (fm_max m) (fw_maxnew s) pos (length pos) (fw_sl s) sw_B r1 in
        if w <=? fm_max m then                                                     (* 285 *)
          let! inds' := set (inds c) pos_B new_B in                                (* 287 *)
          let! t' := swap_nn (nodes c) pos_E in                                    (* 288 *)
          let c' := mkCT t' inds' (dims c) in
          let! k := cost_cache_make (fw_ccost m (dims c) new_sl) c' in             (* 289 *)
          let! new_total := back (pcost k) in
          let '(acc, r3) := accept rd r2 (new_total - total) total in              (* 293-295 *)
          if acc then
            let! h1 := set (fw_hyper s) pos_A (band (band inds_A new_B) inds_E) in (* 300 *)
            let! h2 := set h1 pos_B (band (band new_B inds_D) inds_C) in
            let! wd := set (fw_width s) pos_B new_width_B in                       (* 304 *)
            Ok (fw_set s c' r3 wd new_sl k h2, Some (new_total, pos_A))            (* 297-313 *)
          else
            let! t'' := swap_nn t' pos_C in                                        (* 317 *)
            let! inds'' := set inds' pos_B inds_B in                               (* 318 *)
            let! p := propagate (pcost (fw_cc s)) (ccost (fw_cc s)) pos_A pos_B pos_C pos_D pos_E in
            Ok (fw_set s (mkCT t'' inds'' (dims c)) r3 (fw_width s) (fw_sl s)
                  (mkCC p (ccost (fw_cc s))) (fw_hyper s), Some (total, pos_A))
        else stay r2
      else stay r1
  end.

Fixpoint fw_loop {R} (lg : N -> Z) (fr : frand R) (fuel : nat) (s : fw_state R) (total : Z) (pos_B : nat)
  : res (fw_state R) :=
  match fuel with
  | O => Err Fuel
  | S f =>
      let! (s', nxt) := fw_iter lg fr s total pos_B in
      match nxt with
      | None => Ok s'
      | Some (total', pos_B') => fw_loop lg fr f s' total' pos_B'
      end
  end.

(** 354-371 *)
Definition fw_reslice {R} (lg : N -> Z) (fr : frand R) (update_slices : bool) (s : fw_state R) : res (fw_state R) :=
  if update_slices && bany (fw_sl s) then
    let! (sl, r) := get_slices lg (fw_m s) fr (fw_ct s) (fw_skip s) (fw_rng s) (fw_width s) in
    let! k := cost_cache_make (fw_ccost (fw_m s) (dims (fw_ct s)) sl) (fw_ct s) in
    let! nt := back (pcost k) in
    let! t := fw_total s in
    if nt <? t then Ok (fw_set s (fw_ct s) r (fw_width s) sl k (fw_hyper s))
    else Ok (fw_set s (fw_ct s) r (fw_width s) (fw_sl s) (fw_cc s) (fw_hyper s))
  else Ok s.

(** 379-384 *)
Definition fw_update_min {R} (s : fw_state R) : res (fw_state R) :=
  let! tc := fw_total s in
  if tc <? fw_min s
  then Ok (mkFW (fw_ct s) (fw_ds s) (fw_rng s) (fw_ct s) (fw_m s) (fw_maxnew s) (fw_width s) (fw_skip s)
             (fw_sl s) (fw_sl s) (fw_cc s) (fw_hyper s) tc)
  else Ok s.

(** 117-385 update. *)
Definition fw_update {R} (lg : N -> Z) (fr : frand R) (update_slices : bool) (s : fw_state R) : res (fw_state R) :=
  let '(x, r0) := draw (fr_base fr) (fw_rng s) in                                  (* 130 *)
  let leaf := (x mod n_leaves (nodes (fw_ct s)))%nat in
  let s0 := fw_set s (fw_ct s) r0 (fw_width s) (fw_sl s) (fw_cc s) (fw_hyper s) in
  let! n := get (nodes (fw_ct s)) leaf in                                          (* 134 *)
  match par n with
  | None => Ok s0
  | Some pos_B =>
      let! total := fw_total s0 in                                                 (* 139 *)
      let! s1 := fw_loop lg fr (length (nodes (fw_ct s))) s0 total pos_B in
      let! s2 := fw_reslice lg fr update_slices s1 in
      fw_update_min s2
  end.

(** A session: one acceptance rule and one update_slices flag per update. *)
Fixpoint fw_run {R} (lg : N -> Z) (us : list (frand R * bool)) (s : fw_state R) : res (fw_state R) :=
  match us with
  | [] => Ok s
  | (fr, b) :: us' => let! s' := fw_update lg fr b s in fw_run lg us' s'
  end.

(** tnco/optimize/finite_width/optimizer.py:54-134 constructor: [skip] is the set of
    indices that must not be sliced; 102-109 check that its part of every tensor
    fits; 120-121 an empty set becomes None. *)
Definition py_fw_make {R} (lg : N -> Z) (fr : frand R) (c : ctree) (m : fmodel) (maxnew : nat) (r : R) (ds : bool)
  (skip : bitset) (min_c : option ctree) (sl min_sl : option bitset) : res (fw_state R) :=
  if existsb (fun xs => fm_max m <? width_of lg m (band xs skip) (dims c)) (inds c) then Err Throw else
  fw_make lg fr c m maxnew r ds (if bany skip then Some skip else None) min_c sl min_sl.

(** optimizer.py:179-189 skip_slices. *)
Definition fw_skip_set {R} (s : fw_state R) : bitset :=
  match fw_skip s with Some k => k | None => bempty (n_inds (fw_ct s)) end.

(** optimizer.py:332-348: max_number_new_slices is neither saved nor given back to
    the constructor, whose default is 0. *)
Definition fw_pickle {R} (s : fw_state R) : ctree * fmodel * R * bool * ctree * bitset * bitset * bitset :=
  (fw_ct s, fw_m s, fw_rng s, fw_ds s, fw_min_ct s, fw_sl s, fw_min_sl s, fw_skip_set s).
Definition fw_unpickle {R} (lg : N -> Z) (fr : frand R)
  (x : ctree * fmodel * R * bool * ctree * bitset * bitset * bitset) : res (fw_state R) :=
  let '(c, m, r, ds, mc, sl, msl, skip) := x in
  py_fw_make lg fr c m 0 r ds skip (Some mc) (Some sl) (Some msl).
