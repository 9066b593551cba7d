(** Model of include/tnco/optimize/infinite_memory/optimizer.hpp and of the save
    and restore of tnco/optimize/infinite_memory/optimizer.py. *)
From Verif Require Import M_Base M_Bitset M_Tree M_CTree M_Cost M_Opt.
Set Implicit Arguments.

(** infinite_memory/optimizer.hpp:42-59 with the fields of the base class. *)
Record im_state (R : Type) := mkIM {
  im_ct      : ctree;
  im_ds      : bool;                (* disable_shared_inds *)
  im_rng     : R;
  im_min_ct  : ctree;
  im_cm      : cmodel;
  im_cc      : cost_cache;
  im_hyper   : list bitset;
  im_min     : Z                    (* min_total_cost *)
}.

Definition with_rng {R} (s : im_state R) (r : R) : im_state R :=
  mkIM (im_ct s) (im_ds s) r (im_min_ct s) (im_cm s) (im_cc s) (im_hyper s) (im_min s).

(** WRAP of p_cmodel and contraction_cost with the dims of the tree. *)
Definition im_ccost (m : cmodel) (d : dims_t) : bitset -> bitset -> bitset -> Z :=
  fun a b c => ccost_of m a b c d.

(** The lists are compared with a tolerance in the code (utils.hpp:59-65); in
    exact arithmetic tolerance 0 is equality. *)
Fixpoint list_eqb {A} (eqb : A -> A -> bool) (a b : list A) : bool :=
  match a, b with
  | [], [] => true
  | x :: a', y :: b' => eqb x y && list_eqb eqb a' b'
  | _, _ => false
  end.

(** optimizer.hpp:248-250 get_total_cost: partial_cost.back(). *)
Definition back {A} (l : list A) : res A := get l (length l - 1).
Definition im_total {R} (s : im_state R) : res Z := back (pcost (im_cc s)).

(** optimizer.hpp:218-246 is_valid. *)
Definition im_is_valid {R} (s : im_state R) : bool :=
  base_is_valid (im_ct s) (im_min_ct s) (im_ds s) &&
  match get_cost (im_ccost (im_cm s) (dims (im_min_ct s))) (im_min_ct s) with
  | Ok x => (x =? im_min s)%Z | Err _ => false end &&
  match cost_cache_make (im_ccost (im_cm s) (dims (im_ct s))) (im_ct s) with
  | Ok k => list_eqb Z.eqb (pcost k) (pcost (im_cc s)) && list_eqb Z.eqb (ccost k) (ccost (im_cc s))
  | Err _ => false end &&
  match hyper_cache_make (im_ct s) with
  | Ok h => list_eqb beqb h (im_hyper s) | Err _ => false end.

(** optimizer.hpp:61-88 and the base constructor optimizer.hpp:57-82. The
    checks that log2 of the costs is finite concern float precision and a zero
    cost (a tree with a single node); with exact costs only "cost is positive"
    is left. *)
Definition im_make {R} (c : ctree) (m : cmodel) (r : R) (ds : bool) (min_c : option ctree)
  : res (im_state R) :=
  let mc := match min_c with Some x => x | None => c end in
  if negb (base_is_valid c mc ds) then Err Throw else
  let! k := cost_cache_make (im_ccost m (dims c)) c in
  let! h := hyper_cache_make c in
  let! mt := get_cost (im_ccost m (dims mc)) mc in
  let s := mkIM c ds r mc m k h mt in
  let! tot := im_total s in
  if (tot <=? 0)%Z || (mt <=? 0)%Z then Err Throw else
  if im_is_valid s then Ok s else Err Throw.

(** optimizer.hpp:117-192, one iteration of the while loop at [pos_B] with
    running [total]. [None] is the [break] of line 132; otherwise the new state,
    the new running total and the next [pos_B]. *)
Definition im_iter {R} (rd : rand R) (s : im_state R) (total : Z) (pos_B : nat)
  : res (im_state R * option (Z * nat)) :=
  let c := im_ct s in
  let! (nn, r1) := get_ctree_nn rd c (im_ds s) (im_rng s) (Some pos_B) in        (* 130 *)
  match nn with
  | None => Ok (with_rng s r1, None)                                               (* 131-133 *)
  | Some (pos_A, pos_C, pos_D, pos_E) =>
      let! inds_A := get (inds c) pos_A in                                         (* 136-140 *)
      let! inds_B := get (inds c) pos_B in
      let! inds_C := get (inds c) pos_C in
      let! inds_D := get (inds c) pos_D in
      let! inds_E := get (inds c) pos_E in
      let! hyper_A := get (im_hyper s) pos_A in                                    (* 145-146 *)
      let! hyper_B := get (im_hyper s) pos_B in
      let new_B := bor (bor (bxor inds_D inds_C) hyper_A) hyper_B in               (* 147 *)
      let! ccost_A := get (ccost (im_cc s)) pos_A in                               (* 150-151 *)
      let! ccost_B := get (ccost (im_cc s)) pos_B in
      let new_ccost_A := ccost_of (im_cm s) inds_A new_B inds_E (dims c) in        (* 152-153 *)
      let new_ccost_B := ccost_of (im_cm s) new_B inds_D inds_C (dims c) in        (* 154-155 *)
      let delta := ((new_ccost_B - ccost_B) + (new_ccost_A - ccost_A))%Z in        (* 158 *)
      let '(acc, r2) := accept rd r1 delta total in                                (* 162 *)
      let! (c', pos_C', pos_E', hyper', ccs', total') :=
        (if acc then
           let! t' := swap_nn (nodes c) pos_E in                                   (* 164 *)
           let! inds' := set (inds c) pos_B new_B in                               (* 170 *)
           (* 171-172: the references inds_C and inds_E still denote the
              positions before the swap of line 167 *)
           let! h1 := set (im_hyper s) pos_A (band (band inds_A new_B) inds_E) in
           let! h2 := set h1 pos_B (band (band new_B inds_D) inds_C) in
           let! k1 := set (ccost (im_cc s)) pos_B new_ccost_B in                   (* 175 *)
           let! k2 := set k1 pos_A new_ccost_A in                                  (* 176 *)
           Ok (mkCT t' inds' (dims c), pos_E, pos_C, h2, k2, (total + delta)%Z)    (* 167, 177 *)
         else Ok (c, pos_C, pos_E, im_hyper s, ccost (im_cc s), total)) in
      (* 185-188 *)
      let p := pcost (im_cc s) in
      let! pD := get p pos_D in
      let! pE := get p pos_E' in
      let! kB := get ccs' pos_B in
      let! p1 := set p pos_B (pD + pE + kB)%Z in
      let! pB := get p1 pos_B in
      let! pC := get p1 pos_C' in
      let! kA := get ccs' pos_A in
      let! p2 := set p1 pos_A (pB + pC + kA)%Z in
      Ok (mkIM c' (im_ds s) r2 (im_min_ct s) (im_cm s) (mkCC p2 ccs') hyper' (im_min s),
          Some (total', pos_A))                                                    (* 191 *)
  end.

Fixpoint im_loop {R} (rd : rand R) (fuel : nat) (s : im_state R) (total : Z) (pos_B : nat)
  : res (im_state R) :=
  match fuel with
  | O => Err Fuel
  | S f =>
      let! (s', nxt) := im_iter rd s total pos_B in
      match nxt with
      | None => Ok s'
      | Some (total', pos_B') => im_loop rd f s' total' pos_B'
      end
  end.

(** optimizer.hpp:197-201 *)
Definition im_update_min {R} (s : im_state R) : res (im_state R) :=
  let! tc := im_total s in
  if (tc <? im_min s)%Z
  then Ok (mkIM (im_ct s) (im_ds s) (im_rng s) (im_ct s) (im_cm s) (im_cc s) (im_hyper s) tc)
  else Ok s.

(** optimizer.hpp:90-216 update. *)
Definition im_update {R} (rd : rand R) (s : im_state R) : res (im_state R) :=
  let '(x, r0) := draw rd (im_rng s) in                                            (* 103 *)
  let leaf := x mod n_leaves (nodes (im_ct s)) in
  let s0 := with_rng s r0 in
  let! n := get (nodes (im_ct s)) leaf in                                          (* 107 *)
  match par n with
  | None => Ok s0
  | Some pos_B =>
      let! total := im_total s0 in                                                 (* 112 *)
      let! s1 := im_loop rd (length (nodes (im_ct s))) s0 total pos_B in           (* 117-192 *)
      im_update_min s1
  end.

(** A user's session: one acceptance rule per update call, e.g. one inverse
    temperature per step. *)
Fixpoint im_run {R} (rds : list (rand R)) (s : im_state R) : res (im_state R) :=
  match rds with
  | [] => Ok s
  | rd :: rds' => let! s' := im_update rd s in im_run rds' s'
  end.

(** tnco/optimize/infinite_memory/optimizer.py:234-245 __reduce__ and __build__.
    The PRNG state is dumped to and read from a string (optimizer.hpp:69-71,
    191-195), modelled as the identity on states. *)
Definition im_pickle {R} (s : im_state R) : ctree * cmodel * R * bool * ctree :=
  (im_ct s, im_cm s, im_rng s, im_ds s, im_min_ct s).
Definition im_unpickle {R} (x : ctree * cmodel * R * bool * ctree) : res (im_state R) :=
  let '(c, m, r, ds, mc) := x in im_make c m r ds (Some mc).
