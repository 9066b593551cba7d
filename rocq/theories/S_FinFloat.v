(** Specification vocabulary for rounded widths. *)
From Coq Require Import ZArith List Bool.
From Verif Require Import M_Base M_Bitset M_Tree M_CTree M_Cost M_FinWidth M_Float M_FinFloat S_Tree S_Opt S_Float S_FinWidth.
Set Implicit Arguments.
Local Open Scope Z_scope.

(** Every operation on widths whose exact result is at most [B] is off by at most
    [e]; [lg] is the exact logarithm (in the unit of the widths). *)
Record waccurate (e B : Z) (lg : N -> Z) (wa : warith) : Prop := {
  wo_e    : 0 <= e;
  wo_log  : forall d, Z.abs (lg d) <= B -> Z.abs (wlog wa d - lg d) <= e;
  wo_logs : forall d k, Z.abs (lg d * Z.of_nat k) <= B -> Z.abs (wlogs wa d k - lg d * Z.of_nat k) <= e;
  wo_cast : forall x, Z.abs x <= B -> Z.abs (wcast wa x - x) <= e;
  wo_acc  : forall x y, Z.abs (x + y) <= B -> Z.abs (wacc wa x y - (x + y)) <= e;
  wo_add  : forall x y, Z.abs (x + y) <= B -> Z.abs (wadd wa x y - (x + y)) <= e
}.

(** How far a width of the code can be off, in units of [e], for [n] indices. *)
Definition width_err (m : cmodel) (n : Z) : Z :=
  match m with
  | Simple => 5 * n + 1
  | Sparse _ _ => 4 * n * n + 10 * n + 4
  end.

(** No width of the network leaves the range in which the arithmetic is accurate. *)
Definition widths_upto (e B : Z) (lg : N -> Z) (m : cmodel) (d : dims_t) (n : nat) : Prop :=
  sum_over (fun _ => true) (log_dim lg d) n +
  match m with Simple => 0 | Sparse _ np => lg (Z.to_N np) end + (width_err m (Z.of_nat n) + 4) * e <= B.

(** Every tensor of the tree fits [mx] without the slices, in exact arithmetic:
    [all_fit] of S_FinWidth. The same in the arithmetic of the code: *)
Definition all_fit_rounded (wa : warith) (m : fmodel) (c : ctree) (sl : list bool) : Prop :=
  forall xs, In xs (inds c) -> rwidth_of wa m (bdiff xs sl) (dims c) <= fm_max m.

(** Exact operations up to [B]. *)
Record wexact (B : Z) (lg : N -> Z) (wa : warith) : Prop := {
  we_log  : forall d, 0 <= lg d <= B -> wlog wa d = lg d;
  we_logs : forall d k, 0 <= lg d * Z.of_nat k <= B -> wlogs wa d k = lg d * Z.of_nat k;
  we_cast : forall x, Z.abs x <= B -> wcast wa x = x;
  we_acc  : forall x y, 0 <= x + y <= B -> wacc wa x y = x + y;
  we_add  : forall x y, Z.abs (x + y) <= B -> wadd wa x y = x + y
}.

(** The optimizer [s0] was built by the constructor; as [fw_built] of S_FinWidth. *)
Record rfw_built {R} (ar : arith) (wa : warith) (fr : frand R) (c : ctree) (m : fmodel) (maxnew : nat) (r : R) (ds : bool)
  (skip : list bool) (mc : option ctree) (sl msl : option (list bool)) (s0 : fw_state R) : Prop := {
  rb_shuf   : shuffles fr;
  rb_tree   : well_formed (nodes c);
  rb_model  : cmodel_ok (fm_cm m) (n_inds c);
  rb_given  : supplied_ok c skip mc sl msl;
  rb_make   : rpy_fw_make ar wa fr c m maxnew r ds skip mc sl msl = Ok s0
}.

(** No update of the session computes new slices (update_slices=False). *)
Definition no_reslice {R} (us : list (frand R * bool)) : Prop := Forall (fun u => snd u = false) us.

(** What holds of rounding to nearest, [rep] being the numbers of the width type:
    rounded sums grow with their arguments, and adding a non-negative number to a
    number of the type does not decrease it. *)
Record wmonotone (rep : Z -> Prop) (wa : warith) : Prop := {
  wm_rep0  : rep 0;
  wm_repa  : forall w y, rep (wacc wa w y);
  wm_repl  : forall d k, rep (wlogs wa d k);
  wm_log   : forall d, (1 <= d)%N -> 0 <= wlog wa d;
  wm_logs  : forall d k j, (1 <= d)%N -> (k <= j)%nat -> wlogs wa d k <= wlogs wa d j;
  wm_acc   : forall w w' y, w <= w' -> wacc wa w y <= wacc wa w' y;
  wm_up    : forall w y, rep w -> 0 <= y -> w <= wacc wa w y;
  wm_cast  : forall x y, rep x -> x <= y -> x <= wcast wa y;
  wm_add   : forall x y x' y', x <= x' -> y <= y' -> wadd wa x y <= wadd wa x' y'
}.

(** A width type with [p] bits; logarithms [lgd] and intermediate results have
    [pp] bits; [cl] is the comparison of is_valid. Numbers are multiples of the
    smallest positive number of the types, so that gradual underflow is exact. *)
Definition wfloat (p pp : nat) (lgd : N -> Z) (cl : Z -> Z -> bool) : warith :=
  mkWA lgd (fun d k => nearest p (nearest pp (lgd d * Z.of_nat k))) (nearest p)
    (fun w y => nearest p (nearest pp (w + y))) (fun x y => nearest p (x + y)) cl.

(** The numbers with [p] significant bits. *)
Definition pbits (p : nat) (f : Z) : Prop :=
  exists x k, 0 <= k /\ Z.abs x <= 2 ^ Z.of_nat p /\ f = x * 2 ^ k.
