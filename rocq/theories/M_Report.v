(** How Python sees costs. Both optimizers hand a cost to Python by writing it to a
    string and reading this string as a decimal.Decimal
    (include/tnco/optimize/infinite_memory/optimizer.hpp:273-284,
    finite_width/greedy/optimizer.hpp:478-489); the results of an optimization are
    made of these numbers (tnco/app/infinite_memory/sa.py:209-218, 252 and
    finite_width/sa.py:232-242, 284). Costs are non-negative integers, as in M_Float. *)
From Verif Require Import M_Base M_Bitset M_Tree M_CTree M_Cost M_Opt M_InfMem M_FinWidth M_Path M_PyTree M_Random M_App.
Set Implicit Arguments.
Local Open Scope Z_scope.

(** The number of decimal digits of [x] >= 0. *)
Fixpoint ndigits_loop (fuel : nat) (x : Z) : nat :=
  match fuel with
  | O => 1%nat
  | S f => if x <? 10 then 1%nat else S (ndigits_loop f (x / 10))
  end.
Definition ndigits (x : Z) : nat := ndigits_loop (Z.to_nat (Z.log2 x)) x.

(** a / b rounded to nearest, ties to even. *)
Definition round_div (a b : Z) : Z :=
  let q := a / b in
  let r := a mod b in
  if 2 * r <? b then q else if b <? 2 * r then q + 1 else if Z.even q then q else q + 1.

(** [x] >= 0 rounded to [p] significant decimal digits. *)
Definition sig (p : nat) (x : Z) : Z :=
  let u := 10 ^ Z.of_nat (ndigits x - p) in
  round_div x u * u.

(** The cost types float32, float64 and float128 are written by an output stream
    (include/tnco/globals.hpp:47-52), whose default format is %g with six digits. A
    float1024 is written with 308 digits after the point (fixed_float.hpp:240-248), so
    that an integer is written exactly. Decimal(string) is exact. *)
Inductive cost_type := Native | Float1024.
Definition shown (ct : cost_type) (x : Z) : Z :=
  match ct with Native => sig 6 x | Float1024 => x end.

(** total_cost and min_total_cost (infinite_memory/optimizer.py:155-175,
    finite_width/optimizer.py:216-236). *)
Definition im_total_cost {R} (ct : cost_type) (s : im_state R) : res Z :=
  let! t := im_total s in Ok (shown ct t).
Definition im_min_total_cost {R} (ct : cost_type) (s : im_state R) : Z := shown ct (im_min s).
Definition fw_total_cost {R} (ct : cost_type) (s : fw_state R) : res Z :=
  let! t := fw_total s in Ok (shown ct t).
Definition fw_min_total_cost {R} (ct : cost_type) (s : fw_state R) : Z := shown ct (fw_min s).

(** sum(results['disconnected_costs']) (infinite_memory/sa.py:215): the sum starts with
    the integer 0, and adding a Decimal rounds to the 28 digits of Python's default
    context. *)
Definition decimal_sum (l : list Z) : Z := fold_left (fun s c => sig 28 (s + c)) l 0.

(** The result of one run, as core_ returns it (infinite_memory/sa.py:161-229,
    finite_width/sa.py:182-261), from the one with exact costs. *)
Definition im_report (ct : cost_type) (r : im_result) : im_result :=
  let costs := map (shown ct) (ir_costs r) in
  mkImR (decimal_sum costs) (ir_path r) costs (ir_paths r).
Definition fw_report (ct : cost_type) (r : fw_result) : fw_result :=
  let costs := map (shown ct) (fr_costs r) in
  mkFwR (decimal_sum costs) (fr_path r) costs (fr_paths r) (fr_dslices r) (fr_slices r).

Section Reported.
Variables (ts : list (list nat)) (d : pydims) (out sparse : list nat) (np : option Z).
Variables (P R B : Type) (g : prng P) (pick : list nat -> nat) (ct : cost_type).

(** optimize of infinite_memory/sa.py (136-252), see M_App.im_optimize. *)
Definition im_optimize_reported (rule : B -> rand R) (betas : list B) (n_steps : option Z) (runs : list (P * R * (nat -> nat)))
  : res (list im_result) :=
  let! n := check_steps n_steps in
  let! _ := check_model sparse np in
  if (length runs =? 0)%nat then Err Throw else
  let! rs := mapM (fun x => let '(r, r0, stop) := x in
    let! y := im_core ts d out sparse np g pick rule betas n r r0 stop in Ok (im_report ct y)) runs in
  Ok (sorted_by ir_cost rs).

(** optimize of finite_width/sa.py (154-284), see M_App.fw_optimize. *)
Definition fw_optimize_reported (lg : N -> Z) (mx : Z) (fr0 : frand R) (rule : B -> frand R) (betas : list B) (n_steps : option Z)
  (u : nat) (runs : list (P * R * (nat -> nat))) : res (list fw_result) :=
  let! n := check_steps n_steps in
  if mx <? 0 then Err Throw else
  let! _ := check_model sparse np in
  if (length runs =? 0)%nat then Err Throw else
  let! rs := mapM (fun x => let '(r, r0, stop) := x in
    let! y := fw_core ts d out sparse np g pick lg mx fr0 rule betas n u r r0 stop in Ok (fw_report ct y)) runs in
  Ok (sorted_by fr_cost rs).
End Reported.
