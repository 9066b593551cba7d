(** Specification vocabulary for C76. *)
From Coq Require Import ZArith Reals.
From Verif Require Import M_Base M_Overflow M_OverflowFin M_ProbFloat M_ProbInf.
Set Implicit Arguments.
Local Open Scope R_scope.

(** What C and MPFR say about the powers of infinities, of NaN and of 1, and that the
    numbers 0 and 1 need no rounding. *)
Record ieee (L : lib) : Prop := {
  i_0 : l_round L 0 = XR 0;
  i_1 : l_round L 1 = XR 1;
  i_pow0 : forall x, l_pow L x 0 = XR 1;
  i_pow1 : forall y, l_pow L (XR 1) y = XR 1;
  i_nan : forall y, y <> 0 -> l_pow L XNan y = XNan;
  i_pos : forall y, y < 0 -> l_pow L XPos y = XR 0;
  i_neg : forall y, y < 0 -> l_pow L XNeg y = XR 0
}.

(** The rule of an optimizer: the numbers it draws are positive, as all but one of those that
    std::uniform_real_distribution gives, and it is greedy or Metropolis-Hastings. *)
Definition greedy_with {R} (rd : xrand R) (draw : R -> Rdefinitions.R) : Prop :=
  (forall r, 0 < draw r) /\ forall r d t, fst (xaccept rd r d t) = greedy_rule (draw r) d t.
Definition mh_with {R} (L : lib) (beta : Rdefinitions.R) (rd : xrand R) (draw : R -> Rdefinitions.R) : Prop :=
  (forall r, 0 < draw r) /\ forall r d t, fst (xaccept rd r d t) = mh_rule L beta (draw r) d t.

(** The cost types of C74 with a function pow for finite numbers: no finite result is too
    large, and pow is extended to infinities and NaN as C does. *)
Definition float_lib (t : cost_type) (pow : R -> R -> R) : lib := mkLib (fun x => XR (rounded t x)) (fun x y =>
  if Req_EM_T y 0 then XR 1 else
  match x with
  | XR a => XR (pow a y)
  | XNan => XNan
  | XPos | XNeg => if Rlt_dec y 0 then XR 0 else XPos
  end).
