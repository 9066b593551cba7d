(** Specification vocabulary for C70: costs of a bounded range. *)
From Coq Require Import ZArith List.
From Verif Require Import M_Cost M_Float M_Overflow.
Set Implicit Arguments.
Local Open Scope Z_scope.

(** The costs up to this one are finite numbers both in the cost type and in double. *)
Definition finite_upto (xa : xarith) : Z := Z.min (xmax xa) (xpmax xa).

(** The rounding, with an unbounded range, is monotone and odd and leaves what is rounded alone;
    0, 1 and powers are rounded. *)
Record range_ok (xa : xarith) : Prop := {
  ro_mono : forall x y, x <= y -> rnd (xr xa) x <= rnd (xr xa) y;
  ro_neg : forall x, rnd (xr xa) (- x) = - rnd (xr xa) x;
  ro_idem : forall x, rnd (xr xa) (rnd (xr xa) x) = rnd (xr xa) x;
  ro_0 : rnd (xr xa) 0 = 0;
  ro_1 : rnd (xr xa) 1 = 1;
  ro_pow : forall d k, rnd (xr xa) (rpow (xr xa) d k) = rpow (xr xa) d k;
  ro_pos : forall d k, (1 <= d)%N -> 1 <= rpow (xr xa) d k;
  ro_max : 1 <= finite_upto xa
}.

(** The number of projections, a 64-bit integer, is a finite number. *)
Definition projs_fit (xa : xarith) (m : cmodel) : Prop :=
  match m with Simple => True | Sparse _ np => rnd (xr xa) np <= finite_upto xa end.

(** [x] is what is reported for the cost [z]: [z] itself, or infinity, which is only
    reported for costs that are too large. *)
Definition reports (xa : xarith) (x : xnum) (z : Z) : Prop :=
  x = Fin z /\ z <= xmax xa \/ x = PInf /\ finite_upto xa < z.

(** The acceptance rule refuses infinite increases of the cost, as the greedy one and
    Metropolis-Hastings with a positive beta do: uniform <= 0 is false for a uniform number
    that is not 0. *)
Definition refuses (R : Type) (rd : xrand R) : Prop :=
  forall r total, fst (xaccept rd r PInf total) = false.
