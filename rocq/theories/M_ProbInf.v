(** Model of include/tnco/optimize/prob/mh.hpp and greedy.hpp for costs that are infinite or
    not a number, as the optimizers of M_Overflow and M_OverflowFin may pass them. *)
From Coq Require Import ZArith Reals.
From Verif Require Import M_Base M_Overflow.
Set Implicit Arguments.
Local Open Scope R_scope.

(** A number of the cost type: finite, infinite or NaN. Simplification: one zero. *)
Inductive ext := XR (x : R) | XPos | XNeg | XNan.
(** A cost of M_Overflow. *)
Definition of_cost (x : xnum) : ext :=
  match x with Fin z => XR (IZR z) | PInf => XPos | MInf => XNeg | NaN => XNan end.

(** What the cost type and the library provide: rounding of a real number (to a finite one or
    an infinity), std::pow or fixed_float.hpp:228-237. *)
Record lib := mkLib { l_round : R -> ext; l_pow : ext -> R -> ext }.

Section Rules.
  Variable L : lib.

  (** IEEE 754: the division of mh.hpp:52 *)
  Definition ediv (a b : ext) : ext :=
    match a, b with
    | XNan, _ | _, XNan => XNan
    | XR x, XR y =>
        if Req_EM_T y 0 then (if Req_EM_T x 0 then XNan else if Rlt_dec 0 x then XPos else XNeg) else l_round L (x / y)
    | XR _, _ => XR 0
    | XPos, XR y => if Rlt_dec y 0 then XNeg else XPos
    | XNeg, XR y => if Rlt_dec y 0 then XPos else XNeg
    | _, _ => XNan
    end.
  (** mh.hpp:52: 1 + x *)
  Definition eadd1 (a : ext) : ext := match a with XR x => l_round L (1 + x) | _ => a end.
  (** delta_cost <= 0: false for NaN *)
  Definition at_most_0 (a : ext) : bool :=
    match a with XR x => if Rle_dec x 0 then true else false | XNeg => true | XPos | XNan => false end.

  (** mh.hpp:43-53; the result is converted to the cost type. *)
  Definition emh (beta : R) (delta old : ext) : ext :=
    if at_most_0 delta then XR 1
    else match l_pow L (eadd1 (ediv delta old)) (- beta) with XR x => l_round L x | y => y end.
  (** greedy.hpp:39-43 *)
  Definition egreedy (delta old : ext) : ext := if at_most_0 delta then XR 1 else XR 0.

  (** infinite_memory/optimizer.hpp:162, finite_width/greedy/optimizer.hpp:201, 295:
      uniform(prng) <= prob(delta_cost, total_cost) *)
  Definition keeps (draw : R) (p : ext) : bool :=
    match p with XR x => if Rle_dec draw x then true else false | XPos => true | XNeg | XNan => false end.
  Definition mh_rule (beta draw : R) (delta total : xnum) : bool := keeps draw (emh beta (of_cost delta) (of_cost total)).
  Definition greedy_rule (draw : R) (delta total : xnum) : bool := keeps draw (egreedy (of_cost delta) (of_cost total)).
End Rules.
