(** Specification vocabulary for the temperatures of a run. *)
From Coq Require Import QArith Qabs ZArith List.
From Verif Require Import M_Base M_Fixed S_Fixed.
Set Implicit Arguments.
Local Open Scope Q_scope.

(** A finite Python float. *)
Definition is_float (x : num) : Prop := is_double x /\ finite x = true.

(** The [k]-th of [n] temperatures on the line from [b0] to [b1]. *)
Definition ideal (b0 b1 : Q) (n k : nat) : Q := b0 + inject_Z (Z.of_nat k) * ((b1 - b0) / inject_Z (Z.of_nat n)).

(** How far rounding can move a temperature. *)
Definition resolution (b0 b1 : Q) : Q := pow2 (-50) * (Qabs b0 + Qabs b1).

(** [y] does not come before [x] on the way from [b0] to [b1]. *)
Definition ordered (b0 b1 x y : Q) : Prop := b0 < b1 /\ x <= y \/ b1 < b0 /\ y <= x.
(** [x] lies on the way from [b0] to [b1], which is not reached. *)
Definition inside (b0 b1 x : Q) : Prop := b0 <= x < b1 \/ b1 < x <= b0.

(** The difference is not larger than the largest float, nor are the steps so small
    that floats lose bits. *)
Definition usual_range (b0 b1 : Q) (n : nat) : Prop :=
  (exists z, double_value z /\ Qabs (b1 - b0) <= z) /\
  inject_Z (Z.of_nat n) * pow2 (-1022) <= Qabs (b1 - b0).
