(** Specification vocabulary for reported costs. *)
From Coq Require Import ZArith List.
From Verif Require Import M_Report.
Set Implicit Arguments.
Local Open Scope Z_scope.

(** [y] is a non-negative integer with at most [p] significant decimal digits. *)
Definition short (p : nat) (y : Z) : Prop :=
  exists m k, 0 <= m < 10 ^ Z.of_nat p /\ 0 <= k /\ y = m * 10 ^ k.

(** [y] is a nearest such number to [x]. *)
Definition nearest_short (p : nat) (x y : Z) : Prop :=
  short p y /\ forall z, short p z -> Z.abs (y - x) <= Z.abs (z - x).

(** [y] is [x] up to a relative error of 1/n. *)
Definition within (n : Z) (x y : Z) : Prop := n * Z.abs (y - x) <= x.

(** [y] is what Python sees of the cost [x]: the nearest number of six digits, or [x]
    itself if the cost type is float1024; this is [x] up to a relative error of 1/200000,
    and [x] below a million. *)
Record written (ct : cost_type) (x y : Z) : Prop := {
  wr_native : ct = Native -> nearest_short 6 x y;
  wr_exact  : ct = Float1024 -> y = x;
  wr_within : within 200000 x y;
  wr_below  : x < 10 ^ 6 -> y = x
}.

(** [y], and [ys] for the components, is what a result says of the cost [z], [zs]: the
    sum of the components is up to a relative error of 1/199999 the cost, and exact
    below a million (10^28 if the cost type is float1024). *)
Definition exact_below (ct : cost_type) : Z := match ct with Native => 10 ^ 6 | Float1024 => 10 ^ 28 end.
Record summed (ct : cost_type) (z : Z) (zs : list Z) (y : Z) (ys : list Z) : Prop := {
  sm_nonneg : 0 <= z;
  sm_parts  : Forall2 (written ct) zs ys;
  sm_within : within 199999 z y;
  sm_exact  : z < exact_below ct -> y = z /\ ys = zs
}.
