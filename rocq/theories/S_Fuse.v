(** Specification vocabulary for fuse: the inputs it rejects and widths. *)
From Coq Require Import List Arith ZArith.
Import ListNotations.
From Verif Require Import M_PyTree S_PyTree S_Random.

(** Index [x] occurs in three different tensors. *)
Definition in_three (ts : list (list nat)) (x : nat) : Prop :=
  exists a b c, NoDup [a; b; c] /\ has ts a x /\ has ts b x /\ has ts c x.

(** The inputs that are rejected: an excluded index that no tensor has; an index with
    no dimension; no given output although an index occurs in three tensors; a
    given output index that no tensor has. *)
Definition fuse_rejects (ts : list (list nat)) (d : pydims) (output : option (list nat)) (exclude : list nat) : Prop :=
  (exists x, In x exclude /\ forall t, ~ has ts t x) \/
  (exists x, (exists t, has ts t x) /\ forall k, ~ dim_is d x k) \/
  (output = None /\ exists x, in_three ts x) \/
  (exists o, output = Some o /\ exists x, In x o /\ forall t, ~ has ts t x).

(** The width of a tensor: the sum of the logarithms [lg] of the dimensions of its
    indices. *)
Inductive total_width (lg : N -> Z) (d : pydims) : list nat -> Z -> Prop :=
| tw_nil : total_width lg d [] 0%Z
| tw_cons x k zs w : dim_is d x k -> total_width lg d zs w -> total_width lg d (x :: zs) (lg k + w)%Z.
