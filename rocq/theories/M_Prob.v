(** Model of include/tnco/optimize/prob: the acceptance probabilities, and of the
    acceptance test [uniform(prng) <= prob(delta_cost, total_cost)]. A draw is a
    rational number (a float is one). *)
From Coq Require Import QArith Reals Qreals.
From Verif Require Import M_Base M_Opt.

(** prob/greedy.hpp:38-42 *)
Definition greedy_prob (delta_cost old_cost : Z) : Q :=
  if (delta_cost <=? 0)%Z then 1%Q else 0%Q.

(** prob/base.hpp:41-45 *)
Definition base_prob (delta_cost old_cost : Z) : Q := 1%Q.

(** prob/mh.hpp:43-53; [pow] on a positive base is [Rpower]. *)
Definition mh_prob (beta : R) (delta_cost old_cost : Z) : R :=
  if (delta_cost <=? 0)%Z then 1%R
  else Rpower (1 + IZR delta_cost / IZR old_cost)%R (- beta)%R.

(** infinite_memory/optimizer.hpp:162 with a rational probability. *)
Definition q_rand {S} (prng : S -> nat * S) (uniform : S -> Q * S) (prob : Z -> Z -> Q) : rand S :=
  mkRand prng (fun r delta tot => let '(u, r') := uniform r in (Qle_bool u (prob delta tot), r')).

(** The same with a real probability. *)
Definition r_rand {S} (prng : S -> nat * S) (uniform : S -> Q * S) (prob : Z -> Z -> R) : rand S :=
  mkRand prng (fun r delta tot => let '(u, r') := uniform r in
    ((if Rle_dec (Q2R u) (prob delta tot) then true else false), r')).
