(** C74: the Metropolis-Hastings probability with the rounding of the cost types. *)
From Coq Require Import ZArith Reals Lra.
From Flocq Require Import Core.
From Verif Require Import M_ProbFloat S_ProbFloat P_ProbFloat.
Set Implicit Arguments.
Local Open Scope R_scope.

(** The value is a probability, and 1 if the cost does not increase. *)
Theorem C74_probability : forall t pow beta delta old, faithful_pow t pow -> 0 <= beta -> 0 < old ->
  0 <= mh_call t pow beta delta old <= 1 /\ (delta <= 0 -> mh_call t pow beta delta old = 1).
Proof. exact mh_between. Qed.
Print Assumptions C74_probability.

(** A move is kept whatever the draw if the cost does not increase, or if beta is 0 or
    negative. *)
Theorem C74_always_kept : forall t pow beta delta old draw, faithful_pow t pow -> 0 < old -> draw <= 1 -> delta <= 0 \/ beta <= 0 ->
  mh_keeps t pow beta delta old draw = true.
Proof. exact mh_kept. Qed.
Print Assumptions C74_always_kept.

(** With a correctly rounded pow, what is kept with some beta, increase, cost and draw is
    kept with a smaller beta, a smaller increase and a larger cost. *)
Theorem C74_cooler_keeps_less : forall t pow beta beta' delta delta' old old' draw, correct_pow t pow ->
  0 <= beta -> beta <= beta' -> delta <= delta' -> 0 < old' -> old' <= old ->
  mh_keeps t pow beta' delta' old' draw = true -> mh_keeps t pow beta delta old draw = true.
Proof. exact mh_cooler. Qed.
Print Assumptions C74_cooler_keeps_less.

(** With float1024 the value is as exact as one can hope for: up to a factor, the exact
    probability; rounding the argument of pow costs a power of a factor close to 1. *)
Theorem C74_accuracy_of_float1024 : forall pow beta delta old, correct_pow Float1024 pow -> 0 < old ->
  exists a b, Rabs a <= 3 * bpow radix2 (-1024) /\ Rabs b <= bpow radix2 (-1024) /\
  mh_call Float1024 pow beta delta old = chance beta delta old * Rpower (1 + a) (- beta) * (1 + b).
Proof. exact mh_accurate. Qed.
Print Assumptions C74_accuracy_of_float1024.

(** The same for the other types, up to twice their smallest positive number. *)
Theorem C74_accuracy : forall t pow beta delta old, correct_pow t pow -> 0 < old ->
  exists a b c, Rabs a <= 3 * bpow radix2 (- precision t) /\ Rabs b <= 3 * bpow radix2 (- precision t) /\ Rabs c <= 2 * smallest t /\
  mh_call t pow beta delta old = chance beta delta old * Rpower (1 + a) (- beta) * (1 + b) + c.
Proof. exact mh_accurate_all. Qed.
Print Assumptions C74_accuracy.

(** Increases that are small against the cost are always kept, however large beta is. *)
Theorem C74_small_increases : forall t pow beta delta old, faithful_pow t pow -> 0 < old -> delta / old < bpow radix2 (- precision t - 1) ->
  mh_call t pow beta delta old = 1.
Proof. exact mh_small. Qed.
Print Assumptions C74_small_increases.

Example C74_applies : forall t, correct_pow t (best_pow t) /\ faithful_pow t (best_pow t) /\ mh_call t (best_pow t) 1 1 1 = / 2 /\
  mh_keeps t (best_pow t) 1 1 1 (/ 4) = true /\ mh_keeps t (best_pow t) 1 1 1 (3 / 4) = false /\ chance 1 1 1 = / 2.
Proof.
  intros t. split; [apply best_correct|]. split; [apply correct_faithful, best_correct|]. split; [apply half_call|].
  unfold mh_keeps. rewrite half_call. split; [destruct (Rle_dec _ _); auto; lra|]. split; [destruct (Rle_dec _ _); auto; lra|].
  unfold chance. destruct (Rle_dec 1 0); [lra|]. replace (1 + 1 / 1) with 2 by field. rewrite Rpower_Ropp, Rpower_1 by lra. reflexivity.
Qed.

(** Missing: that a move that increases the cost can be rejected for positive beta. The
    exact probability is below 1; the computed one is 1 for small increases. *)
Theorem C74_increases_rejected_refuted : ~ (forall t pow beta delta old, correct_pow t pow -> 0 < beta -> 0 < delta -> 0 < old ->
  chance beta delta old < 1 -> mh_call t pow beta delta old < 1).
Proof.
  intros H. set (old := bpow radix2 60). assert (Ho : 0 < old) by apply bpow_gt_0.
  assert (Hb : 0 < 1000000) by lra. assert (Hd : 0 < 1) by lra.
  specialize (H Float64 (best_pow Float64) 1000000 1 old (best_correct _) Hb Hd Ho (below_chance Hb Hd Ho)).
  rewrite mh_small in H; [lra|apply correct_faithful, best_correct|auto|].
  unfold old, Rdiv. rewrite Rmult_1_l, <- bpow_opp. apply bpow_lt. reflexivity.
Qed.
Print Assumptions C74_increases_rejected_refuted.

(** Missing: that every move can be kept. The exact probability is positive; the computed
    one can underflow to 0. *)
Theorem C74_positive_refuted : ~ (forall t pow beta delta old, correct_pow t pow -> 0 < beta -> 0 < delta -> 0 < old ->
  0 < chance beta delta old -> 0 < mh_call t pow beta delta old).
Proof.
  intros H. specialize (H Float64 (best_pow Float64) 2000 1 1 (best_correct _) ltac:(lra) ltac:(lra) ltac:(lra) (positive_chance _ _ _)).
  rewrite vanished in H. lra.
Qed.
Print Assumptions C74_positive_refuted.
