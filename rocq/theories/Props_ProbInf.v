(** C76: what the acceptance rules do when a cost overflows. *)
From Coq Require Import List ZArith Reals Lra.
From Verif Require Import M_Base M_Bitset M_Tree M_CTree M_Cost M_Opt M_InfMem M_FinWidth M_Float M_FinFloat S_Tree S_Opt S_Float S_FinWidth S_FinFloat P_Approx.
From Verif Require Import P_OverflowMain P_OverflowFinMain Props_Float Props_FinFloat Props_Overflow Props_OverflowFin.
From Verif Require Import M_Base M_Overflow M_OverflowFin S_Overflow S_OverflowFin M_ProbFloat S_ProbFloat P_ProbFloat M_ProbInf S_ProbInf P_ProbInf.
Set Implicit Arguments.
Local Open Scope R_scope.

(** ** With a positive beta and a drawn number that is not 0, no rule keeps a move whose
    increase is infinite, or not a number, whatever the current cost *)
Theorem C76_infinite_increases_are_refused : forall L, ieee L -> forall beta draw d t, 0 < beta -> 0 < draw ->
  d = PInf \/ d = NaN -> greedy_rule draw d t = false /\ mh_rule L beta draw d t = false.
Proof. exact c76_refuse. Qed.
Print Assumptions C76_infinite_increases_are_refused.
(** So the rules of the code are those that keep contraction costs finite in C70. *)
Theorem C76_rules_refuse : forall L, ieee L -> forall (R : Type) (rd : xrand R) draw beta, 0 < beta ->
  greedy_with rd draw \/ mh_with L beta rd draw -> refuses rd.
Proof. exact c76_rules. Qed.
Print Assumptions C76_rules_refuse.
Theorem C76_fw_rules_refuse : forall L, ieee L -> forall (R : Type) (fr : xfrand R) draw beta, 0 < beta ->
  greedy_with (xf_base fr) draw \/ mh_with L beta (xf_base fr) draw -> xrefuses fr.
Proof. exact c76_fw_rules. Qed.
Print Assumptions C76_fw_rules_refuse.

(** ** Sessions: if every update is greedy, or Metropolis-Hastings with a positive beta, and no
    drawn number is 0, then the cost of every contraction is a finite number *)
Theorem C76_contractions_stay_finite : forall L, ieee L -> forall xa q kp, range_ok xa -> (1 <= q)%nat -> accurate q kp (xr xa) ->
  forall (R : Type) c m (r : R) ds mc s0 rds s,
  well_formed (nodes c) -> cmodel_ok m (n_inds c) -> projs_fit xa m -> x_make xa c m r ds mc = Ok s0 -> x_run xa rds s0 = Ok s ->
  (forall rd, In rd rds -> exists draw beta, 0 < beta /\ (greedy_with rd draw \/ mh_with L beta rd draw)) ->
  forall v a b p, nth_error (nodes (xs_ct s)) v = Some (mkNode (Some a) (Some b) p) ->
  exists z, (z <= xmax xa)%Z /\ approx q (2 * (n_inds c + kp + 1)) z (step_cost m (xs_ct s) (n_inds c) no_slices a b).
Proof.
  intros L I xa q kp RO Hq Hac R c m r ds mc s0 rds s W Hm Hp H Hr Hu. apply (c70_steps RO Hq Hac W Hm Hp H Hr).
  intros rd Hi. destruct (Hu rd Hi) as (draw & beta & B & Hb). exact (c76_rules I B Hb).
Qed.
Print Assumptions C76_contractions_stay_finite.
Theorem C76_fw_contractions_stay_finite : forall L, ieee L -> forall xa wa, range_ok xa ->
  forall (R : Type) (fr : xfrand R) c m maxnew r ds skip mc sl msl s0,
  xfw_built xa wa fr c m maxnew r ds skip mc sl msl s0 ->
  forall q kp, (1 <= q)%nat -> accurate q kp (xr xa) ->
  forall us s, all_xshuffle us -> xf_run xa wa us s0 = Ok s ->
  (forall f u, In (f, u) us -> exists draw beta, 0 < beta /\ (greedy_with (xf_base f) draw \/ mh_with L beta (xf_base f) draw)) ->
  forall v a b p, nth_error (nodes (xf_ct s)) v = Some (mkNode (Some a) (Some b) p) ->
  exists z, (z <= xmax xa)%Z /\
    approx q (2 * (n_inds c + kp + 1)) z (step_cost (fm_cm m) (xf_ct s) (n_inds c) (mem (xf_sl s)) a b).
Proof.
  intros L I xa wa RO R fr c m maxnew r ds skip mc sl msl s0 HB q kp Hq Hac us s Hsh Hr Hu. apply (c70f_steps RO HB Hq Hac Hsh); [|exact Hr].
  apply Forall_forall. intros [f u] Hi. destruct (Hu f u Hi) as (draw & beta & B & Hb). exact (c76_fw_rules I B Hb).
Qed.
Print Assumptions C76_fw_contractions_stay_finite.

(** ** Both keep what does not increase the cost, from an infinite cost to a finite one also *)
Theorem C76_decreases_are_kept : forall L beta draw d t, draw <= 1 ->
  d = MInf \/ (exists z, d = Fin z /\ (z <= 0)%Z) -> greedy_rule draw d t = true /\ mh_rule L beta draw d t = true.
Proof. exact c76_lower. Qed.
Print Assumptions C76_decreases_are_kept.

(** ** When the current cost is infinite, Metropolis-Hastings keeps every move with a finite
    difference, at every temperature *)
Theorem C76_from_an_infinite_cost : forall L, ieee L -> forall beta draw z, draw <= 1 -> mh_rule L beta draw (Fin z) PInf = true.
Proof. exact c76_from_infinity. Qed.
Print Assumptions C76_from_an_infinite_cost.

(** ** With beta = 0 Metropolis-Hastings keeps everything, NaN also *)
Theorem C76_beta_zero : forall L, ieee L -> forall draw d t, draw <= 1 -> mh_rule L 0 draw d t = true.
Proof. exact c76_beta0. Qed.
Print Assumptions C76_beta_zero.

(** ** The cost types of C74 are instances, and on finite costs the rule is that of C74 *)
Theorem C76_cost_types : forall t pow, faithful_pow t pow -> ieee (float_lib t pow).
Proof. exact float_ieee. Qed.
Print Assumptions C76_cost_types.
Theorem C76_finite_costs : forall t pow beta draw z w, faithful_pow t pow -> (0 < w)%Z ->
  mh_rule (float_lib t pow) beta draw (Fin z) (Fin w) = mh_keeps t pow beta (IZR z) (IZR w) draw.
Proof. exact float_finite. Qed.
Print Assumptions C76_finite_costs.
(** There is such a pow for each of them. *)
Example C76_float_types : forall t, ieee (float_lib t (best_pow t)).
Proof. intros t. apply C76_cost_types, correct_faithful, best_correct. Qed.

(** A library: exact arithmetic on finite numbers. *)
Definition exact_lib : lib := mkLib XR (fun x y =>
  if Req_EM_T y 0 then XR 1 else
  match x with
  | XR a => XR (Rpower a y)
  | XNan => XNan
  | XPos | XNeg => if Rlt_dec y 0 then XR 0 else XPos
  end).
Example exact_ieee : ieee exact_lib.
Proof.
  constructor; cbn; auto.
  - intros x. destruct (Req_EM_T 0 0); [auto|lra].
  - intros y. destruct (Req_EM_T y 0); auto. unfold Rpower. rewrite ln_1, Rmult_0_r, exp_0. auto.
  - intros y H. destruct (Req_EM_T y 0); [lra|auto].
  - intros y H. destruct (Req_EM_T y 0); [lra|]. destruct (Rlt_dec y 0); [auto|lra].
  - intros y H. destruct (Req_EM_T y 0); [lra|]. destruct (Rlt_dec y 0); [auto|lra].
Qed.
(** An increase by the current cost is kept with probability 1/2 if beta is 1; an infinite
    one is not. *)
Example C76_applies : ieee exact_lib /\ mh_rule exact_lib 1 (1/4) (Fin 3) (Fin 3) = true /\ mh_rule exact_lib 1 (3/4) (Fin 3) (Fin 3) = false /\
  mh_rule exact_lib 1 (1/4) PInf (Fin 3) = false /\
  exists rd : xrand nat, mh_with exact_lib 1 rd (fun _ => 1/4).
Proof.
  split; [exact exact_ieee|].
  assert (E : emh exact_lib 1 (of_cost (Fin 3)) (of_cost (Fin 3)) = XR (1/2)).
  { unfold emh. cbn. destruct (Rle_dec 3 0); [lra|]. destruct (Req_EM_T 3 0); [lra|]. cbn. destruct (Req_EM_T (- (1)) 0); [lra|]. f_equal. rewrite Rpower_Ropp, Rpower_1; lra. }
  unfold mh_rule at 1 2. rewrite E. cbn [keeps]. split; [destruct (Rle_dec (1/4) (1/2)); [auto|lra]|]. split; [destruct (Rle_dec (3/4) (1/2)); [lra|auto]|].
  split; [apply (@C76_infinite_increases_are_refused exact_lib exact_ieee 1 (1/4) PInf (Fin 3)); auto; lra|].
  exists (mkXRand (fun r => (r, r)) (fun r d t => (mh_rule exact_lib 1 (1/4) d t, r))). split; [intros; lra|auto].
Qed.

(** The session of C70_fw_greedy_applies, which meets moves to infinite costs. *)
Example C76_sessions_apply : forall f u, In (f, u) (repeat (of_gr, true) 7) ->
  exists draw beta, 0 < beta /\ (greedy_with (xf_base f) draw \/ mh_with exact_lib beta (xf_base f) draw).
Proof.
  intros f u Hi. apply repeat_spec in Hi. injection Hi as -> _. exists (fun _ => 1/2), 1. split; [lra|]. left. split; [intros; lra|].
  intros r d t. unfold greedy_rule, egreedy. cbn [of_gr xf_base xaccept fst]. destruct d as [z| | |]; cbn [of_cost at_most_0 xgreedy keeps].
  - destruct (Rle_dec (IZR z) 0) as [A|A]; cbn [keeps].
    + destruct (Rle_dec (1/2) 1); [|lra]. apply Z.leb_le. apply le_IZR. exact A.
    + destruct (Rle_dec (1/2) 0); [lra|]. apply Z.leb_gt. apply lt_IZR. lra.
  - destruct (Rle_dec (1/2) 0); [lra|auto].
  - destruct (Rle_dec (1/2) 1); [auto|lra].
  - destruct (Rle_dec (1/2) 0); [lra|auto].
Qed.

(** ** False in general: a drawn number can be 0, and then either rule keeps an infinite
    increase, as uniform(prng) <= 0 holds *)
Theorem C76_every_draw_refuted : forall L, ieee L -> ~ (forall beta draw d t, 0 < beta -> 0 <= draw -> draw < 1 ->
  d = PInf \/ d = NaN -> greedy_rule draw d t = false /\ mh_rule L beta draw d t = false).
Proof.
  intros L I H. destruct (H 1 0 PInf (Fin 1)) as (A & _); try lra; auto. destruct (c76_draw0 I (beta := 1) (z := 1) ltac:(lra) ltac:(reflexivity)) as (B & _). congruence.
Qed.
Print Assumptions C76_every_draw_refuted.
