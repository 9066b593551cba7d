(** C76: acceptance rules and infinite costs. *)
From Coq Require Import ZArith Reals Lra.
From Verif Require Import M_Base M_Overflow M_OverflowFin S_Overflow S_OverflowFin M_ProbFloat S_ProbFloat P_ProbFloat M_ProbInf S_ProbInf.
Set Implicit Arguments.
Unset Strict Implicit.
Local Open Scope R_scope.

Section Lib.
Variable L : lib.
Hypothesis I : ieee L.

(** Infinite increases, and differences that are NaN *)
Lemma emh_inf beta d t : 0 < beta -> d = PInf \/ d = NaN -> emh L beta (of_cost d) (of_cost t) = XR 0 \/ emh L beta (of_cost d) (of_cost t) = XNan.
Proof.
  intros B H. unfold emh.
  assert (A : at_most_0 (of_cost d) = false) by (destruct H as [-> | ->]; reflexivity). rewrite A.
  assert (E : let q := eadd1 L (ediv L (of_cost d) (of_cost t)) in q = XPos \/ q = XNeg \/ q = XNan).
  { destruct H as [-> | ->], t as [z| | |]; cbn [of_cost ediv eadd1]; auto. destruct (Rlt_dec (IZR z) 0); cbn [eadd1]; auto. }
  cbv zeta in E. destruct E as [-> | [-> | ->]]; [rewrite (i_pos I) by lra|rewrite (i_neg I) by lra|rewrite (i_nan I) by lra; auto]; rewrite (i_0 I); auto.
Qed.
Lemma mh_refuses beta draw d t : 0 < beta -> 0 < draw -> d = PInf \/ d = NaN -> mh_rule L beta draw d t = false.
Proof.
  intros B D H. unfold mh_rule. destruct (emh_inf t B H) as [-> | ->]; cbn; auto. destruct (Rle_dec draw 0); auto; lra.
Qed.
Lemma greedy_refuses draw d t : 0 < draw -> d = PInf \/ d = NaN -> greedy_rule draw d t = false.
Proof. intros D [-> | ->]; unfold greedy_rule; cbn; destruct (Rle_dec draw 0); auto; lra. Qed.

Lemma c76_refuse beta draw d t : 0 < beta -> 0 < draw -> d = PInf \/ d = NaN -> greedy_rule draw d t = false /\ mh_rule L beta draw d t = false.
Proof. intros B D H. split; [apply greedy_refuses; auto|apply mh_refuses; auto]. Qed.

(** What does not increase the cost *)
Lemma c76_lower beta draw d t : draw <= 1 -> d = MInf \/ (exists z, d = Fin z /\ (z <= 0)%Z) -> greedy_rule draw d t = true /\ mh_rule L beta draw d t = true.
Proof.
  intros D H. assert (A : at_most_0 (of_cost d) = true).
  { destruct H as [-> |(z & -> & Hz)]; cbn; auto. destruct (Rle_dec (IZR z) 0) as [|n]; auto. exfalso. apply n. apply IZR_le. exact Hz. }
  unfold greedy_rule, mh_rule, emh, egreedy. rewrite A. cbn. destruct (Rle_dec draw 1); auto; lra.
Qed.

(** An infinite current cost *)
Lemma c76_from_infinity beta draw z : draw <= 1 -> mh_rule L beta draw (Fin z) PInf = true.
Proof.
  intros D. unfold mh_rule, emh. cbn. destruct (Rle_dec (IZR z) 0); cbn.
  - destruct (Rle_dec draw 1); auto; lra.
  - rewrite Rplus_0_r, (i_1 I). cbn. rewrite (i_pow1 I), (i_1 I). cbn. destruct (Rle_dec draw 1); auto; lra.
Qed.

(** beta = 0; a draw of 0 *)
Lemma c76_beta0 draw d t : draw <= 1 -> mh_rule L 0 draw d t = true.
Proof.
  intros D. unfold mh_rule, emh. destruct (at_most_0 (of_cost d)); cbn; [destruct (Rle_dec draw 1); auto; lra|]. rewrite Ropp_0, (i_pow0 I), (i_1 I). cbn. destruct (Rle_dec draw 1); auto; lra.
Qed.
Lemma c76_draw0 beta z : 0 < beta -> (0 < z)%Z -> greedy_rule 0 PInf (Fin z) = true /\ mh_rule L beta 0 PInf (Fin z) = true.
Proof.
  intros B Z. unfold greedy_rule, mh_rule, emh. cbn. assert (IZR z > 0) by (apply (IZR_lt 0); exact Z). destruct (Rlt_dec (IZR z) 0); [lra|]. cbn. rewrite (i_pos I), (i_0 I) by lra. cbn.
  destruct (Rle_dec 0 0); auto; lra.
Qed.

Lemma c76_rules (R : Type) (rd : xrand R) draw beta : 0 < beta -> greedy_with rd draw \/ mh_with L beta rd draw -> refuses rd.
Proof. intros B [(H1 & H2)|(H1 & H2)] r t; rewrite H2; [apply greedy_refuses|apply mh_refuses]; auto. Qed.
Lemma c76_fw_rules (R : Type) (fr : xfrand R) draw beta : 0 < beta -> greedy_with (xf_base fr) draw \/ mh_with L beta (xf_base fr) draw -> xrefuses fr.
Proof. intros B [(H1 & H2)|(H1 & H2)] r d t H; rewrite H2; [apply greedy_refuses|apply mh_refuses]; auto. Qed.
End Lib.

(** The cost types of C74 *)
Lemma float_ieee t pow : faithful_pow t pow -> ieee (float_lib t pow).
Proof.
  intros F. constructor; cbn [float_lib l_round l_pow].
  - rewrite rounded_0. auto.
  - rewrite rounded_1. auto.
  - intros x. destruct (Req_EM_T 0 0); [auto|lra].
  - intros y. destruct (Req_EM_T y 0); auto. rewrite (pow_one F); [auto|lra|]. unfold Rpower. rewrite ln_1, Rmult_0_r, exp_0. auto.
  - intros y H. destruct (Req_EM_T y 0); [lra|auto].
  - intros y H. destruct (Req_EM_T y 0); [lra|]. destruct (Rlt_dec y 0); [auto|lra].
  - intros y H. destruct (Req_EM_T y 0); [lra|]. destruct (Rlt_dec y 0); [auto|lra].
Qed.
Lemma float_finite t pow beta draw z w : faithful_pow t pow -> (0 < w)%Z ->
  mh_rule (float_lib t pow) beta draw (Fin z) (Fin w) = mh_keeps t pow beta (IZR z) (IZR w) draw.
Proof.
  intros F Hw. assert (W : 0 < IZR w) by (apply (IZR_lt 0); exact Hw). unfold mh_rule, mh_keeps, emh, mh_call. cbn [of_cost at_most_0].
  destruct (Rle_dec (IZR z) 0) as [|n]; [reflexivity|]. cbn [ediv]. destruct (Req_EM_T (IZR w) 0) as [e|_]; [lra|]. cbn [float_lib l_round l_pow eadd1].
  destruct (Req_EM_T (- beta) 0) as [e|_]; [|reflexivity]. rewrite e. rewrite (pow_one F); [reflexivity| |].
  - pose proof (base_above t (delta := IZR z) (old := IZR w) ltac:(lra) W). lra.
  - apply Rpower_O. pose proof (base_above t (delta := IZR z) (old := IZR w) ltac:(lra) W). lra.
Qed.
