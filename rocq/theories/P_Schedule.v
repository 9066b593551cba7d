(** Proofs about the temperatures of a run: arithmetic of floats. *)
From Coq Require Import QArith Qpower Qabs Qround ZArith Bool List Lia Lqa.
From Verif Require Import M_Base M_Fixed M_App M_Schedule S_Fixed S_Schedule P_Base P_Fixed P_FixedMain P_FixedConv.
Import ListNotations.
Set Implicit Arguments. Unset Strict Implicit.
Local Open Scope Z_scope.

(** [r] is the float of the exact result [q]. *)
Definition rounds (q : Q) (r : num) : Prop :=
  exists y, nearest double q y /\
    ((exists s, r = Inf s /\ (pow2 1024 <= pm s y)%Q) \/ finite r = true /\ (val r == y)%Q /\ (Qabs y < pow2 1024)%Q).

Lemma rounds_eq q q' r : (q == q')%Q -> rounds q r -> rounds q' r.
Proof. intros E (y & N & H). exists y. split; [|exact H]. eapply nearest_eq; [exact E | reflexivity | exact N]. Qed.

Lemma double_fits x : is_double x -> finite x = true -> fits double (val x) /\ (Qabs (val x) < pow2 1024)%Q.
Proof.
  intros D F. destruct x as [|s|s|s m e]; try discriminate.
  - split; [apply fits_zero; simpl; lia|]. simpl. unfold Qabs. simpl. pose proof (pow2_pos 1024). exact H.
  - destruct D as (O & B & L & H). split.
    + exists (signed s (Zpos m)), e. split; [|split; [exact L|apply signed_val]]. destruct s; simpl signed; simpl prec; lia.
    + assert (A : (Qabs (val (Num s m e)) == inject_Z (Zpos m) * pow2 e)%Q).
      { rewrite signed_val. rewrite Qabs_Qmult, (Qabs_pos (pow2 e)) by (apply Qlt_le_weak, pow2_pos).
        destruct s; simpl signed; reflexivity. }
      rewrite A. pose proof (Z.log2_spec (Zpos m) ltac:(lia)) as [_ U].
      assert (X : (inject_Z (Zpos m) < pow2 (Z.succ (Z.log2 (Zpos m))))%Q).
      { rewrite pow2_Z by (pose proof (Z.log2_nonneg (Zpos m)); lia). rewrite <- Zlt_Qlt. exact U. }
      apply Qlt_le_trans with (pow2 (Z.succ (Z.log2 (Zpos m))) * pow2 e)%Q.
      * apply Qmult_lt_compat_r; [apply pow2_pos|exact X].
      * rewrite <- pow2_add. apply pow2_le. lia.
Qed.

Lemma rounds_self x q : is_double x -> finite x = true -> (q == val x)%Q -> rounds q x.
Proof.
  intros D F E. destruct (double_fits D F) as [A B]. exists (val x). split.
  - eapply nearest_eq; [symmetry; exact E|reflexivity|apply nearest_self; exact A].
  - right. split; [exact F|]. split; [reflexivity|exact B].
Qed.

Lemma round_rounds s n d e : rounds (pm s (inject_Z (Zpos n) / inject_Z (Zpos d) * pow2 e)) (round double s n d e).
Proof.
  destruct (@round_spec double s n d e double_proper) as (y & N & Y0 & H). exists (pm s y). split.
  - destruct s; [apply nearest_opp|]; exact N.
  - destruct H as [[O E]|(O & F & V)].
    + left. exists s. split; [exact E|]. rewrite overflows_double in O. destruct s; cbn [pm]; [rewrite Qopp_involutive|]; exact O.
    + right. split; [exact F|]. split; [exact V|]. rewrite overflows_double in O.
      assert (Qabs y < pow2 1024)%Q by (rewrite Qabs_pos by exact Y0; lra). destruct s; cbn [pm]; [rewrite Qabs_opp|]; assumption.
Qed.

Lemma opposite_double x : is_double x -> is_double (opposite x). Proof. destruct x; auto. Qed.

Lemma dadd_ok x y : is_double x -> is_double y -> finite x = true -> finite y = true -> rounds (val x + val y) (dadd x y).
Proof.
  intros Dx Dy Fx Fy. destruct x as [|s|s|s m e], y as [|s'|s'|s' m' e']; try discriminate.
  - simpl. destruct (Bool.eqb s s'); apply rounds_self; simpl; auto; reflexivity.
  - unfold dadd. apply rounds_self; auto. simpl. ring.
  - unfold dadd. apply rounds_self; auto. simpl. ring.
  - unfold dadd. set (g := Z.min e e').
    assert (E : (inject_Z (signed s (Zpos m * 2 ^ (e - g)) + signed s' (Zpos m' * 2 ^ (e' - g))) * pow2 g == val (Num s m e) + val (Num s' m' e'))%Q).
    { rewrite inject_Z_plus, Qmult_plus_distr_l, !scaled by (unfold g; lia). reflexivity. }
    destruct (signed s (Zpos m * 2 ^ (e - g)) + signed s' (Zpos m' * 2 ^ (e' - g))) as [|k|k].
    + apply rounds_self; simpl; auto. rewrite <- E. change (inject_Z 0) with 0%Q. ring.
    + eapply rounds_eq; [|apply round_rounds]. rewrite <- E. cbn [pm]. change (inject_Z 1) with 1%Q. field.
    + eapply rounds_eq; [|apply round_rounds]. rewrite <- E. cbn [pm]. change (inject_Z 1) with 1%Q. change (Z.neg k) with (- Z.pos k). rewrite inject_Z_opp. field.
Qed.

Lemma dsub_ok x y : is_double x -> is_double y -> finite x = true -> finite y = true -> rounds (val x - val y) (dsub x y).
Proof.
  intros Dx Dy Fx Fy. unfold dsub. eapply rounds_eq; [|apply dadd_ok; auto using opposite_double; rewrite opposite_finite; auto].
  rewrite opposite_val. reflexivity.
Qed.

Lemma dmul_ok x y : finite x = true -> finite y = true -> rounds (val x * val y) (dmul x y).
Proof.
  intros Fx Fy. destruct x as [|s|s|s m e], y as [|s'|s'|s' m' e']; try discriminate.
  - apply rounds_self; simpl; auto; reflexivity.
  - apply rounds_self; simpl; auto. ring.
  - apply rounds_self; simpl; auto. ring.
  - unfold dmul. eapply rounds_eq; [|apply round_rounds]. rewrite !signed_val. simpl sign.
    rewrite Pos2Z.inj_mul, inject_Z_mult, pow2_add. change (inject_Z 1) with 1%Q.
    destruct s, s'; cbn [xorb pm signed]; rewrite ?inject_Z_opp; field.
Qed.

Lemma ddiv_ok x y : finite x = true -> finite y = true -> ~ (val y == 0)%Q -> rounds (val x / val y) (ddiv x y).
Proof.
  intros Fx Fy Ny0. destruct x as [|s|s|s m e], y as [|s'|s'|s' m' e']; try discriminate; try (exfalso; apply Ny0; reflexivity).
  - apply rounds_self; simpl; auto. unfold Qdiv. ring.
  - unfold ddiv. eapply rounds_eq; [|apply round_rounds]. rewrite !signed_val. simpl sign.
    assert (M0 : ~ (inject_Z (Zpos m') == 0)%Q) by (intros H; discriminate H).
    assert (X : (pow2 (e - e') * pow2 e' == pow2 e)%Q) by (rewrite <- pow2_add; replace (e - e' + e') with e by lia; reflexivity).
    pose proof (@pow2_neq e') as P0.
    rewrite <- X. destruct s, s'; cbn [xorb pm signed]; rewrite ?inject_Z_opp; field; auto.
Qed.

(** Results are floats. *)
Lemma round_double s n d e : is_double (round double s n d e).
Proof.
  destruct (@round_spec double s n d e double_proper) as (y & N & Y0 & [[O E]|(O & F & V)]); [rewrite E; exact I|].
  apply double_is_double; [apply round_canon|exact F| |].
  - eapply fits_eq; [symmetry; exact V|]. destruct s; [apply fits_opp|]; apply N.
  - rewrite V. rewrite overflows_double in O. assert (B : (Qabs y < pow2 1024)%Q) by (rewrite Qabs_pos by exact Y0; lra).
    destruct s; cbn [pm]; [rewrite Qabs_opp|]; exact B.
Qed.
Lemma dadd_double x y : is_double x -> is_double y -> is_double (dadd x y).
Proof.
  intros Dx Dy. destruct x as [|s|s|s m e], y as [|s'|s'|s' m' e']; try exact I; auto.
  - simpl. destruct (Bool.eqb s s'); exact I.
  - simpl. destruct (Bool.eqb s s'); exact I.
  - unfold dadd. destruct (_ + _) as [|k|k]; [exact I| |]; apply round_double.
Qed.
Lemma dmul_double x y : is_double (dmul x y).
Proof. destruct x as [|s|s|s m e], y as [|s'|s'|s' m' e']; try exact I; apply round_double. Qed.
Lemma ddiv_double x y : is_double (ddiv x y).
Proof. destruct x as [|s|s|s m e], y as [|s'|s'|s' m' e']; try exact I; apply round_double. Qed.

Lemma fits_int z : Z.abs z <= 2 ^ 53 -> fits double (inject_Z z).
Proof.
  intros H. destruct (Z.eq_dec (Z.abs z) (2 ^ 53)) as [E|E].
  - exists (Z.sgn z), 53. split; [simpl prec; lia|]. split; [unfold low_ok; simpl; lia|]. rewrite pow2_Z by lia. rewrite <- inject_Z_mult.
    replace (Z.sgn z * 2 ^ 53) with z by lia. reflexivity.
  - exists z, 0. split; [simpl prec; lia|]. split; [unfold low_ok; simpl; lia|]. rewrite pow2_0. ring.
Qed.

Lemma of_nat_ok n : Z.of_nat n <= 2 ^ 53 -> finite (of_nat n) = true /\ (val (of_nat n) == inject_Z (Z.of_nat n))%Q /\ is_double (of_nat n).
Proof.
  intros H. unfold of_nat. destruct (Z.of_nat n) as [|k|k] eqn:E; [repeat split; reflexivity| |lia].
  assert (F : fits double (inject_Z (Zpos k))) by (apply fits_int; lia).
  destruct (@round_rounds false k 1%positive 0) as (y & N & R). cbn [pm] in *.
  assert (Y : (y == inject_Z (Zpos k))%Q).
  { eapply (nearest_unique (f := double)); [simpl; lia| |exact N|apply nearest_self; exact F].
    change (inject_Z 1) with 1%Q. rewrite pow2_0. field. }
  destruct R as [(s & Es & O)|(Fr & V & B)].
  - exfalso. assert (inject_Z (Zpos k) <= inject_Z (2 ^ 53))%Q by (rewrite <- Zle_Qle; lia). rewrite <- pow2_Z in H0 by lia.
    pose proof (@pow2_lt 53 1024 ltac:(lia)). pose proof (pow2_pos 1024). assert (0 < inject_Z (Zpos k))%Q by reflexivity. destruct s; cbn [pm] in O; lra.
  - split; [exact Fr|]. split; [rewrite V; exact Y|apply round_double].
Qed.

(** * Relative error of rounding *)
Lemma exponent_of (x : Q) : (0 < x)%Q -> exists E, (pow2 E <= x < pow2 (E + 1))%Q.
Proof.
  intros H. destruct x as [n d]. destruct n as [|n|n]; try (unfold Qlt in H; simpl in H; lia).
  pose proof (exponent_ok n d) as X. simpl in X.
  exists (if Z.pos d * 2 ^ Z.max 0 (Z.log2 (Z.pos n) - Z.log2 (Z.pos d)) <=? Z.pos n * 2 ^ Z.max 0 (- (Z.log2 (Z.pos n) - Z.log2 (Z.pos d))) then Z.log2 (Z.pos n) - Z.log2 (Z.pos d) else Z.log2 (Z.pos n) - Z.log2 (Z.pos d) - 1).
  assert (E : (inject_Z (Z.pos n) / inject_Z (Z.pos d) == Z.pos n # d)%Q) by (symmetry; apply Qmake_Qdiv).
  rewrite <- E. exact X.
Qed.

Lemma nearest_error x y : nearest double x y -> (pow2 (-1022) <= Qabs x)%Q -> (Qabs (y - x) <= pow2 (-53) * Qabs x)%Q.
Proof.
  assert (P : forall x y, nearest double x y -> (0 < x)%Q -> (pow2 (-1022) <= x)%Q -> (Qabs (y - x) <= pow2 (-53) * x)%Q).
  { clear x y. intros x y N X0 X. destruct (exponent_of X0) as (E & L & U).
    assert (E0 : -1022 <= E) by (assert (pow2 (-1022) < pow2 (E + 1))%Q by lra; apply pow2_lt_inv in H; lia).
    set (T := E - 52). set (q := Qfloor (x / pow2 T)).
    pose proof (pow2_pos T) as T0. pose proof (@pow2_neq T) as T1.
    assert (Ex : (x == x / pow2 T * pow2 T)%Q) by (field; auto).
    assert (Q0 : (inject_Z q <= x / pow2 T)%Q) by apply Qfloor_le.
    assert (Q1 : (x / pow2 T < inject_Z (q + 1))%Q) by apply Qlt_floor.
    assert (L1 : (inject_Z q * pow2 T <= x)%Q) by (rewrite Ex at 1; apply Qmult_le_compat_r; lra).
    assert (U1 : (x < inject_Z (q + 1) * pow2 T)%Q) by (rewrite Ex at 1; apply Qmult_lt_compat_r; lra).
    assert (S52 : (pow2 E == inject_Z (2 ^ 52) * pow2 T)%Q) by (rewrite <- pow2_Z, <- pow2_add by lia; unfold T; replace (52 + (E - 52)) with E by lia; reflexivity).
    assert (S53 : (pow2 (E + 1) == inject_Z (2 ^ 53) * pow2 T)%Q) by (rewrite <- pow2_Z, <- pow2_add by lia; unfold T; replace (53 + (E - 52)) with (E + 1) by lia; reflexivity).
    assert (q < 2 ^ 53).
    { apply Z.lt_nge. intros C. assert (inject_Z (2 ^ 53) * pow2 T <= inject_Z q * pow2 T)%Q by (apply Qmult_le_compat_r; [rewrite <- Zle_Qle; exact C|lra]). lra. }
    assert (2 ^ 52 < q + 1).
    { apply Z.lt_nge. intros C. assert (inject_Z (q + 1) * pow2 T <= inject_Z (2 ^ 52) * pow2 T)%Q by (apply Qmult_le_compat_r; [rewrite <- Zle_Qle; exact C|lra]). lra. }
    assert (F0 : fits double (inject_Z q * pow2 T)) by (exists q, T; split; [simpl prec; lia|]; split; [unfold low_ok; simpl; unfold T; lia|reflexivity]).
    assert (F1 : fits double (inject_Z (q + 1) * pow2 T)).
    { destruct (Z.eq_dec (q + 1) (2 ^ 53)) as [C|C].
      - exists 1, (E + 1). split; [simpl prec; lia|]. split; [unfold low_ok; simpl; lia|]. rewrite C, S53. change (inject_Z 1) with 1%Q. ring.
      - exists (q + 1), T. split; [simpl prec; lia|]. split; [unfold low_ok; simpl; unfold T; lia|reflexivity]. }
    destruct N as (_ & N & _). pose proof (N _ F0) as A. pose proof (N _ F1) as B.
    rewrite inject_Z_plus in *. change (inject_Z 1) with 1%Q in *.
    assert (HT : (pow2 T == 2 * (pow2 (-53) * pow2 E))%Q).
    { rewrite <- pow2_add. change 2%Q with (pow2 1). rewrite <- pow2_add. unfold T. replace (1 + (-53 + E)) with (E - 52) by lia. reflexivity. }
    assert (R : (pow2 (-53) * pow2 E <= pow2 (-53) * x)%Q).
    { rewrite (Qmult_comm _ (pow2 E)), (Qmult_comm _ x). apply Qmult_le_compat_r; [exact L|apply Qlt_le_weak, pow2_pos]. }
    assert (S1 : (Qabs (y - x) == Qabs (x - y))%Q) by (rewrite Qabs_Qminus; reflexivity).
    rewrite S1. rewrite (Qabs_pos (x - inject_Z q * pow2 T)) in A by lra.
    rewrite (Qabs_neg (x - (inject_Z q + 1) * pow2 T)) in B by lra. lra. }
  intros N X. pose proof (pow2_pos (-1022)) as P0. destruct (Qabs_cases x) as [[A B]|[A B]]; rewrite B in *.
  - apply P; auto; lra.
  - assert (E : (Qabs (y - x) == Qabs (- y - - x))%Q) by (rewrite <- Qabs_opp; apply Qabs_wd; ring). rewrite E.
    apply P; [apply nearest_opp; exact N|lra|lra].
Qed.

(** ... of sums. *)
Lemma fits_unit x : fits double x -> exists j, (x == inject_Z j * pow2 (-1074))%Q.
Proof. intros (m & e & _ & L & E). unfold low_ok in L. simpl in L. destruct (@unit_multiple m e (-1074) L) as (j & J). exists j. rewrite E. exact J. Qed.

Lemma sum_error a b y : fits double a -> fits double b -> nearest double (a + b) y -> (Qabs (y - (a + b)) <= pow2 (-53) * Qabs (a + b))%Q.
Proof.
  intros A B N. destruct (Qlt_le_dec (Qabs (a + b)) (pow2 (-1022))) as [S|S]; [|apply nearest_error; auto].
  assert (F : fits double (a + b)).
  { destruct (fits_unit A) as (i & I). destruct (fits_unit B) as (j & J).
    assert (X : (a + b == inject_Z (i + j) * pow2 (-1074))%Q) by (rewrite I, J, inject_Z_plus; ring).
    exists (i + j), (-1074). split; [|split; [unfold low_ok; simpl; lia|exact X]].
    rewrite X in S. rewrite Qabs_Qmult, (Qabs_pos (pow2 (-1074))) in S by (apply Qlt_le_weak, pow2_pos).
    apply Z.lt_nge. intros C. simpl prec in C.
    assert (D : (inject_Z (2 ^ 53) * pow2 (-1074) <= Qabs (inject_Z (i + j)) * pow2 (-1074))%Q).
    { apply Qmult_le_compat_r; [|apply Qlt_le_weak, pow2_pos]. change (Qabs (inject_Z (i + j))) with (inject_Z (Z.abs (i + j))). rewrite <- Zle_Qle. exact C. }
    rewrite <- pow2_Z, <- pow2_add in D by lia. pose proof (@pow2_lt (-1022) (53 + -1074) ltac:(lia)). lra. }
  assert (E : (y == a + b)%Q) by (eapply (nearest_unique (f := double)); [simpl; lia|reflexivity|exact N|apply nearest_self; exact F]).
  rewrite E. assert (Z0 : (a + b - (a + b) == 0)%Q) by ring. rewrite Z0. change (Qabs 0) with 0%Q.
  apply Qmult_le_0_compat; [apply Qlt_le_weak, pow2_pos|apply Qabs_nonneg].
Qed.
