(** Proofs about the temperatures of a run. *)
From Coq Require Import QArith Qpower Qabs Qround ZArith Bool List Lia Lqa.
From Verif Require Import M_Base M_Fixed M_App M_Schedule S_Fixed S_Schedule P_Base P_Fixed P_FixedMain P_FixedConv P_Schedule.
Import ListNotations.
Set Implicit Arguments. Unset Strict Implicit.
Local Open Scope Z_scope.

Lemma abs_le (a b : Q) : (Qabs a <= b)%Q <-> (- b <= a <= b)%Q.
Proof. split; [apply Qabs_Qle_condition|apply Qabs_Qle_condition]. Qed.

Lemma nearest_abs_le x y z : nearest double x y -> fits double z -> (Qabs x <= z)%Q -> (Qabs y <= z)%Q.
Proof.
  intros N F H. rewrite abs_le in *. destruct H as [A B]. split.
  - eapply (nearest_mono (f := double)); [simpl; lia|exact A|apply nearest_self, fits_opp; exact F|exact N].
  - eapply (nearest_mono (f := double)); [simpl; lia|exact B|exact N|apply nearest_self; exact F].
Qed.
Lemma nearest_ge x y z : nearest double x y -> fits double z -> (z <= x)%Q -> (z <= y)%Q.
Proof. intros N F H. eapply (nearest_mono (f := double)); [simpl; lia|exact H|apply nearest_self; exact F|exact N]. Qed.
Lemma nearest_le x y z : nearest double x y -> fits double z -> (x <= z)%Q -> (y <= z)%Q.
Proof. intros N F H. eapply (nearest_mono (f := double)); [simpl; lia|exact H|exact N|apply nearest_self; exact F]. Qed.
Lemma nearest_abs_ge x y z : nearest double x y -> fits double z -> (0 <= z <= Qabs x)%Q -> (z <= Qabs y)%Q.
Proof.
  intros N F [Z0 H]. destruct (Qabs_cases x) as [[A B]|[A B]]; rewrite B in H.
  - apply Qle_trans with y; [apply (nearest_ge N F H)|apply Qle_Qabs].
  - assert (y <= - z)%Q by (apply (nearest_le N); [apply fits_opp; exact F|lra]).
    apply Qle_trans with (- y)%Q; [lra|]. rewrite <- Qabs_opp. apply Qle_Qabs.
Qed.

Lemma fits_abs f x : fits f x -> fits f (Qabs x).
Proof. intros F. destruct (Qabs_cases x) as [[A B]|[A B]]; (eapply fits_eq; [symmetry; exact B|]); auto using fits_opp. Qed.

Lemma rounds_bounded q r z : rounds q r -> double_value z -> (Qabs q <= z)%Q -> finite r = true /\ nearest double q (val r).
Proof.
  intros (y & N & H) [F B] L. pose proof (nearest_abs_le N F L) as Y. destruct H as [(s & E & O)|(Fr & V & _)].
  - exfalso. rewrite abs_le in Y. destruct (Qabs_cases z) as [[C D]|[C D]]; rewrite D in B; destruct s; cbn [pm] in O; lra.
  - split; [exact Fr|]. eapply nearest_eq; [reflexivity|symmetry; exact V|exact N].
Qed.

Lemma rounds_finite q r : rounds q r -> finite r = true -> nearest double q (val r).
Proof. intros (y & N & [(s & E & O)|(Fr & V & _)]) F; [subst; discriminate|]. eapply nearest_eq; [reflexivity|symmetry; exact V|exact N]. Qed.

(** * Errors *)
Definition u : Q := pow2 (-53).
Lemma u_bound : (0 < u /\ 16 * u <= 1)%Q.
Proof.
  split; [apply pow2_pos|]. unfold u. assert (H : (pow2 (-53) <= pow2 (-4))%Q) by (apply pow2_le; lia).
  change (pow2 (-4)) with (1 # 16)%Q in H. lra.
Qed.

Lemma chain (a b i c : Q) : (0 <= c)%Q -> (Qabs (a - b) <= u * Qabs b)%Q -> (Qabs (b - i) <= c * (u * Qabs i))%Q ->
  (Qabs (a - i) <= (1 + c + c * (1 # 16)) * (u * Qabs i))%Q.
Proof.
  intros C A B. destruct u_bound as [U0 U1]. pose proof (Qabs_nonneg i) as I0.
  set (w := (u * Qabs i)%Q) in *. assert (W0 : (0 <= w)%Q) by (apply Qmult_le_0_compat; lra).
  assert (Hb : (Qabs b <= Qabs i + c * w)%Q).
  { assert (E : (Qabs b == Qabs (i + (b - i)))%Q) by (apply Qabs_wd; ring). rewrite E.
    eapply Qle_trans; [apply Qabs_triangle|]. lra. }
  assert (H1 : (u * Qabs b <= w + u * (c * w))%Q).
  { apply Qle_trans with (u * (Qabs i + c * w))%Q.
    - rewrite (Qmult_comm u), (Qmult_comm u (_ + _)). apply Qmult_le_compat_r; lra.
    - unfold w. lra. }
  assert (H2 : (u * (c * w) <= c * (1 # 16) * w)%Q).
  { assert (X : (u * (c * w) <= (1 # 16) * (c * w))%Q) by (apply Qmult_le_compat_r; [lra|apply Qmult_le_0_compat; lra]). lra. }
  assert (E : (Qabs (a - i) == Qabs ((a - b) + (b - i)))%Q) by (apply Qabs_wd; ring). rewrite E.
  eapply Qle_trans; [apply Qabs_triangle|]. lra.
Qed.

Lemma mul_error (k x y : Q) : (0 <= k)%Q -> (Qabs (x - y) <= u * Qabs y)%Q -> (Qabs (k * x - k * y) <= u * Qabs (k * y))%Q.
Proof.
  intros K H. assert (E : (Qabs (k * x - k * y) == k * Qabs (x - y))%Q) by (transitivity (Qabs (k * (x - y))); [apply Qabs_wd; ring|rewrite Qabs_Qmult, (Qabs_pos k K); reflexivity]).
  rewrite E, Qabs_Qmult, (Qabs_pos k K). rewrite Qmult_comm, (Qmult_comm u). rewrite (Qmult_comm k (Qabs y)).
  assert (X : (Qabs (x - y) * k <= u * Qabs y * k)%Q) by (apply Qmult_le_compat_r; lra). lra.
Qed.

Lemma offset_error (n k D d s m : Q) : (0 < n)%Q -> (0 <= k)%Q ->
  (Qabs (d - D) <= u * Qabs D)%Q -> (Qabs (s - d / n) <= u * Qabs (d / n))%Q -> (Qabs (m - k * s) <= u * Qabs (k * s))%Q ->
  (Qabs (k * s - k * (D / n)) <= (33 # 16) * (u * Qabs (k * (D / n))))%Q /\
  (Qabs (m - k * (D / n)) <= 4 * (u * Qabs (k * (D / n))))%Q.
Proof.
  intros N0 K0 E1 E2 E3. set (i := (k * (D / n))%Q).
  assert (A : (Qabs (k * (d / n) - i) <= 1 * (u * Qabs i))%Q).
  { rewrite Qmult_1_l. unfold i. apply mul_error; [exact K0|].
    assert (X : (Qabs (/ n * d - / n * D) <= u * Qabs (/ n * D))%Q) by (apply mul_error; [apply Qlt_le_weak, Qinv_lt_0_compat; exact N0|exact E1]).
    unfold Qdiv. rewrite (Qmult_comm d), (Qmult_comm D). exact X. }
  assert (B : (Qabs (k * s - k * (d / n)) <= u * Qabs (k * (d / n)))%Q) by (apply mul_error; auto).
  assert (C1 : (0 <= 1)%Q) by lra. pose proof (chain C1 B A) as C.
  assert (I0 : (0 <= u * Qabs i)%Q) by (apply Qmult_le_0_compat; [apply Qlt_le_weak, pow2_pos|apply Qabs_nonneg]).
  assert (C' : (Qabs (k * s - i) <= (33 # 16) * (u * Qabs i))%Q) by (eapply Qle_trans; [exact C|]; lra).
  split; [exact C'|]. assert (C2 : (0 <= 33 # 16)%Q) by lra. eapply Qle_trans; [apply (chain C2 E3 C')|]. lra.
Qed.

Lemma total_error (b0 i m v : Q) : (Qabs (m - i) <= 4 * (u * Qabs i))%Q -> (Qabs (v - (b0 + m)) <= u * Qabs (b0 + m))%Q ->
  (Qabs (v - (b0 + i)) <= u * Qabs b0 + 6 * (u * Qabs i))%Q.
Proof.
  intros A B. destruct u_bound as [U0 U1]. pose proof (Qabs_nonneg i) as I0. set (w := (u * Qabs i)%Q) in *.
  assert (W0 : (0 <= w)%Q) by (apply Qmult_le_0_compat; lra).
  assert (M : (Qabs (b0 + m) <= Qabs b0 + Qabs i + 4 * w)%Q).
  { assert (E : (Qabs (b0 + m) == Qabs (b0 + (i + (m - i))))%Q) by (apply Qabs_wd; ring). rewrite E.
    pose proof (Qabs_triangle b0 (i + (m - i))). pose proof (Qabs_triangle i (m - i)). lra. }
  assert (H1 : (u * Qabs (b0 + m) <= u * Qabs b0 + w + u * (4 * w))%Q).
  { apply Qle_trans with (u * (Qabs b0 + Qabs i + 4 * w))%Q.
    - rewrite (Qmult_comm u), (Qmult_comm u (_ + _)). apply Qmult_le_compat_r; lra.
    - unfold w. lra. }
  assert (H2 : (u * (4 * w) <= (1 # 16) * (4 * w))%Q) by (apply Qmult_le_compat_r; lra).
  assert (E : (Qabs (v - (b0 + i)) == Qabs ((v - (b0 + m)) + (m - i)))%Q) by (apply Qabs_wd; ring). rewrite E.
  eapply Qle_trans; [apply Qabs_triangle|]. lra.
Qed.

(** * The steps *)
Lemma qn_pos n : (1 <= n)%nat -> (0 < inject_Z (Z.of_nat n))%Q.
Proof. intros H. change 0%Q with (inject_Z 0). rewrite <- Zlt_Qlt. lia. Qed.
Lemma qn_ge1 n : (1 <= n)%nat -> (1 <= inject_Z (Z.of_nat n))%Q.
Proof. intros H. change 1%Q with (inject_Z 1). rewrite <- Zle_Qle. lia. Qed.
Lemma qn_nonneg n : (0 <= inject_Z (Z.of_nat n))%Q.
Proof. change 0%Q with (inject_Z 0). rewrite <- Zle_Qle. lia. Qed.

Section Steps.
Variables (b0 b1 : num) (n : nat).
Hypotheses (F0 : is_float b0) (F1 : is_float b1) (Hn : (1 <= n)%nat) (Hn53 : Z.of_nat n <= 2 ^ 53)
  (R : usual_range (val b0) (val b1) n).
Let D := (val b1 - val b0)%Q.
Let qn := inject_Z (Z.of_nat n).
Let d := dsub b1 b0.
Let st := ddiv d (of_nat n).
Let V k := dadd b0 (dmul (of_nat k) st).

Lemma q0 : (0 < qn)%Q. Proof. apply qn_pos; exact Hn. Qed.

Lemma dist_ok : finite d = true /\ nearest double D (val d) /\ is_double d.
Proof.
  destruct F0 as [A0 B0], F1 as [A1 B1]. destruct R as [(z & Z0 & Z1) _].
  destruct (rounds_bounded (dsub_ok A1 A0 B1 B0) Z0 Z1) as [A B]. split; [exact A|]. split; [exact B|].
  unfold d, dsub. apply dadd_double; auto using opposite_double.
Qed.

Lemma fits_n1022 : fits double (qn * pow2 (-1022)).
Proof.
  destruct (Z.eq_dec (Z.of_nat n) (2 ^ 53)) as [E|E].
  - exists 1, (53 - 1022). split; [reflexivity|]. split; [unfold low_ok; simpl; lia|]. unfold qn. rewrite E, <- pow2_Z, <- pow2_add by lia.
    change (inject_Z 1) with 1%Q. rewrite Qmult_1_l. reflexivity.
  - exists (Z.of_nat n), (-1022). split; [change (prec double) with 53; lia|]. split; [unfold low_ok; simpl; lia|]. reflexivity.
Qed.
Lemma fits_1022 : fits double (pow2 (-1022)).
Proof. exists 1, (-1022). split; [reflexivity|]. split; [unfold low_ok; simpl; lia|]. change (inject_Z 1) with 1%Q. ring. Qed.

Lemma dn_eq x : (Qabs (x / qn) == Qabs x / qn)%Q.
Proof. unfold Qdiv. rewrite Qabs_Qmult. rewrite (Qabs_pos (/ qn)); [reflexivity|]. apply Qlt_le_weak, Qinv_lt_0_compat, q0. Qed.
Lemma dn_ge x z : (qn * z <= x)%Q -> (z <= x / qn)%Q.
Proof. intros H. apply Qle_shift_div_l; [exact q0|]. rewrite Qmult_comm. exact H. Qed.
Lemma dn_le x : (0 <= x)%Q -> (x / qn <= x)%Q.
Proof.
  intros H. apply Qle_shift_div_r; [exact q0|]. pose proof (qn_ge1 Hn) as Q1. fold qn in Q1.
  assert (X : (1 * x <= qn * x)%Q) by (apply Qmult_le_compat_r; auto). rewrite Qmult_comm. lra.
Qed.

Lemma dist_big : (qn * pow2 (-1022) <= Qabs (val d))%Q.
Proof.
  destruct dist_ok as (_ & N & _). apply (nearest_abs_ge N fits_n1022). split.
  - apply Qmult_le_0_compat; [apply Qlt_le_weak, q0|apply Qlt_le_weak, pow2_pos].
  - apply R.
Qed.

Lemma step_ok : finite st = true /\ nearest double (val d / qn) (val st).
Proof.
  destruct dist_ok as (A & _ & C). destruct (of_nat_ok Hn53) as (E & G & _).
  assert (NZ : ~ (val (of_nat n) == 0)%Q) by (rewrite G; pose proof q0; unfold qn in *; lra).
  pose proof (ddiv_ok A E NZ) as X. apply (rounds_eq (q' := (val d / qn)%Q)) in X; [|unfold qn; rewrite G; reflexivity].
  destruct (double_fits C A) as [Fd Bd].
  apply (rounds_bounded X (z := Qabs (val d))).
  - split; [apply fits_abs; exact Fd|]. rewrite Qabs_pos by apply Qabs_nonneg. exact Bd.
  - rewrite dn_eq. apply dn_le, Qabs_nonneg.
Qed.

Lemma step_big : (pow2 (-1022) <= Qabs (val d / qn))%Q /\ (pow2 (-1022) <= Qabs (val st))%Q.
Proof.
  assert (X : (pow2 (-1022) <= Qabs (val d / qn))%Q) by (rewrite dn_eq; apply dn_ge, dist_big).
  split; [exact X|]. apply (nearest_abs_ge (proj2 step_ok) fits_1022). split; [apply Qlt_le_weak, pow2_pos|exact X].
Qed.

(** The step has the sign of the difference. *)
Lemma step_sign : ((0 < D)%Q -> (0 < val st)%Q) /\ ((D < 0)%Q -> (val st < 0)%Q).
Proof.
  destruct dist_ok as (_ & Nd & _). destruct step_ok as [_ Ns]. pose proof step_big as [_ B]. pose proof (pow2_pos (-1022)) as P.
  assert (Z0 : fits double 0) by (apply fits_zero; simpl; lia).
  assert (I : (0 < / qn)%Q) by (apply Qinv_lt_0_compat, q0).
  split; intros H.
  - assert (A : (0 <= val d)%Q) by (apply (nearest_ge Nd Z0); lra).
    assert (C : (0 <= val st)%Q) by (apply (nearest_ge Ns Z0); unfold Qdiv; apply Qmult_le_0_compat; lra).
    rewrite Qabs_pos in B by exact C. lra.
  - assert (A : (val d <= 0)%Q) by (apply (nearest_le Nd Z0); lra).
    assert (C : (val st <= 0)%Q).
    { apply (nearest_le Ns Z0). unfold Qdiv. assert (X : (val d * / qn <= 0 * / qn)%Q) by (apply Qmult_le_compat_r; lra). lra. }
    rewrite Qabs_neg in B by exact C. lra.
Qed.

Lemma dist_error : (Qabs (val d - D) <= u * Qabs D)%Q.
Proof.
  destruct dist_ok as (_ & N & _). apply nearest_error; [exact N|]. destruct R as [_ L]. fold D qn in L.
  pose proof (qn_ge1 Hn) as Q1. fold qn in Q1. pose proof (pow2_pos (-1022)) as P.
  assert (X : (1 * pow2 (-1022) <= qn * pow2 (-1022))%Q) by (apply Qmult_le_compat_r; lra). lra.
Qed.
Lemma step_error : (Qabs (val st - val d / qn) <= u * Qabs (val d / qn))%Q.
Proof. apply nearest_error; [apply step_ok|apply step_big]. Qed.
Lemma mul_step_error k m : nearest double (inject_Z (Z.of_nat k) * val st) m ->
  (Qabs (m - inject_Z (Z.of_nat k) * val st) <= u * Qabs (inject_Z (Z.of_nat k) * val st))%Q.
Proof.
  intros N. destruct k as [|k].
  - assert (E : (m == 0)%Q).
    { eapply (nearest_unique (f := double)); [simpl; lia| |exact N|apply nearest_self, fits_zero; simpl; lia]. change (inject_Z (Z.of_nat 0)) with 0%Q. ring. }
    rewrite E. change (inject_Z (Z.of_nat 0)) with 0%Q. assert (X : (0 - 0 * val st == 0)%Q) by ring. rewrite X. rewrite Qmult_0_l. change (Qabs 0) with 0%Q. lra.
  - apply nearest_error; [exact N|]. rewrite Qabs_Qmult. rewrite (Qabs_pos (inject_Z _)) by apply qn_nonneg.
    pose proof step_big as [_ B]. pose proof (@qn_ge1 (S k) ltac:(lia)) as K. pose proof (Qabs_nonneg (val st)).
    assert (X : (1 * Qabs (val st) <= inject_Z (Z.of_nat (S k)) * Qabs (val st))%Q) by (apply Qmult_le_compat_r; auto). lra.
Qed.

Lemma ideal_offset k : (k <= n)%nat -> (Qabs (inject_Z (Z.of_nat k) * (D / qn)) <= Qabs D)%Q.
Proof.
  intros H. rewrite Qabs_Qmult, dn_eq, (Qabs_pos (inject_Z _)) by apply qn_nonneg.
  assert (E : (inject_Z (Z.of_nat k) * (Qabs D / qn) == inject_Z (Z.of_nat k) * Qabs D / qn)%Q) by (unfold Qdiv; ring). rewrite E.
  apply Qle_shift_div_r; [exact q0|]. rewrite (Qmult_comm (Qabs D)). apply Qmult_le_compat_r; [|apply Qabs_nonneg]. unfold qn. rewrite <- Zle_Qle. lia.
Qed.

Lemma D_le : (Qabs D <= Qabs (val b0) + Qabs (val b1))%Q.
Proof.
  unfold D. assert (E : (Qabs (val b1 - val b0) == Qabs (val b1 + - val b0))%Q) by reflexivity. rewrite E.
  eapply Qle_trans; [apply Qabs_triangle|]. rewrite Qabs_opp. lra.
Qed.

Lemma resolution_u : (resolution (val b0) (val b1) == 8 * (u * (Qabs (val b0) + Qabs (val b1))))%Q.
Proof.
  unfold resolution. assert (E : (pow2 (-50) == 8 * u)%Q) by (unfold u; change 8%Q with (pow2 3); rewrite <- pow2_add; reflexivity).
  rewrite E. ring.
Qed.

(** Every exact chain of results is near the ideal temperature. *)
Lemma near k m v : (k <= n)%nat -> nearest double (inject_Z (Z.of_nat k) * val st) m -> nearest double (val b0 + m) v ->
  (Qabs (v - ideal (val b0) (val b1) n k) <= resolution (val b0) (val b1))%Q.
Proof.
  intros Hk Nm Nv.
  destruct (offset_error q0 (@qn_nonneg k) dist_error step_error (mul_step_error Nm)) as [_ A].
  assert (B : (Qabs (v - (val b0 + m)) <= u * Qabs (val b0 + m))%Q).
  { apply sum_error; [apply double_fits; apply F0|apply Nm|exact Nv]. }
  pose proof (total_error A B) as C. unfold ideal. fold D qn. eapply Qle_trans; [exact C|].
  rewrite resolution_u. pose proof (ideal_offset Hk) as I. pose proof D_le as L. destruct u_bound as [U0 _].
  set (i := Qabs (inject_Z (Z.of_nat k) * (D / qn))) in *. pose proof (Qabs_nonneg (val b1)) as P1. pose proof (Qabs_nonneg (val b0)) as P0.
  assert (X : (u * i <= u * (Qabs (val b0) + Qabs (val b1)))%Q).
  { rewrite (Qmult_comm u), (Qmult_comm u (_ + _)). apply Qmult_le_compat_r; lra. }
  assert (Y : (0 <= u * Qabs (val b1))%Q) by (apply Qmult_le_0_compat; lra).
  assert (Y0 : (0 <= u * Qabs (val b0))%Q) by (apply Qmult_le_0_compat; lra).
  rewrite Qmult_plus_distr_r in *. lra.
Qed.

(** * Values of the range *)
Lemma lt_fin x y : finite x = true -> finite y = true -> lt x y = true <-> (val x < val y)%Q.
Proof. intros A B. pose proof (cmp_finite A B) as H. unfold lt, related. destruct (cmp x y); split; intros; try discriminate; auto; lra. Qed.

Definition taken (g : bool) (v : num) : bool := if g then lt v b1 else lt b1 v.

Lemma rounds_inf_sign q s : rounds q (Inf s) -> ((0 <= q)%Q -> s = false) /\ ((q <= 0)%Q -> s = true).
Proof.
  intros (y & N & [(s' & E & O)|(F & _)]); [|discriminate]. injection E as <-. pose proof (pow2_pos 1024).
  assert (Z0 : fits double 0) by (apply fits_zero; simpl; lia).
  split; intros H1.
  - pose proof (nearest_ge N Z0 H1). destruct s; auto. cbn [pm] in O. lra.
  - pose proof (nearest_le N Z0 H1). destruct s; auto. cbn [pm] in O. lra.
Qed.

Lemma mul_of_nat k : (k <= n)%nat -> rounds (inject_Z (Z.of_nat k) * val st) (dmul (of_nat k) st).
Proof.
  intros Hk. destruct (@of_nat_ok k ltac:(lia)) as (A & B & _). destruct step_ok as [S _].
  eapply rounds_eq; [|apply (dmul_ok A S)]. rewrite B. reflexivity.
Qed.

Lemma fin_taken (g s : bool) : (if g then s = false else s = true) -> taken g (Inf s) = false.
Proof. destruct F1 as [_ A]. destruct g; intros ->; unfold taken, lt, related; destruct b1; try discriminate; reflexivity. Qed.

Lemma V_taken (g : bool) k : (k <= n)%nat -> (if g then (0 < val st)%Q else (val st < 0)%Q) -> taken g (V k) = true ->
  exists m, nearest double (inject_Z (Z.of_nat k) * val st) m /\ finite (V k) = true /\ nearest double (val b0 + m) (val (V k)) /\
    (if g then (val (V k) < val b1)%Q else (val b1 < val (V k))%Q).
Proof.
  intros Hk G T. pose proof (mul_of_nat Hk) as M. pose proof (@qn_nonneg k) as K0. unfold V in *. destruct F0 as [A0 B0], F1 as [A1 B1].
  destruct (finite (dmul (of_nat k) st)) eqn:Fm.
  - pose proof (rounds_finite M Fm) as Nm. exists (val (dmul (of_nat k) st)). split; [exact Nm|].
    pose proof (dadd_ok A0 (dmul_double (of_nat k) st) B0 Fm) as W.
    destruct (finite (dadd b0 (dmul (of_nat k) st))) eqn:Fv.
    + split; [reflexivity|]. split; [apply rounds_finite; auto|]. unfold taken in T. destruct g; apply lt_fin in T; auto.
    + exfalso. destruct W as (y & N & [(s & E & O)|(F & _)]); [|rewrite F in Fv; discriminate].
      rewrite E in T. rewrite (@fin_taken g s) in T; [discriminate|].
      destruct (double_fits A0 B0) as [F Bd]. assert (Z0 : fits double 0) by (apply fits_zero; simpl; lia).
      destruct (Qabs_cases (val b0)) as [[C1 C2]|[C1 C2]]; rewrite C2 in Bd; destruct g.
      * assert (0 <= val (dmul (of_nat k) st))%Q by (apply (nearest_ge Nm Z0); apply Qmult_le_0_compat; lra).
        assert (val b0 <= y)%Q by (apply (nearest_ge N F); lra). destruct s; auto. cbn [pm] in O. lra.
      * assert (val (dmul (of_nat k) st) <= 0)%Q by (apply (nearest_le Nm Z0); assert (X : (val st * inject_Z (Z.of_nat k) <= 0 * inject_Z (Z.of_nat k))%Q) by (apply Qmult_le_compat_r; lra); lra).
        assert (y <= val b0)%Q by (apply (nearest_le N F); lra). destruct s; auto. cbn [pm] in O. lra.
      * assert (0 <= val (dmul (of_nat k) st))%Q by (apply (nearest_ge Nm Z0); apply Qmult_le_0_compat; lra).
        assert (val b0 <= y)%Q by (apply (nearest_ge N F); lra). destruct s; auto. cbn [pm] in O. lra.
      * assert (val (dmul (of_nat k) st) <= 0)%Q by (apply (nearest_le Nm Z0); assert (X : (val st * inject_Z (Z.of_nat k) <= 0 * inject_Z (Z.of_nat k))%Q) by (apply Qmult_le_compat_r; lra); lra).
        assert (y <= val b0)%Q by (apply (nearest_le N F); lra). destruct s; auto. cbn [pm] in O. lra.
  - exfalso. destruct M as (y & N & [(s & E & O)|(F & _)]); [|rewrite F in Fm; discriminate].
    assert (M' : rounds (inject_Z (Z.of_nat k) * val st) (Inf s)) by (exists y; split; [exact N|]; left; exists s; auto).
    destruct (rounds_inf_sign M') as [S1 S2].
    assert (Q : dadd b0 (dmul (of_nat k) st) = Inf s) by (rewrite E; destruct b0; try discriminate; reflexivity).
    rewrite Q in T. rewrite (@fin_taken g s) in T; [discriminate|].
    destruct g; [apply S1; apply Qmult_le_0_compat; lra|apply S2].
    assert (X : (val st * inject_Z (Z.of_nat k) <= 0 * inject_Z (Z.of_nat k))%Q) by (apply Qmult_le_compat_r; lra). lra.
Qed.

(** With steps above the resolution every value is taken. *)
Lemma V_all (g : bool) k : (k < n)%nat -> (if g then (0 < D)%Q else (D < 0)%Q) ->
  (resolution (val b0) (val b1) < Qabs D / qn)%Q -> taken g (V k) = true.
Proof.
  intros Hk G Res. pose proof (@mul_of_nat k ltac:(lia)) as M. pose proof (@qn_nonneg k) as K0. destruct F0 as [A0 B0], F1 as [A1 B1].
  destruct u_bound as [U0 _]. pose proof q0 as Q0. pose proof (pow2_pos (-1022)) as P.
  set (i := (inject_Z (Z.of_nat k) * (D / qn))%Q).
  assert (Iq : (Qabs i + Qabs D / qn <= Qabs D)%Q).
  { unfold i. rewrite Qabs_Qmult, dn_eq, (Qabs_pos (inject_Z _)) by exact K0.
    assert (E : (inject_Z (Z.of_nat k) * (Qabs D / qn) + Qabs D / qn == (inject_Z (Z.of_nat k) + 1) * Qabs D / qn)%Q) by (unfold Qdiv; ring). rewrite E.
    apply Qle_shift_div_r; [exact Q0|]. rewrite (Qmult_comm (Qabs D)). apply Qmult_le_compat_r; [|apply Qabs_nonneg].
    change 1%Q with (inject_Z 1). rewrite <- inject_Z_plus. unfold qn. rewrite <- Zle_Qle. lia. }
  rewrite resolution_u in Res. pose proof D_le as L. pose proof (Qabs_nonneg D) as D0.
  assert (UD : (u * Qabs D <= u * (Qabs (val b0) + Qabs (val b1)))%Q).
  { rewrite (Qmult_comm u), (Qmult_comm u (_ + _)). apply Qmult_le_compat_r; lra. }
  assert (UD0 : (0 <= u * Qabs D)%Q) by (apply Qmult_le_0_compat; lra).
  assert (Ui : (u * Qabs i <= u * Qabs D)%Q).
  { rewrite (Qmult_comm u), (Qmult_comm u (Qabs D)). apply Qmult_le_compat_r; lra. }
  destruct dist_ok as (Fd & Nd & Dd). destruct (double_fits Dd Fd) as [Fd1 Fd2].
  (* the offset does not overflow *)
  assert (Ks : (Qabs (inject_Z (Z.of_nat k) * val st) <= Qabs (val d))%Q).
  { assert (X : (Qabs (inject_Z (Z.of_nat k) * val st - i) <= (33 # 16) * (u * Qabs i))%Q).
    { destruct M as (m & Nm & _). apply (offset_error q0 K0 dist_error step_error (mul_step_error Nm)). }
    assert (Y : (Qabs (inject_Z (Z.of_nat k) * val st) <= Qabs i + (33 # 16) * (u * Qabs i))%Q).
    { assert (E : (Qabs (inject_Z (Z.of_nat k) * val st) == Qabs (i + (inject_Z (Z.of_nat k) * val st - i)))%Q) by (apply Qabs_wd; ring). rewrite E.
      eapply Qle_trans; [apply Qabs_triangle|]. lra. }
    assert (W : (Qabs D - u * Qabs D <= Qabs (val d))%Q).
    { pose proof dist_error as DE. assert (E : (Qabs D == Qabs (val d + - (val d - D)))%Q) by (apply Qabs_wd; ring).
      pose proof (Qabs_triangle (val d) (- (val d - D))) as T. rewrite Qabs_opp in T. rewrite <- E in T. lra. }
    lra. }
  assert (DV : double_value (Qabs (val d))) by (split; [apply fits_abs; exact Fd1|rewrite Qabs_pos by apply Qabs_nonneg; exact Fd2]).
  destruct (rounds_bounded M DV Ks) as [Fm Nm].
  pose proof (dadd_ok A0 (dmul_double (of_nat k) st) B0 Fm) as W. fold (V k) in W.
  destruct W as (y & N & C).
  assert (NR : (Qabs (y - ideal (val b0) (val b1) n k) <= resolution (val b0) (val b1))%Q) by (apply (near (m := val (dmul (of_nat k) st))); auto; lia).
  rewrite resolution_u in NR. rewrite abs_le in NR. unfold ideal in NR. fold D qn i in NR.
  destruct (double_fits A0 B0) as [F0f F0b]. destruct (double_fits A1 B1) as [F1f F1b].
  assert (Z0 : fits double 0) by (apply fits_zero; simpl; lia). destruct step_sign as [S1 S2].
  assert (Iv : (0 < / qn)%Q) by (apply Qinv_lt_0_compat; exact Q0).
  assert (Db : (D == val b1 - val b0)%Q) by reflexivity.
  assert (Bd : (if g then val b0 <= y /\ y < val b1 else y <= val b0 /\ val b1 < y)%Q).
  { destruct g.
    - specialize (S1 G). assert (0 <= val (dmul (of_nat k) st))%Q by (apply (nearest_ge Nm Z0); apply Qmult_le_0_compat; lra). split.
      + apply (nearest_ge N F0f). lra.
      + rewrite (Qabs_pos i) in Iq by (unfold i; apply Qmult_le_0_compat; [lra|]; unfold Qdiv; apply Qmult_le_0_compat; lra). rewrite (Qabs_pos D) in * by lra. lra.
    - specialize (S2 G). assert (val (dmul (of_nat k) st) <= 0)%Q.
      { apply (nearest_le Nm Z0). assert (X : (val st * inject_Z (Z.of_nat k) <= 0 * inject_Z (Z.of_nat k))%Q) by (apply Qmult_le_compat_r; lra). lra. }
      split.
      + apply (nearest_le N F0f). lra.
      + assert (I0 : (i <= 0)%Q).
        { unfold i, Qdiv. assert (X : (- D * / qn >= 0)%Q) by (apply Qmult_le_0_compat; lra). assert (X2 : (0 <= inject_Z (Z.of_nat k) * (- D * / qn))%Q) by (apply Qmult_le_0_compat; lra). lra. }
        rewrite (Qabs_neg i) in Iq by exact I0. rewrite (Qabs_neg D) in * by lra. lra. }
  assert (Y : (Qabs y < pow2 1024)%Q).
  { destruct (Qabs_cases (val b0)) as [[C1 C2]|[C1 C2]]; destruct (Qabs_cases (val b1)) as [[C3 C4]|[C3 C4]]; destruct (Qabs_cases y) as [[C5 C6]|[C5 C6]];
      rewrite C2 in F0b; rewrite C4 in F1b; rewrite C6; destruct g; destruct Bd; lra. }
  destruct C as [(s & _ & O)|(Fv & Vv & _)].
  - exfalso. destruct (Qabs_cases y) as [[C5 C6]|[C5 C6]]; rewrite C6 in Y; destruct s; cbn [pm] in O; lra.
  - unfold taken. destruct g; apply lt_fin; auto; rewrite Vv; apply Bd.
Qed.

(** * Lists of values *)
Lemma values_length g : forall lim k, (length (values b0 b1 st g k lim) <= lim)%nat.
Proof. induction lim as [|lim IH]; intros k; simpl; [lia|]. destruct (if g then _ else _); simpl; [specialize (IH (S k))|]; lia. Qed.
Lemma values_nth g : forall lim k j x, nth_error (values b0 b1 st g k lim) j = Some x -> (j < lim)%nat /\ x = V (k + j) /\ taken g x = true.
Proof.
  induction lim as [|lim IH]; intros k j x H; cbn [values] in H; [destruct j; discriminate|].
  change (dadd b0 (dmul (of_nat k) st)) with (V k) in H. fold (taken g (V k)) in H.
  destruct (taken g (V k)) eqn:T; [|destruct j; discriminate]. destruct j as [|j]; cbn [nth_error] in H.
  - injection H as <-. rewrite Nat.add_0_r. split; [lia|auto].
  - apply IH in H. destruct H as (A & B & C). split; [lia|]. split; [|exact C]. rewrite B. f_equal. lia.
Qed.
Lemma values_full g : forall lim k, (forall j, (j < lim)%nat -> taken g (V (k + j)) = true) -> length (values b0 b1 st g k lim) = lim.
Proof.
  induction lim as [|lim IH]; intros k H; cbn [values]; auto.
  change (dadd b0 (dmul (of_nat k) st)) with (V k). fold (taken g (V k)).
  pose proof (H 0%nat ltac:(lia)) as T. rewrite Nat.add_0_r in T. rewrite T. cbn [length]. f_equal. apply IH.
  intros j Hj. replace (S k + j)%nat with (k + S j)%nat by lia. apply H. lia.
Qed.

Lemma V_first : finite (V 0) = true /\ (val (V 0) == val b0)%Q.
Proof.
  destruct F0 as [A0 B0]. pose proof (@mul_of_nat 0 ltac:(lia)) as M.
  assert (DV : double_value 0) by (split; [apply fits_zero; simpl; lia|apply pow2_pos]).
  assert (Z0 : (inject_Z (Z.of_nat 0) * val st == 0)%Q) by (change (inject_Z (Z.of_nat 0)) with 0%Q; ring).
  destruct (rounds_bounded M DV) as [Fm Nm]; [rewrite Z0; apply Qle_refl|].
  assert (E : (val (dmul (of_nat 0) st) == 0)%Q) by (eapply (nearest_unique (f := double)); [simpl; lia|exact Z0|exact Nm|apply nearest_self, fits_zero; simpl; lia]).
  pose proof (dadd_ok A0 (dmul_double (of_nat 0) st) B0 Fm) as W. fold (V 0) in W.
  destruct (double_fits A0 B0) as [Ff Fb].
  assert (X : (val b0 + val (dmul (of_nat 0) st) == val b0)%Q) by (rewrite E; ring).
  destruct (rounds_bounded W (z := Qabs (val b0))) as [Fv Nv].
  - split; [apply fits_abs; exact Ff|rewrite Qabs_pos by apply Qabs_nonneg; exact Fb].
  - rewrite X. apply Qle_refl.
  - split; [exact Fv|]. eapply (nearest_unique (f := double)); [simpl; lia|exact X|exact Nv|apply nearest_self; exact Ff].
Qed.

Hypothesis Hne : ~ (val b0 == val b1)%Q.
Let g := lt (Zero false) st.

Lemma g_sign : (g = true /\ (0 < D)%Q /\ (0 < val st)%Q) \/ (g = false /\ (D < 0)%Q /\ (val st < 0)%Q).
Proof.
  destruct step_sign as [S1 S2]. destruct step_ok as [Fs _]. unfold g.
  destruct (Q_dec D 0) as [[L|L]|L].
  - right. split; [|auto]. specialize (S2 L). destruct (lt (Zero false) st) eqn:T; auto. apply lt_fin in T; auto. simpl in T. lra.
  - left. specialize (S1 L). split; [apply lt_fin; auto|auto].
  - exfalso. apply Hne. unfold D in L. lra.
Qed.

Definition temps : list num := values b0 b1 st g 0 n.

Lemma expand_ok : expand (Between b0 b1) (Some n) = Ok temps.
Proof.
  unfold expand. destruct F0 as [_ B0], F1 as [_ B1].
  assert (E : eq b0 b1 = false).
  { unfold eq. pose proof (cmp_finite B0 B1) as H. unfold related. destruct (cmp b0 b1); rewrite ?andb_false_r; auto. contradiction. }
  rewrite E. fold d st. unfold numeric_range.
  assert (E2 : eq st (Zero false) = false).
  { unfold eq. destruct step_ok as [Fs _]. pose proof (@cmp_finite st (Zero false) Fs eq_refl) as H. unfold related.
    destruct (cmp st (Zero false)); rewrite ?andb_false_r; auto. simpl in H. destruct g_sign as [(_ & _ & X)|(_ & _ & X)]; lra. }
  rewrite E2. reflexivity.
Qed.

Lemma temps_ok : (length temps <= n)%nat /\
  (exists b l, temps = b :: l /\ (val b == val b0)%Q) /\
  (forall k x, nth_error temps k = Some x -> finite x = true /\ inside (val b0) (val b1) (val x) /\
     (Qabs (val x - ideal (val b0) (val b1) n k) <= resolution (val b0) (val b1))%Q) /\
  (forall k k' x x', (k <= k')%nat -> nth_error temps k = Some x -> nth_error temps k' = Some x' -> ordered (val b0) (val b1) (val x) (val x')) /\
  ((resolution (val b0) (val b1) < Qabs (val b1 - val b0) / inject_Z (Z.of_nat n))%Q -> length temps = n).
Proof.
  pose proof g_sign as GS. destruct V_first as [VF V0].
  assert (GT : if g then (0 < val st)%Q else (val st < 0)%Q) by (destruct GS as [(-> & _ & X)|(-> & _ & X)]; exact X).
  assert (GD : if g then (0 < D)%Q else (D < 0)%Q) by (destruct GS as [(-> & X & _)|(-> & X & _)]; exact X).
  assert (Db : (D == val b1 - val b0)%Q) by reflexivity.
  assert (T0 : taken g (V 0) = true).
  { destruct F1 as [_ B1]. unfold taken. destruct g; apply lt_fin; auto; rewrite V0; lra. }
  split; [apply values_length|]. split; [|split; [|split]].
  - exists (V 0), (values b0 b1 st g 1 (n - 1)). split; [|exact V0].
    unfold temps. destruct n as [|n'] eqn:En; [lia|]. cbn [values]. change (dadd b0 (dmul (of_nat 0) st)) with (V 0). fold (taken g (V 0)). rewrite T0.
    f_equal. f_equal. lia.
  - intros k x H. apply values_nth in H. destruct H as (Hk & -> & T). rewrite Nat.add_0_l in *.
    destruct (V_taken (g := g) (k := k) ltac:(lia) GT T) as (m & Nm & Fv & Nv & C). split; [exact Fv|]. split; [|apply (near (m := m)); auto; lia].
    destruct F0 as [A0 B0]. destruct (double_fits A0 B0) as [Ff _]. assert (Z0 : fits double 0) by (apply fits_zero; simpl; lia). pose proof (@qn_nonneg k).
    unfold inside. destruct g.
    + left. split; [|exact C]. apply (nearest_ge Nv Ff). assert (0 <= m)%Q by (apply (nearest_ge Nm Z0); apply Qmult_le_0_compat; lra). lra.
    + right. split; [exact C|]. apply (nearest_le Nv Ff).
      assert (m <= 0)%Q by (apply (nearest_le Nm Z0); assert (X : (val st * inject_Z (Z.of_nat k) <= 0 * inject_Z (Z.of_nat k))%Q) by (apply Qmult_le_compat_r; lra); lra). lra.
  - intros k k' x x' Hkk H H'. apply values_nth in H. apply values_nth in H'. destruct H as (Hk & -> & T). destruct H' as (Hk' & -> & T').
    rewrite Nat.add_0_l in *.
    destruct (V_taken (g := g) (k := k) ltac:(lia) GT T) as (m & Nm & _ & Nv & _). destruct (V_taken (g := g) (k := k') ltac:(lia) GT T') as (m' & Nm' & _ & Nv' & _).
    assert (Kk : (inject_Z (Z.of_nat k) <= inject_Z (Z.of_nat k'))%Q) by (rewrite <- Zle_Qle; lia).
    unfold ordered. destruct g.
    + left. split; [lra|]. assert (m <= m')%Q by (eapply (nearest_mono (f := double)); [simpl; lia| |exact Nm|exact Nm']; apply Qmult_le_compat_r; lra).
      eapply (nearest_mono (f := double)); [simpl; lia| |exact Nv|exact Nv']. lra.
    + right. split; [lra|].
      assert (m' <= m)%Q.
      { eapply (nearest_mono (f := double)); [simpl; lia| |exact Nm'|exact Nm].
        assert (X : (inject_Z (Z.of_nat k) * - val st <= inject_Z (Z.of_nat k') * - val st)%Q) by (apply Qmult_le_compat_r; lra). lra. }
      eapply (nearest_mono (f := double)); [simpl; lia| |exact Nv'|exact Nv]. lra.
  - intros Res. apply values_full. intros j Hj. apply V_all; auto.
Qed.
End Steps.

Lemma schedule_ok b0 b1 n : is_float b0 -> is_float b1 -> ~ (val b0 == val b1)%Q -> (1 <= n)%nat -> Z.of_nat n <= 2 ^ 53 ->
  usual_range (val b0) (val b1) n ->
  exists l, (forall stop, schedule (Between b0 b1) (Some (Z.of_nat n)) stop = Ok (firstn stop l)) /\
    (length l <= n)%nat /\
    (exists b l', l = b :: l' /\ (val b == val b0)%Q) /\
    (forall k x, nth_error l k = Some x -> finite x = true /\ inside (val b0) (val b1) (val x) /\
       (Qabs (val x - ideal (val b0) (val b1) n k) <= resolution (val b0) (val b1))%Q) /\
    (forall k k' x x', (k <= k')%nat -> nth_error l k = Some x -> nth_error l k' = Some x' -> ordered (val b0) (val b1) (val x) (val x')) /\
    ((resolution (val b0) (val b1) < Qabs (val b1 - val b0) / inject_Z (Z.of_nat n))%Q -> length l = n).
Proof.
  intros F0 F1 Hne Hn H53 R. exists (temps b0 b1 n).
  pose proof (temps_ok F0 F1 Hn H53 R Hne) as T. split; [|exact T].
  intros stop. unfold schedule, check_steps. destruct (Z.of_nat n <=? 0) eqn:E; [lia|]. rewrite Nat2Z.id. cbn [bind].
  rewrite (expand_ok F0 F1 Hn H53 R Hne). cbn [bind]. unfold performed. f_equal. f_equal. apply firstn_all2. apply T.
Qed.
