(** Proofs about the Metropolis-Hastings probability in floating point. *)
From Coq Require Import ZArith Reals Lra Lia.
From Flocq Require Import Core Relative.
From Verif Require Import M_ProbFloat S_ProbFloat.
Set Implicit Arguments.
Unset Strict Implicit.
Local Open Scope R_scope.

Global Instance prec_pos24 : Prec_gt_0 24. Proof. reflexivity. Qed.
Global Instance prec_pos53 : Prec_gt_0 53. Proof. reflexivity. Qed.
Global Instance prec_pos64 : Prec_gt_0 64. Proof. reflexivity. Qed.
Global Instance prec_pos1024 : Prec_gt_0 1024. Proof. reflexivity. Qed.
Global Instance exponents_valid t : Valid_exp (exponents t).
Proof. destruct t; cbn; typeclasses eauto. Qed.
Global Instance exponents_mono t : Monotone_exp (exponents t).
Proof. destruct t; cbn; typeclasses eauto. Qed.

Lemma one_number t : generic_format radix2 (exponents t) 1.
Proof.
  change 1 with (bpow radix2 0). apply generic_format_bpow. destruct t; vm_compute; discriminate.
Qed.
Lemma rounded_le t x y : x <= y -> rounded t x <= rounded t y.
Proof. apply round_le; typeclasses eauto. Qed.
Lemma rounded_1 t : rounded t 1 = 1.
Proof. apply round_generic; [typeclasses eauto|apply one_number]. Qed.
Lemma rounded_0 t : rounded t 0 = 0.
Proof. apply round_0; typeclasses eauto. Qed.
Lemma rounded_nonneg t x : 0 <= x -> 0 <= rounded t x.
Proof. intros H. rewrite <- (rounded_0 t). apply rounded_le; auto. Qed.
Lemma rounded_below t x : x <= 1 -> rounded t x <= 1.
Proof. intros H. rewrite <- (rounded_1 t). apply rounded_le; auto. Qed.
Lemma rounded_above t x : 1 <= x -> 1 <= rounded t x.
Proof. intros H. rewrite <- (rounded_1 t). apply rounded_le; auto. Qed.

Lemma ratio_nonneg delta old : 0 <= delta -> 0 < old -> 0 <= delta / old.
Proof. intros Hd Ho. apply Rmult_le_pos; auto. left. apply Rinv_0_lt_compat; auto. Qed.
Lemma base_above t delta old : 0 <= delta -> 0 < old -> 1 <= rounded t (1 + rounded t (delta / old)).
Proof. intros Hd Ho. apply rounded_above. pose proof (rounded_nonneg t (ratio_nonneg Hd Ho)). lra. Qed.
Lemma Rpower_pos x y : 0 < Rpower x y.
Proof. apply exp_pos. Qed.
Lemma ln_nonneg x : 1 <= x -> 0 <= ln x.
Proof. intros [H | <-]; [|rewrite ln_1; lra]. rewrite <- ln_1. left. apply ln_increasing; lra. Qed.
Lemma exp_le x y : x <= y -> exp x <= exp y.
Proof. intros [H | ->]; [left; apply exp_increasing; auto|lra]. Qed.
Lemma power_below x y : 1 <= x -> y <= 0 -> Rpower x y <= 1.
Proof. intros Hx Hy. unfold Rpower. rewrite <- exp_0. apply exp_le. pose proof (ln_nonneg Hx). nra. Qed.
Lemma power_anti x x' y y' : 1 <= x -> x <= x' -> y' <= y -> y <= 0 -> Rpower x' y' <= Rpower x y.
Proof.
  intros Hx Hxx Hyy Hy. unfold Rpower. apply exp_le. pose proof (ln_nonneg Hx).
  assert (ln x <= ln x') by (destruct Hxx as [H1 | ->]; [left; apply ln_increasing; lra|lra]). nra.
Qed.

Lemma pow_between t pow x y : faithful_pow t pow -> 1 <= x -> y <= 0 -> 0 <= pow x y <= 1.
Proof.
  intros Hp Hx Hy. pose proof (Rpower_pos x y) as H0. pose proof (power_below Hx Hy) as H1.
  assert (Hz : forall rnd, Valid_rnd rnd -> 0 <= round radix2 (exponents (pow_type t)) rnd (Rpower x y) <= 1).
  { intros rnd V. split.
    - apply round_ge_generic; try typeclasses eauto; [apply generic_format_0|lra].
    - apply round_le_generic; try typeclasses eauto; [apply one_number|auto]. }
  destruct (Hp x y ltac:(lra)) as [-> | ->]; apply Hz; typeclasses eauto.
Qed.
Lemma correct_faithful t pow : correct_pow t pow -> faithful_pow t pow.
Proof.
  intros H x y Hx. rewrite (H x y Hx). unfold rounded. apply round_DN_or_UP. typeclasses eauto.
Qed.

(** ** The probability *)
Lemma mh_between t pow beta delta old : faithful_pow t pow -> 0 <= beta -> 0 < old ->
  0 <= mh_call t pow beta delta old <= 1 /\ (delta <= 0 -> mh_call t pow beta delta old = 1).
Proof.
  intros Hp Hb Ho. unfold mh_call. destruct (Rle_dec delta 0) as [H | H]; [split; [lra|auto]|]. split; [|intros; lra].
  assert (B : 1 <= rounded t (1 + rounded t (delta / old))) by (apply base_above; lra).
  destruct (pow_between Hp B (y := - beta) ltac:(lra)). split; [apply rounded_nonneg|apply rounded_below]; auto.
Qed.
Lemma pow_one t pow x y : faithful_pow t pow -> 0 < x -> Rpower x y = 1 -> pow x y = 1.
Proof.
  intros Hp Hx E. destruct (Hp x y Hx) as [-> | ->]; rewrite E; apply round_generic; try typeclasses eauto; apply one_number.
Qed.
Lemma mh_hot t pow delta old : faithful_pow t pow -> 0 < old -> mh_call t pow 0 delta old = 1.
Proof.
  intros Hp Ho. unfold mh_call. destruct (Rle_dec delta 0) as [H | H]; auto.
  assert (B : 1 <= rounded t (1 + rounded t (delta / old))) by (apply base_above; lra).
  rewrite (@pow_one t) ; auto; [apply rounded_1|lra|]. replace (- 0) with 0 by ring. apply Rpower_O. lra.
Qed.
Lemma mh_negative t pow beta delta old : faithful_pow t pow -> beta <= 0 -> 0 < old -> 1 <= mh_call t pow beta delta old.
Proof.
  intros Hp Hb Ho. unfold mh_call. destruct (Rle_dec delta 0) as [H | H]; [lra|].
  assert (B : 1 <= rounded t (1 + rounded t (delta / old))) by (apply base_above; lra). apply rounded_above.
  set (x := rounded t (1 + rounded t (delta / old))) in *.
  assert (E : 1 <= Rpower x (- beta)) by (unfold Rpower; rewrite <- exp_0; apply exp_le; pose proof (ln_nonneg B); nra).
  assert (Hz : forall rnd, Valid_rnd rnd -> 1 <= round radix2 (exponents (pow_type t)) rnd (Rpower x (- beta))).
  { intros rnd V. apply round_ge_generic; try typeclasses eauto; [apply one_number|auto]. }
  destruct (Hp x (- beta) ltac:(lra)) as [-> | ->]; apply Hz; typeclasses eauto.
Qed.
Lemma mh_anti t pow beta beta' delta delta' old old' : correct_pow t pow -> 0 <= beta -> beta <= beta' -> delta <= delta' -> 0 < old' -> old' <= old ->
  mh_call t pow beta' delta' old' <= mh_call t pow beta delta old.
Proof.
  intros Hp Hb Hbb Hd Ho Hoo. unfold mh_call at 2. destruct (Rle_dec delta 0) as [H | H].
  - apply (mh_between delta' (correct_faithful Hp) (beta := beta') (old := old')); lra.
  - unfold mh_call. destruct (Rle_dec delta' 0) as [H' | H']; [lra|].
    assert (B : 1 <= rounded t (1 + rounded t (delta / old))) by (apply base_above; lra).
    assert (L : delta / old <= delta' / old').
    { apply Rmult_le_compat; [lra|left; apply Rinv_0_lt_compat; lra|exact Hd|apply Rinv_le_contravar; auto]. }
    assert (L2 : rounded t (1 + rounded t (delta / old)) <= rounded t (1 + rounded t (delta' / old'))) by (apply rounded_le; pose proof (rounded_le t L); lra).
    rewrite !Hp by lra. apply rounded_le, rounded_le, power_anti; auto; lra.
Qed.
Lemma mh_keeps_iff t pow beta delta old u : mh_keeps t pow beta delta old u = true <-> u <= mh_call t pow beta delta old.
Proof. unfold mh_keeps. destruct (Rle_dec _ _) as [H | H]; split; auto; try discriminate. Qed.

(** ** Small increases *)
Lemma exponent_1 t : exponents t 1 = (1 - precision t)%Z.
Proof. destruct t; reflexivity. Qed.
Lemma succ_1 t : succ radix2 (exponents t) 1 = 1 + bpow radix2 (1 - precision t).
Proof.
  rewrite succ_eq_pos by lra. change 1 with (bpow radix2 0) at 2. rewrite ulp_bpow. change (0 + 1)%Z with 1%Z. rewrite exponent_1. reflexivity.
Qed.
Lemma small_increase t x : 0 <= x -> x < bpow radix2 (- precision t) -> rounded t (1 + x) = 1.
Proof.
  intros Hx H. apply Rle_antisym; [|apply rounded_above; lra]. unfold rounded. apply round_N_le_midp; try typeclasses eauto; [apply one_number|].
  rewrite succ_1. unfold Zminus. rewrite Z.add_comm, bpow_plus_1. simpl (IZR radix2). lra.
Qed.
Lemma bpow_rounded t e : (exponents t (e + 1) <= e)%Z -> rounded t (bpow radix2 e) = bpow radix2 e.
Proof. intros H. apply round_generic; [typeclasses eauto|]. apply generic_format_bpow; auto. Qed.
Lemma mh_small t pow beta delta old : faithful_pow t pow -> 0 < old -> delta / old < bpow radix2 (- precision t - 1) -> mh_call t pow beta delta old = 1.
Proof.
  intros Hp Ho Hd. unfold mh_call. destruct (Rle_dec delta 0) as [H | H]; auto.
  assert (P : 0 <= delta / old) by (apply ratio_nonneg; lra).
  assert (R : rounded t (delta / old) <= bpow radix2 (- precision t - 1)).
  { rewrite <- (@bpow_rounded t (- precision t - 1)); [|destruct t; vm_compute; discriminate]. apply rounded_le. lra. }
  rewrite small_increase.
  - rewrite (@pow_one t); auto; [apply rounded_1|lra|]. unfold Rpower. rewrite ln_1, Rmult_0_r. apply exp_0.
  - apply rounded_nonneg; auto.
  - eapply Rle_lt_trans; [exact R|]. apply bpow_lt. lia.
Qed.

(** ** Accuracy of float1024 *)
Definition unit_1024 : R := / 2 * bpow radix2 (- 1024 + 1).
Lemma rel_1024 x : exists e, Rabs e <= unit_1024 /\ rounded Float1024 x = x * (1 + e).
Proof. destruct (@relative_error_N_FLX_ex radix2 1024 eq_refl (fun x => negb (Z.even x)) x) as (e & He & E). exists e. split; auto. Qed.
Lemma mh_accurate pow beta delta old : correct_pow Float1024 pow -> 0 < old ->
  exists a b, Rabs a <= 3 * bpow radix2 (-1024) /\ Rabs b <= bpow radix2 (-1024) /\
  mh_call Float1024 pow beta delta old = chance beta delta old * Rpower (1 + a) (- beta) * (1 + b).
Proof.
  intros Hp Ho. set (u := bpow radix2 (-1024)).
  assert (U : unit_1024 = u). { unfold unit_1024, u. rewrite bpow_plus_1. simpl (IZR radix2). lra. }
  assert (U0 : 0 < u) by apply bpow_gt_0. assert (U1 : u <= / 4) by (apply Rle_trans with (bpow radix2 (-2)); [apply bpow_le; lia|simpl; lra]).
  unfold mh_call, chance. destruct (Rle_dec delta 0) as [H | H].
  { exists 0, 0. rewrite Rabs_R0. split; [lra|]. split; [lra|]. unfold Rpower. rewrite Rplus_0_r, ln_1, Rmult_0_r, exp_0. ring. }
  assert (B : 1 <= rounded Float1024 (1 + rounded Float1024 (delta / old))) by (apply base_above; lra).
  destruct (rel_1024 (delta / old)) as (e1 & He1 & E1). rewrite E1 in *.
  destruct (rel_1024 (1 + delta / old * (1 + e1))) as (e2 & He2 & E2). rewrite E2 in *.
  rewrite Hp by lra. cbn [pow_type]. unfold rounded at 1. rewrite round_generic; [|typeclasses eauto|apply generic_format_round; typeclasses eauto].
  destruct (rel_1024 (Rpower ((1 + delta / old * (1 + e1)) * (1 + e2)) (- beta))) as (e3 & He3 & E3). rewrite E3.
  rewrite U in *. set (q := delta / old) in *. assert (Q : 0 < q) by (apply Rdiv_lt_0_compat; lra).
  assert (S0 : 0 < q / (1 + q) < 1).
  { split; [apply Rdiv_lt_0_compat; lra|]. apply Rmult_lt_reg_r with (1 + q); [lra|]. unfold Rdiv. rewrite Rmult_assoc, Rinv_l; lra. }
  set (s := q / (1 + q)) in *. assert (Sq : s * (1 + q) = q) by (unfold s; field; lra).
  apply Rabs_le_inv in He1. apply Rabs_le_inv in He2.
  exists ((1 + s * e1) * (1 + e2) - 1), e3. split; [|split; auto].
  - assert (- u <= s * e1 <= u) by nra. apply Rabs_le. nra.
  - replace (1 + ((1 + s * e1) * (1 + e2) - 1)) with ((1 + s * e1) * (1 + e2)) by ring.
    rewrite Rpower_mult_distr; [| lra | apply Rmult_lt_0_compat; nra].
    replace ((1 + q) * ((1 + s * e1) * (1 + e2))) with ((1 + q * (1 + e1)) * (1 + e2)); auto.
    rewrite <- Rmult_assoc. f_equal. transitivity (1 + q + s * (1 + q) * e1); [rewrite Sq; ring|ring].
Qed.

(** ** Draws *)
Lemma mh_kept t pow beta delta old u : faithful_pow t pow -> 0 < old -> u <= 1 -> delta <= 0 \/ beta <= 0 -> mh_keeps t pow beta delta old u = true.
Proof.
  intros Hp Ho Hu H. apply mh_keeps_iff. destruct H as [H | H].
  - unfold mh_call. destruct (Rle_dec delta 0); lra.
  - pose proof (mh_negative delta Hp H Ho). lra.
Qed.
Lemma mh_cooler t pow beta beta' delta delta' old old' u : correct_pow t pow -> 0 <= beta -> beta <= beta' -> delta <= delta' -> 0 < old' -> old' <= old ->
  mh_keeps t pow beta' delta' old' u = true -> mh_keeps t pow beta delta old u = true.
Proof.
  intros Hp Hb Hbb Hd Ho Hoo. rewrite !mh_keeps_iff. intros H. eapply Rle_trans; [exact H|]. apply mh_anti; auto.
Qed.

(** ** Examples *)
Definition best_pow (t : cost_type) (x y : R) : R := rounded (pow_type t) (Rpower x y).
Lemma best_correct t : correct_pow t (best_pow t).
Proof. intros x y _. reflexivity. Qed.
Lemma power_2 e : Rpower 2 (IZR e) = bpow radix2 e.
Proof. rewrite bpow_exp. reflexivity. Qed.
Lemma double_call t beta : mh_call t (best_pow t) (- IZR beta) 1 1 = rounded t (rounded (pow_type t) (bpow radix2 beta)).
Proof.
  unfold mh_call. destruct (Rle_dec 1 0) as [H | H]; [lra|]. replace (1 / 1) with 1 by field. rewrite rounded_1.
  replace (1 + 1) with (bpow radix2 1) by (simpl; lra). rewrite bpow_rounded by (destruct t; vm_compute; discriminate).
  unfold best_pow. rewrite Ropp_involutive. simpl (bpow radix2 1). rewrite power_2. reflexivity.
Qed.
Lemma half_call t : mh_call t (best_pow t) 1 1 1 = / 2.
Proof.
  replace (mh_call t (best_pow t) 1 1 1) with (mh_call t (best_pow t) (- IZR (-1)) 1 1) by (f_equal; ring). rewrite double_call.
  rewrite !bpow_rounded by (destruct t; vm_compute; discriminate). simpl. lra.
Qed.
Lemma vanished : mh_call Float64 (best_pow Float64) 2000 1 1 = 0.
Proof.
  replace (mh_call Float64 (best_pow Float64) 2000 1 1) with (mh_call Float64 (best_pow Float64) (- IZR (-2000)) 1 1) by (f_equal; ring). rewrite double_call.
  replace (rounded (pow_type Float64) (bpow radix2 (-2000))) with 0; [apply rounded_0|]. symmetry.
  apply (@round_N_small_pos radix2 (exponents Float64) (fun x => negb (Z.even x)) _ (-1999)); [|vm_compute; reflexivity].
  split; [apply Rle_refl|apply bpow_lt; lia].
Qed.
Lemma positive_chance beta delta old : 0 < chance beta delta old.
Proof. unfold chance. destruct (Rle_dec delta 0); [lra|apply Rpower_pos]. Qed.
Lemma below_chance beta delta old : 0 < beta -> 0 < delta -> 0 < old -> chance beta delta old < 1.
Proof.
  intros Hb Hd Ho. unfold chance. destruct (Rle_dec delta 0); [lra|]. unfold Rpower. apply Rlt_le_trans with (exp 0); [apply exp_increasing|rewrite exp_0; lra].
  assert (L : 0 < ln (1 + delta / old)); [|rewrite Ropp_mult_distr_l_reverse; pose proof (Rmult_lt_0_compat _ _ Hb L); lra]. apply Rle_lt_trans with (ln 1); [rewrite ln_1; lra|]. apply ln_increasing; [lra|]. assert (0 < delta / old) by (apply Rdiv_lt_0_compat; auto). lra.
Qed.

(** ** Accuracy of all types *)
Definition unit_of (t : cost_type) : R := bpow radix2 (- precision t).
Lemma half_unit p : / 2 * bpow radix2 (- p + 1) = bpow radix2 (- p).
Proof. rewrite bpow_plus_1. simpl (IZR radix2). lra. Qed.
Lemma rel t x : exists e h, Rabs e <= unit_of t /\ Rabs h <= / 2 * smallest t /\ rounded t x = x * (1 + e) + h.
Proof.
  destruct t; unfold unit_of; cbn [precision smallest].
  1-3: match goal with |- context [bpow radix2 (- ?p)] => rewrite <- (half_unit p) end; unfold rounded; cbn [exponents].
  - destruct (@error_N_FLT radix2 (-149) 24 eq_refl (fun x => negb (Z.even x)) x) as (e & h & He & Hh & _ & E). exists e, h; auto.
  - destruct (@error_N_FLT radix2 (-1074) 53 eq_refl (fun x => negb (Z.even x)) x) as (e & h & He & Hh & _ & E). exists e, h; auto.
  - destruct (@error_N_FLT radix2 (-16445) 64 eq_refl (fun x => negb (Z.even x)) x) as (e & h & He & Hh & _ & E). exists e, h; auto.
  - destruct (rel_1024 x) as (e & He & E). exists e, 0. rewrite Rabs_R0. split; [rewrite <- (half_unit 1024); exact He|]. split; [lra|]. rewrite E. ring.
Qed.
Lemma unit_small t : 0 < unit_of t <= / 16.
Proof. unfold unit_of. split; [apply bpow_gt_0|]. apply Rle_trans with (bpow radix2 (-4)); [apply bpow_le; destruct t; vm_compute; discriminate|simpl; lra]. Qed.
Lemma smallest_small t : 0 <= smallest t <= unit_of t * / 16.
Proof.
  assert (Q : forall e, (e <= - precision t - 4)%Z -> 0 <= bpow radix2 e <= unit_of t * / 16).
  { intros e He. split; [apply bpow_ge_0|]. replace (/ 16) with (bpow radix2 (-4)) by (simpl; lra). unfold unit_of. rewrite <- bpow_plus. apply bpow_le. lia. }
  destruct t; cbn [smallest]; try (apply Q; vm_compute; discriminate). pose proof (unit_small Float1024). lra.
Qed.
Lemma pow_units t : unit_of (pow_type t) <= unit_of t /\ smallest (pow_type t) <= smallest t.
Proof. destruct t; cbn [pow_type smallest]; split; try apply Rle_refl; apply bpow_le; vm_compute; discriminate. Qed.
Lemma mh_accurate_all t pow beta delta old : correct_pow t pow -> 0 < old ->
  exists a b c, Rabs a <= 3 * bpow radix2 (- precision t) /\ Rabs b <= 3 * bpow radix2 (- precision t) /\ Rabs c <= 2 * smallest t /\
  mh_call t pow beta delta old = chance beta delta old * Rpower (1 + a) (- beta) * (1 + b) + c.
Proof.
  intros Hp Ho. fold (unit_of t). destruct (unit_small t) as (U0 & U1). destruct (smallest_small t) as (S0 & S1). destruct (pow_units t) as (PU & PS).
  pose proof (unit_small (pow_type t)) as PU0. pose proof (smallest_small (pow_type t)) as PS0.
  unfold mh_call, chance. destruct (Rle_dec delta 0) as [H | H].
  { exists 0, 0, 0. rewrite Rabs_R0. split; [lra|]. split; [lra|]. split; [lra|]. replace (Rpower (1 + 0) (- beta)) with 1 by (unfold Rpower; rewrite Rplus_0_r, ln_1, Rmult_0_r, exp_0; reflexivity). ring. }
  assert (B : 1 <= rounded t (1 + rounded t (delta / old))) by (apply base_above; lra).
  destruct (rel t (delta / old)) as (e1 & h1 & He1 & Hh1 & E1). rewrite E1 in *.
  destruct (rel t (1 + (delta / old * (1 + e1) + h1))) as (e2 & h2 & He2 & Hh2 & E2). rewrite E2 in *.
  rewrite Hp by lra. set (q := delta / old) in *. assert (Q : 0 < q) by (apply Rdiv_lt_0_compat; lra).
  set (base := (1 + (q * (1 + e1) + h1)) * (1 + e2) + h2) in *.
  destruct (rel (pow_type t) (Rpower base (- beta))) as (e3 & h3 & He3 & Hh3 & E3). rewrite E3.
  destruct (rel t (Rpower base (- beta) * (1 + e3) + h3)) as (e4 & h4 & He4 & Hh4 & E4). rewrite E4.
  assert (I0 : 0 < / (1 + q) <= 1).
  { split; [apply Rinv_0_lt_compat; lra|]. rewrite <- Rinv_1. apply Rinv_le_contravar; lra. }
  set (i := / (1 + q)) in *. assert (Iq : i * (1 + q) = 1) by (unfold i; field; lra).
  assert (J : 0 <= q * i <= 1) by (split; nra).
  apply Rabs_le_inv in He1. apply Rabs_le_inv in He2. apply Rabs_le_inv in He3. apply Rabs_le_inv in He4.
  apply Rabs_le_inv in Hh1. apply Rabs_le_inv in Hh2. apply Rabs_le_inv in Hh3. apply Rabs_le_inv in Hh4.
  set (u := unit_of t) in *. set (s := smallest t) in *.
  exists (base * i - 1), ((1 + e3) * (1 + e4) - 1), (h3 * (1 + e4) + h4).
  assert (X1 : - u <= q * i * e1 <= u) by nra. assert (X2 : - (/ 2 * s) <= i * h1 <= / 2 * s) by nra. assert (X3 : - (/ 2 * s) <= i * h2 <= / 2 * s) by nra.
  split; [|split; [|split]].
  - replace (base * i - 1) with ((1 + q * i * e1 + i * h1) * (1 + e2) + i * h2 - 1).
    2:{ unfold base. transitivity ((i * (1 + q) + q * i * e1 + i * h1) * (1 + e2) + i * h2 - 1); [rewrite Iq; ring|ring]. }
    set (y := q * i * e1 + i * h1). assert (Y : - (u + / 2 * s) <= y <= u + / 2 * s) by (unfold y; lra).
    replace ((1 + q * i * e1 + i * h1) * (1 + e2) + i * h2 - 1) with (y + e2 + y * e2 + i * h2) by (unfold y; ring).
    assert (Z : - (2 * u * / 16) <= y * e2 <= 2 * u * / 16) by (split; nra). apply Rabs_le. lra.
  - apply Rabs_le. replace ((1 + e3) * (1 + e4) - 1) with (e3 + e4 + e3 * e4) by ring. assert (- (u * / 16) <= e3 * e4 <= u * / 16) by (split; nra). lra.
  - apply Rabs_le. assert (- (/ 2 * s) <= h3 <= / 2 * s) by lra. assert (- (/ 2 * s) <= h3 * e4 <= / 2 * s) by (split; nra). lra.
  - assert (E : Rpower base (- beta) = Rpower (1 + q) (- beta) * Rpower (1 + (base * i - 1)) (- beta)).
    { rewrite Rpower_mult_distr; [|lra|]. 2:{ replace (1 + (base * i - 1)) with (base * i) by ring. apply Rmult_lt_0_compat; lra. }
      f_equal. transitivity (base * (i * (1 + q))); [rewrite Iq; ring|ring]. }
    rewrite <- E. ring.
Qed.
