(** Proofs about the numbers of fixed precision: rounding. *)
From Coq Require Import QArith Qpower Qabs ZArith Bool List Lia Lqa Qround.
From Verif Require Import M_Base M_Fixed S_Fixed.
Set Implicit Arguments. Unset Strict Implicit.
Local Open Scope Z_scope.

Definition zq := inject_Z.
Lemma pow2_pos e : (0 < pow2 e)%Q.
Proof.
  unfold pow2. assert (H : (0 <= Qpower 2 e)%Q) by (apply Qpower_pos; discriminate).
  apply Qle_lteq in H. destruct H as [H|H]; auto. exfalso. apply (@Qpower_not_0 2%Q e); [discriminate | symmetry; exact H].
Qed.
Lemma pow2_neq e : ~ (pow2 e == 0)%Q.
Proof. intros H. generalize (pow2_pos e). rewrite H. apply Qlt_irrefl. Qed.
Lemma pow2_add a b : (pow2 (a + b) == pow2 a * pow2 b)%Q.
Proof. unfold pow2. apply Qpower_plus. discriminate. Qed.
Lemma pow2_Z e : 0 <= e -> (pow2 e == inject_Z (2 ^ e))%Q.
Proof. intros H. unfold pow2. change 2%Q with (inject_Z 2). rewrite <- Zpower_Qpower by exact H. reflexivity. Qed.
Lemma pow2_0 : (pow2 0 == 1)%Q. Proof. reflexivity. Qed.
Lemma pow2_1 : (pow2 1 == 2)%Q. Proof. reflexivity. Qed.
Lemma pow2_le a b : a <= b -> (pow2 a <= pow2 b)%Q.
Proof.
  intros H. replace b with (a + (b - a)) by lia. rewrite pow2_add, (@pow2_Z (b - a)) by lia.
  assert (1 <= 2 ^ (b - a)) by (apply Z.lt_pred_le; simpl; apply Z.pow_pos_nonneg; lia).
  rewrite Zle_Qle in H0. change (inject_Z 1) with 1%Q in H0. generalize (pow2_pos a). intros.
  rewrite <- (Qmult_1_r (pow2 a)) at 1. rewrite !(Qmult_comm (pow2 a)). apply Qmult_le_compat_r; auto. apply Qlt_le_weak; auto.
Qed.
Lemma pow2_lt a b : a < b -> (pow2 a < pow2 b)%Q.
Proof.
  intros H. apply Qlt_le_trans with (pow2 (a + 1)); [| apply pow2_le; lia].
  rewrite pow2_add, pow2_1. generalize (pow2_pos a). lra.
Qed.
Lemma pow2_lt_inv a b : (pow2 a < pow2 b)%Q -> a < b.
Proof. intros H. destruct (Z_lt_le_dec a b); auto. apply pow2_le in l. lra. Qed.
Lemma split_pow e : (inject_Z (2 ^ Z.max 0 e) == pow2 e * inject_Z (2 ^ Z.max 0 (- e)))%Q.
Proof.
  rewrite <- !pow2_Z by lia. rewrite <- pow2_add. replace (e + Z.max 0 (- e)) with (Z.max 0 e) by lia. reflexivity.
Qed.

Lemma strip_val m : forall e, (inject_Z (Zpos (fst (strip m e))) * pow2 (snd (strip m e)) == inject_Z (Zpos m) * pow2 e)%Q.
Proof.
  induction m; intros e; simpl; try reflexivity. rewrite IHm, pow2_add, pow2_1.
  rewrite (Pos2Z.inj_xO m), inject_Z_mult. change (inject_Z 2) with 2%Q. ring.
Qed.
Lemma strip_odd m : forall e, Z.odd (Zpos (fst (strip m e))) = true.
Proof. induction m; intros e; simpl strip; [reflexivity | apply IHm | reflexivity]. Qed.
Lemma strip_le m : forall e, Zpos (fst (strip m e)) <= Zpos m.
Proof. induction m; intros e; simpl strip; simpl fst; try lia. specialize (IHm (e + 1)). lia. Qed.

Definition pm (s : bool) (q : Q) : Q := if s then (- q)%Q else q.
Global Instance pm_proper s : Proper (Qeq ==> Qeq) (pm s).
Proof. intros a b H. destruct s; simpl; rewrite H; reflexivity. Qed.
Lemma make_val s m e : 0 <= m -> finite (make s m e) = true /\ (val (make s m e) == pm s (inject_Z m * pow2 e))%Q.
Proof.
  intros H. destruct m as [|m|m]; [| | lia].
  - split; [reflexivity|]. simpl. destruct s; simpl; change (inject_Z 0) with 0%Q; ring.
  - simpl. generalize (strip_val m e). destruct (strip m e) as [k e'] eqn:E. simpl. intros V. split; [reflexivity|].
    destruct s; simpl; rewrite <- V; [|reflexivity]. change (Z.neg k) with (- Z.pos k). rewrite inject_Z_opp. ring.
Qed.

Lemma div_even_spec a b : 0 < b -> let q := div_even a b in
  - b <= 2 * (a - q * b) <= b /\ (2 * Z.abs (a - q * b) = b -> Z.even q = true).
Proof.
  intros Hb. cbv zeta. unfold div_even. pose proof (Z.div_mod a b ltac:(lia)) as E. pose proof (Z.mod_pos_bound a b Hb) as M.
  set (q := a / b) in *. set (r := a mod b) in *. clearbody q r.
  destruct (Z.ltb_spec (2 * r) b).
  - replace (a - q * b) with r by lia. split; [lia|]. intros. lia.
  - destruct (Z.ltb_spec b (2 * r)).
    + replace (a - (q + 1) * b) with (r - b) by lia. split; [lia|]. intros. lia.
    + destruct (Z.even q) eqn:Eq.
      * replace (a - q * b) with r by lia. split; [lia|]. auto.
      * replace (a - (q + 1) * b) with (r - b) by lia. split; [lia|]. intros _.
        rewrite Z.even_add, Eq. reflexivity.
Qed.
Lemma div_even_nonneg a b : 0 <= a -> 0 < b -> 0 <= div_even a b.
Proof.
  intros Ha Hb. pose proof (Z.div_pos a b Ha Hb). unfold div_even.
  destruct (2 * (a mod b) <? b); [lia|]. destruct (b <? 2 * (a mod b)); [lia|]. destruct (Z.even (a / b)); lia.
Qed.

(** The binary exponent of a quotient. *)
Lemma exponent_ok n d :
  let k := Z.log2 (Zpos n) - Z.log2 (Zpos d) in
  let E := if Zpos d * 2 ^ Z.max 0 k <=? Zpos n * 2 ^ Z.max 0 (- k) then k else k - 1 in
  (pow2 E <= inject_Z (Zpos n) / inject_Z (Zpos d) < pow2 (E + 1))%Q.
Proof.
  intros k E. subst E.
  assert (D0 : (0 < inject_Z (Zpos d))%Q) by (unfold Qlt; simpl; lia).
  assert (N0 : (0 < inject_Z (Zpos n))%Q) by (unfold Qlt; simpl; lia).
  pose proof (Z.log2_spec (Zpos n) ltac:(lia)) as [Ln Un]. pose proof (Z.log2_spec (Zpos d) ltac:(lia)) as [Ld Ud].
  pose proof (Z.log2_nonneg (Zpos n)). pose proof (Z.log2_nonneg (Zpos d)).
  rewrite Zle_Qle, <- pow2_Z in Ln, Ld by lia. rewrite Zlt_Qlt, <- pow2_Z in Un, Ud by lia.
  rewrite <- Z.add_1_r, pow2_add, pow2_1 in Un, Ud.
  assert (K : (pow2 (Z.log2 (Z.pos n)) == pow2 k * pow2 (Z.log2 (Z.pos d)))%Q).
  { rewrite <- pow2_add. unfold k. replace (Z.log2 (Z.pos n) - Z.log2 (Z.pos d) + Z.log2 (Z.pos d)) with (Z.log2 (Z.pos n)) by lia. reflexivity. }
  assert (C : (Zpos d * 2 ^ Z.max 0 k <= Zpos n * 2 ^ Z.max 0 (- k)) <-> (inject_Z (Zpos d) * pow2 k <= inject_Z (Zpos n))%Q).
  { rewrite Zle_Qle, !inject_Z_mult, (split_pow k).
    assert (P : (0 < inject_Z (2 ^ Z.max 0 (- k)))%Q) by (rewrite <- pow2_Z by lia; apply pow2_pos).
    rewrite Qmult_assoc. split; intros H1.
    - apply Qmult_lt_0_le_reg_r with (inject_Z (2 ^ Z.max 0 (- k))); auto.
    - apply Qmult_le_compat_r; auto. lra. }
  set (dd := inject_Z (Zpos d)) in *. set (nn := inject_Z (Zpos n)) in *. pose proof (pow2_pos k) as Pk.
  destruct (Z.leb_spec (Zpos d * 2 ^ Z.max 0 k) (Zpos n * 2 ^ Z.max 0 (- k))) as [H1|H1].
  - apply C in H1. split.
    + apply Qle_shift_div_l; auto. lra.
    + apply Qlt_shift_div_r; auto. rewrite pow2_add, pow2_1. nra.
  - assert (H2 : ~ (dd * pow2 k <= nn)%Q) by (rewrite <- C; lia). apply Qnot_le_lt in H2. split.
    + apply Qle_shift_div_l; auto. assert (Hk : (pow2 k == 2 * pow2 (k - 1))%Q).
      { replace k with (1 + (k - 1)) at 1 by lia. rewrite pow2_add, pow2_1. ring. }
      nra.
    + apply Qlt_shift_div_r; auto. replace (k - 1 + 1) with k by lia. lra.
Qed.

(** * Nearest numbers *)
Lemma fits_eq f x y : (x == y)%Q -> fits f x -> fits f y.
Proof. intros E (m & e & A & B & C). exists m, e. rewrite <- E. auto. Qed.
Lemma fits_opp f x : fits f x -> fits f (- x).
Proof.
  intros (m & e & A & B & C). exists (- m), e. rewrite Z.abs_opp. split; [auto|]. split; [auto|]. rewrite inject_Z_opp, C. ring.
Qed.
Lemma nearest_opp f x y : nearest f x y -> nearest f (- x) (- y).
Proof.
  intros (A & B & C). assert (S : forall z, (Qabs (- x - - y) == Qabs (x - y))%Q /\ (Qabs (- x - z) == Qabs (x - - z))%Q).
  { intros z. split.
    - rewrite <- (Qabs_opp (x - y)). apply Qabs_wd. ring.
    - rewrite <- (Qabs_opp (x - - z)). apply Qabs_wd. ring. }
  split; [|split].
  - apply fits_opp; auto.
  - intros z Fz. destruct (S z) as [S1 S2]. rewrite S1, S2. apply B. apply fits_opp; auto.
  - intros z Fz. destruct (S z) as [S1 S2]. rewrite S1, S2. intros E. destruct (C (- z)%Q) as [H|H]; auto using fits_opp.
    + left. rewrite <- H. ring.
    + right. apply fits_opp. exact H.
Qed.
Lemma nearest_eq f x x' y y' : (x == x')%Q -> (y == y')%Q -> nearest f x y -> nearest f x' y'.
Proof.
  intros Ex Ey (A & B & C). split; [|split].
  - apply (fits_eq Ey); auto.
  - intros z Fz. rewrite <- Ex, <- Ey. auto.
  - intros z Fz E. rewrite <- Ex, <- Ey in E. destruct (C z Fz E) as [H|H]; [left; rewrite <- Ey; auto|].
    right. apply (fits_eq Ey). auto.
Qed.
Lemma nearest_self f x : fits f x -> nearest f x x.
Proof.
  intros F. assert (Z0 : (Qabs (x - x) == 0)%Q) by (setoid_replace (x - x)%Q with 0%Q by ring; reflexivity).
  split; [auto|]. split.
  - intros z _. rewrite Z0. apply Qabs_nonneg.
  - intros z _. rewrite Z0. intros E. left.
    assert (H : (Qabs (x - z) <= 0)%Q) by (rewrite <- E; apply Qle_refl).
    apply Qabs_Qle_condition in H. destruct H as [H1 H2]. lra.
Qed.

(** Multiples of a unit. *)
Lemma Qabs_int (j : Z) : j <> 0 -> (1 <= Qabs (inject_Z j))%Q.
Proof. intros H. unfold Qle, Qabs, inject_Z. simpl. lia. Qed.

Lemma unit_multiple m e T : T <= e -> exists j, (inject_Z m * pow2 e == inject_Z j * pow2 T)%Q.
Proof.
  intros H. exists (m * 2 ^ (e - T)). rewrite inject_Z_mult, <- (@pow2_Z (e - T)) by lia.
  rewrite <- Qmult_assoc, <- pow2_add. replace (e - T + T) with e by lia. reflexivity.
Qed.

Lemma Qabs_close a b : (- b <= a <= b)%Q -> (Qabs a <= b)%Q.
Proof. intros [H1 H2]. apply Qabs_Qle_condition. auto. Qed.

Lemma one_lt_pow k : 0 < k -> 1 < 2 ^ k.
Proof. intros H. apply (Z.pow_lt_mono_r 2 0 k); lia. Qed.

Lemma nearest_core f X T q :
  2 <= prec f -> low_ok f T ->
  (pow2 (T + prec f - 1) <= X)%Q \/ (exists lo hi, bounds f = Some (lo, hi) /\ lo = T) ->
  (0 <= X)%Q -> (X < pow2 (T + prec f))%Q -> 0 <= q ->
  (- (1#2) * pow2 T <= X - inject_Z q * pow2 T <= (1#2) * pow2 T)%Q ->
  ((Qabs (X - inject_Z q * pow2 T) == (1#2) * pow2 T)%Q -> Z.even q = true) ->
  nearest f X (inject_Z q * pow2 T).
Proof.
  intros Hp LT Hlo HX0 HX Hq Hr Hev. set (p := prec f) in *. pose proof (pow2_pos T) as PT.
  assert (Bq : q <= 2 ^ p).
  { assert (H : (inject_Z q < inject_Z (2 ^ p + 1))%Q).
    { rewrite inject_Z_plus, <- pow2_Z by lia. rewrite pow2_add in HX. change (inject_Z 1) with 1%Q. nra. }
    rewrite <- Zlt_Qlt in H. lia. }
  assert (EV : Z.even q = true -> even f (inject_Z q * pow2 T)).
  { intros He. apply Z.even_spec in He. destruct He as [h Hh].
    assert (Bh : h <= 2 ^ (p - 1)). { replace p with (1 + (p - 1)) in Bq by lia. rewrite Z.pow_add_r in Bq by lia. lia. }
    destruct (Z.eq_dec h (2 ^ (p - 1))) as [Eh|Nh].
    - exists 1, (T + p). split; [|split].
      + unfold half. simpl. fold p. apply one_lt_pow. lia.
      + unfold low_ok, half in *. simpl. destruct (bounds f) as [[lo hi]|]; auto. lia.
      + rewrite Hh, Eh, inject_Z_mult, <- pow2_Z by lia. change (inject_Z 2) with 2%Q. rewrite <- pow2_1 at 1.
        rewrite <- !pow2_add. change (inject_Z 1) with 1%Q. rewrite Qmult_1_l. replace (1 + (p - 1) + T) with (T + p) by lia. reflexivity.
    - exists h, (T + 1). split; [|split].
      + unfold half. simpl. fold p. lia.
      + unfold low_ok, half in *. simpl. destruct (bounds f) as [[lo hi]|]; auto. lia.
      + rewrite Hh, inject_Z_mult, pow2_add, pow2_1. change (inject_Z 2) with 2%Q. ring. }
  assert (FY : fits f (inject_Z q * pow2 T)).
  { destruct (Z.eq_dec q (2 ^ p)) as [Eq|Nq].
    - exists 1, (T + p). split; [|split].
      + fold p. apply one_lt_pow. lia.
      + unfold low_ok in *. destruct (bounds f) as [[lo hi]|]; auto. lia.
      + rewrite Eq, <- pow2_Z, pow2_add by lia. change (inject_Z 1) with 1%Q. ring.
    - exists q, T. split; [|split]; auto. fold p. lia. reflexivity. }
  assert (ABS : (Qabs (X - inject_Z q * pow2 T) <= (1#2) * pow2 T)%Q).
  { apply Qabs_close. split; destruct Hr; lra. }
  (* multiples of the unit *)
  assert (MU : forall j, (Qabs (X - inject_Z q * pow2 T) <= Qabs (X - inject_Z j * pow2 T))%Q /\
     ((Qabs (X - inject_Z q * pow2 T) == Qabs (X - inject_Z j * pow2 T))%Q -> j = q \/ even f (inject_Z q * pow2 T))).
  { intros j. destruct (Z.eq_dec j q) as [->|N]; [split; [apply Qle_refl | auto]|].
    assert (H1 : ((1#2) * pow2 T <= Qabs (X - inject_Z j * pow2 T))%Q).
    { assert (H2 : (Qabs (inject_Z (q - j) * pow2 T) <= Qabs (X - inject_Z j * pow2 T) + Qabs (X - inject_Z q * pow2 T))%Q).
      { rewrite <- (Qabs_opp (X - inject_Z q * pow2 T)).
        eapply Qle_trans; [|apply Qabs_triangle]. apply Qle_lteq. right. apply Qabs_wd.
        unfold Z.sub. rewrite inject_Z_plus, inject_Z_opp. ring. }
      rewrite Qabs_Qmult, (Qabs_pos (pow2 T)) in H2 by lra. pose proof (@Qabs_int (q - j) ltac:(lia)) as H3. nra. }
    split; [lra|]. intros E. right. apply EV, Hev. lra. }
  assert (ALL : forall z, fits f z -> (exists j, (z == inject_Z j * pow2 T)%Q) \/
      (Qabs (X - inject_Z q * pow2 T) < Qabs (X - z))%Q).
  { intros z (m & e & Am & Le & Ez). fold p in Am. destruct (Z_le_gt_dec T e) as [H|H].
    - left. destruct (@unit_multiple m e T H) as [j Hj]. exists j. rewrite Ez. auto.
    - destruct Hlo as [Hlo|(lo & hi & Eb & El)].
      2:{ unfold low_ok in Le. rewrite Eb in Le. lia. }
      right. set (w := pow2 (T + p - 1)) in *.
      destruct (MU (2 ^ (p - 1))) as [Mw _].
      assert (Ew : (inject_Z (2 ^ (p - 1)) * pow2 T == w)%Q).
      { unfold w. rewrite <- pow2_Z, <- pow2_add by lia. replace (p - 1 + T) with (T + p - 1) by lia. reflexivity. }
      rewrite Ew in Mw.
      assert (Hz : (z < w)%Q).
      { rewrite Ez. apply Qlt_le_trans with (inject_Z (2 ^ p) * pow2 e)%Q.
        - apply Qmult_lt_r; [apply pow2_pos|]. rewrite <- Zlt_Qlt. lia.
        - rewrite <- pow2_Z, <- pow2_add by lia. unfold w. apply pow2_le. lia. }
      rewrite (Qabs_pos (X - w)) in Mw by lra. rewrite (Qabs_pos (X - z)) by lra. lra. }
  split; [auto|]. split.
  - intros z Fz. destruct (ALL z Fz) as [[j Ej]|H]; [|lra]. rewrite Ej. apply MU.
  - intros z Fz E. destruct (ALL z Fz) as [[j Ej]|H]; [|lra]. rewrite Ej in E. apply MU in E. destruct E as [->|E]; auto.
Qed.

Definition overflows (f : format) (y : Q) : Prop :=
  match bounds f with None => False | Some (_, hi) => (pow2 hi <= y)%Q end.
Definition proper (f : format) : Prop :=
  2 <= prec f /\ match bounds f with None => True | Some (lo, hi) => lo < hi end.

Lemma log2_pow2 q e : 0 < q -> (pow2 e <= inject_Z q)%Q <-> e <= Z.log2 q.
Proof.
  intros Hq. pose proof (Z.log2_spec q Hq) as [L U]. pose proof (Z.log2_nonneg q).
  rewrite Zle_Qle, <- pow2_Z in L by lia. rewrite Zlt_Qlt, <- pow2_Z in U by lia. split; intros H1.
  - destruct (Z_le_gt_dec e (Z.log2 q)); auto. assert (pow2 (Z.succ (Z.log2 q)) <= pow2 e)%Q by (apply pow2_le; lia). lra.
  - apply Qle_trans with (pow2 (Z.log2 q)); auto. apply pow2_le. auto.
Qed.

Lemma round_spec f s n d e : proper f ->
  exists y, nearest f (inject_Z (Zpos n) / inject_Z (Zpos d) * pow2 e) y /\ (0 <= y)%Q /\
    (overflows f y /\ round f s n d e = Inf s \/
     ~ overflows f y /\ finite (round f s n d e) = true /\ (val (round f s n d e) == pm s y)%Q).
Proof.
  intros [Hp Hb]. unfold round.
  set (k := Z.log2 (Zpos n) - Z.log2 (Zpos d)).
  set (E := if Zpos d * 2 ^ Z.max 0 k <=? Zpos n * 2 ^ Z.max 0 (- k) then k else k - 1).
  assert (HE : (pow2 E <= inject_Z (Zpos n) / inject_Z (Zpos d) < pow2 (E + 1))%Q) by apply exponent_ok.
  clearbody E. clear k.
  set (t := match bounds f with None => E + 1 - prec f | Some (lo, _) => Z.max (E + 1 - prec f) (lo - e) end).
  set (x := (inject_Z (Zpos n) / inject_Z (Zpos d))%Q) in *.
  set (a := Zpos n * 2 ^ Z.max 0 (- t)). set (b := Zpos d * 2 ^ Z.max 0 t).
  assert (D0 : (0 < inject_Z (Zpos d))%Q) by (unfold Qlt; simpl; lia).
  assert (Hb0 : 0 < b) by (unfold b; pose proof (Z.pow_pos_nonneg 2 (Z.max 0 t)); lia).
  assert (Ha0 : 0 <= a) by (unfold a; pose proof (Z.pow_nonneg 2 (Z.max 0 (- t))); lia).
  assert (Ab : (inject_Z a == x * pow2 (- t) * inject_Z b)%Q).
  { unfold a, b. rewrite !inject_Z_mult. rewrite (split_pow (- t)). unfold x.
    replace (- - t) with t by lia. field. lra. }
  pose proof (div_even_spec a Hb0) as [Hq1 Hq2]. pose proof (div_even_nonneg Ha0 Hb0) as Hq0.
  set (q := div_even a b) in *. clearbody q.
  assert (Bq : (0 < inject_Z b)%Q) by (change 0%Q with (inject_Z 0); rewrite <- Zlt_Qlt; auto).
  set (T := t + e).
  assert (PT : (pow2 T == pow2 t * pow2 e)%Q) by apply pow2_add.
  assert (Pt : (pow2 (- t) * pow2 t == 1)%Q) by (rewrite <- pow2_add; replace (- t + t) with 0 by lia; reflexivity).
  pose proof (pow2_pos t) as P1. pose proof (pow2_pos e) as P2. pose proof (pow2_pos (- t)) as P3.
  assert (DIFF : (inject_Z (a - q * b) * pow2 T == (x * pow2 e - inject_Z q * pow2 T) * inject_Z b)%Q).
  { unfold Z.sub. rewrite inject_Z_plus, inject_Z_opp, inject_Z_mult, Ab, PT.
    setoid_replace ((x * pow2 (- t) * inject_Z b + - (inject_Z q * inject_Z b)) * (pow2 t * pow2 e))%Q
      with ((x * (pow2 (- t) * pow2 t) * pow2 e - inject_Z q * (pow2 t * pow2 e)) * inject_Z b)%Q by ring.
    rewrite Pt. ring. }
  pose proof (pow2_pos T) as P4.
  assert (NX : nearest f (x * pow2 e) (inject_Z q * pow2 T)).
  { apply nearest_core; auto.
    - unfold low_ok, T, t. destruct (bounds f) as [[lo hi]|]; auto. lia.
    - assert (Cs : t = E + 1 - prec f \/ (exists lo hi, bounds f = Some (lo, hi) /\ lo = T)).
      { unfold T, t. destruct (bounds f) as [[lo hi]|]; auto.
        destruct (Z.max_spec (E + 1 - prec f) (lo - e)) as [[H1 H2]|[H1 H2]]; rewrite H2; auto. right. exists lo, hi. split; auto. lia. }
      destruct Cs as [Et|Cs]; [left|right; auto]. unfold T. rewrite Et. replace (E + 1 - prec f + e + prec f - 1) with (E + e) by lia.
      rewrite pow2_add. apply Qmult_le_compat_r; [apply HE | lra].
    - apply Qmult_le_0_compat; [|lra]. generalize (pow2_pos E). lra.
    - apply Qlt_le_trans with (pow2 (E + 1) * pow2 e)%Q; [apply Qmult_lt_r; auto; apply HE|].
      rewrite <- pow2_add. apply pow2_le. unfold T, t. destruct (bounds f) as [[lo hi]|]; lia.
    - assert (H1 : (inject_Z (- b) <= inject_Z (2 * (a - q * b)) <= inject_Z b)%Q) by (rewrite <- !Zle_Qle; lia).
      rewrite inject_Z_opp, inject_Z_mult in H1. change (inject_Z 2) with 2%Q in H1.
      set (D := (x * pow2 e - inject_Z q * pow2 T)%Q) in *. set (r := inject_Z (a - q * b)) in *.
      assert (H2 : (- ((1#2) * pow2 T * inject_Z b) <= D * inject_Z b <= (1#2) * pow2 T * inject_Z b)%Q) by (rewrite <- DIFF; nra).
      clear - H2 Bq. split; nra.
    - intros EQ. apply Hq2. set (D := (x * pow2 e - inject_Z q * pow2 T)%Q) in *.
      assert (H1 : (Qabs (inject_Z (a - q * b)) * pow2 T == (1#2) * pow2 T * inject_Z b)%Q).
      { rewrite <- EQ. rewrite <- (Qabs_pos (pow2 T)) at 1 by lra. rewrite <- Qabs_Qmult, DIFF, Qabs_Qmult, (Qabs_pos (inject_Z b)) by lra. reflexivity. }
      assert (H2 : (2 * Qabs (inject_Z (a - q * b)) == inject_Z b)%Q) by nra.
      assert (H3 : (Qabs (inject_Z (a - q * b)) == inject_Z (Z.abs (a - q * b)))%Q) by reflexivity.
      rewrite H3 in H2. change 2%Q with (inject_Z 2) in H2. rewrite <- inject_Z_mult in H2. apply (proj1 (inject_Z_injective _ _)) in H2. exact H2. }
  exists (inject_Z q * pow2 T)%Q. split; [auto|].
  assert (Y0 : (0 <= inject_Z q * pow2 T)%Q).
  { apply Qmult_le_0_compat; [|lra]. change 0%Q with (inject_Z 0). rewrite <- Zle_Qle. auto. }
  split; [auto|].
  destruct (@make_val s q T Hq0) as [M1 M2].
  unfold overflows. fold t. destruct (bounds f) as [[lo hi]|] eqn:Eb; [|right; auto].
  assert (OV : (hi <= Z.log2 q + t + e) <-> (pow2 hi <= inject_Z q * pow2 T)%Q).
  { destruct (Z.eq_dec q 0) as [Zq|Nq].
    - subst q. change (Z.log2 0) with 0. change (inject_Z 0) with 0%Q. pose proof (pow2_pos hi) as Ph.
      split; intros H1; [|exfalso; nra]. exfalso.
      assert (TL : t + e <= lo \/ t = E + 1 - prec f).
      { unfold t. lia. }
      destruct TL as [TL|TL]; [lia|].
      assert ((1 # 2) * pow2 T < x * pow2 e)%Q.
      { apply Qlt_le_trans with (pow2 E * pow2 e)%Q; [|apply Qmult_le_compat_r; [apply HE|lra]].
        rewrite <- pow2_add. unfold T. rewrite TL.
        assert (pow2 (E + 1 - prec f + e) < pow2 (E + e))%Q by (apply pow2_lt; lia).
        generalize (pow2_pos (E + 1 - prec f + e)). lra. }
      assert (2 * Z.abs a <= b) by lia.
      rewrite Zle_Qle, inject_Z_mult in H0. change (inject_Z 2) with 2%Q in H0.
      assert (inject_Z a <= inject_Z (Z.abs a))%Q by (rewrite <- Zle_Qle; lia).
      rewrite Z.mul_0_l, Z.sub_0_r in DIFF. change (inject_Z 0) with 0%Q in DIFF.
      set (A := inject_Z a) in *. set (A' := inject_Z (Z.abs a)) in *. set (B := inject_Z b) in *. set (Xe := (x * pow2 e)%Q) in *.
      assert (A * pow2 T == Xe * B)%Q by (rewrite DIFF; ring).
      assert (2 * A <= B)%Q by lra.
      nra.
    - assert (HT : (pow2 hi <= inject_Z q * pow2 T)%Q <-> (pow2 (hi - T) <= inject_Z q)%Q).
      { assert (X1 : (pow2 hi == pow2 (hi - T) * pow2 T)%Q) by (rewrite <- pow2_add; replace (hi - T + T) with hi by lia; reflexivity).
        rewrite X1. split; intros H1; [apply Qmult_lt_0_le_reg_r with (pow2 T); auto | apply Qmult_le_compat_r; auto; lra]. }
      rewrite HT, log2_pow2 by lia. unfold T. lia. }
  destruct (Z.leb_spec hi (Z.log2 q + t + e)) as [H1|H1].
  - left. split; [apply OV; auto | reflexivity].
  - right. split; [rewrite <- OV; lia | auto].
Qed.
