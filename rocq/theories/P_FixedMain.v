(** Proofs about the numbers of fixed precision: operations, comparisons, conversions. *)
From Coq Require Import QArith Qpower Qabs ZArith Bool List Lia Lqa.
From Verif Require Import M_Base M_Fixed S_Fixed P_Base P_Fixed.
From Verif Require S_Float.
Import ListNotations.
Set Implicit Arguments. Unset Strict Implicit.
Local Open Scope Z_scope.

(** * The nearest number is unique *)
Lemma Qabs_cases (x : Q) : (0 <= x)%Q /\ (Qabs x == x)%Q \/ (x <= 0)%Q /\ (Qabs x == - x)%Q.
Proof.
  destruct (Qlt_le_dec x 0) as [H|H].
  - right. split; [lra|]. apply Qabs_neg. lra.
  - left. split; auto. apply Qabs_pos. auto.
Qed.

Ltac qabs := repeat match goal with
  | H : context [Qabs ?x] |- _ => let A := fresh "A" in let B := fresh "B" in destruct (Qabs_cases x) as [[A B]|[A B]]; rewrite B in H; clear B
  | |- context [Qabs ?x] => let A := fresh "A" in let B := fresh "B" in destruct (Qabs_cases x) as [[A B]|[A B]]; rewrite B; clear B
  end.

Lemma half_step f y : even f y -> exists m e, (y == inject_Z m * pow2 e)%Q /\
  fits f (inject_Z (2 * m + 1) * pow2 (e - 1)) /\ fits f (inject_Z (2 * m - 1) * pow2 (e - 1)) \/ prec f < 1.
Proof.
  intros (m & e & A & B & C). exists m, e. destruct (Z_lt_le_dec (prec f) 1) as [H|H]; [auto|left].
  split; [auto|]. unfold half in A. simpl in A.
  assert (P : 2 ^ prec f = 2 * 2 ^ (prec f - 1)).
  { replace (prec f) with (1 + (prec f - 1)) at 1 by lia. rewrite Z.pow_add_r by lia. reflexivity. }
  assert (L : low_ok f (e - 1)).
  { unfold low_ok, half in *. simpl in B. destruct (bounds f) as [[lo hi]|]; auto. lia. }
  split; [exists (2 * m + 1), (e - 1) | exists (2 * m - 1), (e - 1)]; (split; [lia|]; split; [auto|reflexivity]).
Qed.

Lemma nearest_between f x y y' : 1 <= prec f -> nearest f x y -> nearest f x y' -> ~ (y < y')%Q.
Proof.
  intros Hp (F1 & N1 & E1) (F2 & N2 & E2) LT.
  pose proof (N1 _ F2) as D1. pose proof (N2 _ F1) as D2.
  assert (DE : (Qabs (x - y) == Qabs (x - y'))%Q) by (apply Qle_antisym; auto).
  assert (MID : (x == (1#2) * (y + y'))%Q) by (qabs; lra).
  assert (V1 : even f y) by (destruct (E1 _ F2 DE) as [H|H]; auto; exfalso; lra).
  assert (V2 : even f y') by (destruct (E2 _ F1 ltac:(symmetry; auto)) as [H|H]; auto; exfalso; lra).
  assert (GAP : forall z, fits f z -> ~ (y < z /\ z < y')%Q).
  { intros z Fz [H1 H2]. specialize (N1 _ Fz). qabs; lra. }
  destruct (half_step V1) as (m1 & e1 & [(Y1 & Fa & _)|H]); [|lia].
  destruct (half_step V2) as (m2 & e2 & [(Y2 & _ & Fb)|H]); [|lia].
  assert (S1 : (pow2 e1 == 2 * pow2 (e1 - 1))%Q) by (replace e1 with (1 + (e1 - 1)) at 1 by lia; rewrite pow2_add, pow2_1; ring).
  assert (S2 : (pow2 e2 == 2 * pow2 (e2 - 1))%Q) by (replace e2 with (1 + (e2 - 1)) at 1 by lia; rewrite pow2_add, pow2_1; ring).
  pose proof (pow2_pos (e1 - 1)) as P1. pose proof (pow2_pos (e2 - 1)) as P2.
  assert (B1 : (y' - y <= pow2 (e1 - 1))%Q).
  { destruct (Qlt_le_dec (pow2 (e1 - 1)) (y' - y)) as [H|H]; auto. exfalso.
    apply (GAP _ Fa). rewrite inject_Z_plus, inject_Z_mult. change (inject_Z 2) with 2%Q. change (inject_Z 1) with 1%Q.
    setoid_replace ((2 * inject_Z m1 + 1) * pow2 (e1 - 1))%Q with (y + pow2 (e1 - 1))%Q by (rewrite Y1, S1; ring). split; lra. }
  assert (B2 : (y' - y <= pow2 (e2 - 1))%Q).
  { destruct (Qlt_le_dec (pow2 (e2 - 1)) (y' - y)) as [H|H]; auto. exfalso.
    apply (GAP _ Fb). unfold Z.sub at 1 3. rewrite inject_Z_plus, inject_Z_mult. change (inject_Z 2) with 2%Q. change (inject_Z (- (1))) with (- (1))%Q.
    setoid_replace ((2 * inject_Z m2 + - (1)) * pow2 (e2 - 1))%Q with (y' - pow2 (e2 - 1))%Q by (rewrite Y2, S2; ring). split; lra. }
  set (g := Z.min e1 e2).
  destruct (@unit_multiple m1 e1 g ltac:(unfold g; lia)) as [j1 J1]. destruct (@unit_multiple m2 e2 g ltac:(unfold g; lia)) as [j2 J2].
  pose proof (pow2_pos g) as Pg.
  assert (YD : (y' - y == inject_Z (j2 - j1) * pow2 g)%Q).
  { unfold Z.sub. rewrite inject_Z_plus, inject_Z_opp, Y1, Y2, J1, J2. ring. }
  assert (JJ : 1 <= j2 - j1).
  { assert (0 < inject_Z (j2 - j1))%Q by nra. change 0%Q with (inject_Z 0) in H. rewrite <- Zlt_Qlt in H. lia. }
  rewrite Zle_Qle in JJ. change (inject_Z 1) with 1%Q in JJ.
  assert (GG : (pow2 g <= y' - y)%Q) by (rewrite YD; nra).
  destruct (Z.min_spec e1 e2) as [[_ H]|[_ H]]; fold g in H; rewrite H in GG; lra.
Qed.

Lemma nearest_unique f x x' y y' : 1 <= prec f -> (x == x')%Q -> nearest f x y -> nearest f x' y' -> (y == y')%Q.
Proof.
  intros Hp E N1 N2. assert (N3 : nearest f x y') by (eapply nearest_eq; [symmetry; exact E | reflexivity | exact N2]).
  destruct (Q_dec y y') as [[H|H]|H]; auto; exfalso.
  - apply (nearest_between Hp N1 N3 H).
  - apply (nearest_between Hp N3 N1 H).
Qed.

Lemma nearest_mono f x x' y y' : 1 <= prec f -> (x <= x')%Q -> nearest f x y -> nearest f x' y' -> (y <= y')%Q.
Proof.
  intros Hp L N1 N2. destruct (Qlt_le_dec y' y) as [H|H]; auto. exfalso.
  assert (E : (x == x')%Q).
  { destruct N1 as (F1 & N1 & _), N2 as (F2 & N2 & _). specialize (N1 _ F2). specialize (N2 _ F1). qabs; lra. }
  pose proof (nearest_unique Hp E N1 N2). lra.
Qed.

(** * Numbers in their canonical form *)
Definition canon (x : num) : Prop := match x with Num _ m _ => Z.odd (Zpos m) = true | _ => True end.

Lemma make_canon s q t : 0 <= q -> canon (make s q t) /\ sign (make s q t) = s /\ finite (make s q t) = true.
Proof.
  intros H. destruct q as [|k|k]; [simpl; auto | | lia].
  unfold make. pose proof (strip_odd k t) as O. destruct (strip k t) as [k' t']. simpl in *. auto.
Qed.

Lemma round_cases f s n d e : round f s n d e = Inf s \/ exists q t, 0 <= q /\ round f s n d e = make s q t.
Proof.
  assert (H : forall t, 0 <= div_even (Z.pos n * 2 ^ Z.max 0 (- t)) (Z.pos d * 2 ^ Z.max 0 t)).
  { intros t. apply div_even_nonneg; [apply Z.mul_nonneg_nonneg; [lia | apply Z.pow_nonneg; lia] | apply Z.mul_pos_pos; [lia | apply Z.pow_pos_nonneg; lia]]. }
  unfold round. cbv zeta. destruct (bounds f) as [[lo hi]|].
  - match goal with |- context [if ?c then Inf s else _] => destruct c end; [auto|]. right. eexists. eexists. split; [|reflexivity]. apply H.
  - right. eexists. eexists. split; [|reflexivity]. apply H.
Qed.

Lemma round_canon f s n d e : canon (round f s n d e) /\ sign (round f s n d e) = s /\ round f s n d e <> NaN.
Proof.
  destruct (round_cases f s n d e) as [H|(q & t & Hq & H)]; rewrite H; [simpl; repeat split; discriminate|].
  destruct (@make_canon s q t Hq) as (A & B & C). split; [auto|]. split; [auto|]. intros E. rewrite E in C. discriminate.
Qed.

Lemma num_zero x : finite x = true -> (val x == 0)%Q -> x = Zero (sign x).
Proof.
  destruct x as [|s|s|s m e]; simpl; try discriminate; auto. intros _ H. exfalso.
  pose proof (pow2_pos e) as P. destruct s.
  - assert (inject_Z (Z.neg m) < 0)%Q by reflexivity. nra.
  - assert (0 < inject_Z (Z.pos m))%Q by reflexivity. nra.
Qed.

Lemma odd_pow m e m' e' : Z.odd m = true -> (inject_Z m * pow2 e == inject_Z m' * pow2 e')%Q -> e' <= e -> m' = m * 2 ^ (e - e').
Proof.
  intros O E L. assert (X : (pow2 e == pow2 (e - e') * pow2 e')%Q) by (rewrite <- pow2_add; replace (e - e' + e') with e by lia; reflexivity).
  rewrite X, (@pow2_Z (e - e')) in E by lia. apply (proj1 (inject_Z_injective _ _)). rewrite inject_Z_mult. pose proof (pow2_pos e'). nra.
Qed.

Lemma odd_eq m e m' e' : Z.odd m = true -> Z.odd m' = true -> (inject_Z m * pow2 e == inject_Z m' * pow2 e')%Q -> m = m' /\ e = e'.
Proof.
  assert (W : forall m e m' e', Z.odd m = true -> Z.odd m' = true -> (inject_Z m * pow2 e == inject_Z m' * pow2 e')%Q -> e' <= e -> m = m' /\ e = e').
  { clear. intros m e m' e' O O' E L. pose proof (odd_pow O E L) as H. destruct (Z.eq_dec e e') as [->|N].
    - rewrite Z.sub_diag in H. split; lia.
    - exfalso. rewrite H, Z.odd_mul, Z.odd_pow in O' by lia. rewrite andb_false_r in O'. discriminate. }
  intros O O' E. destruct (Z_le_gt_dec e' e) as [L|L]; [apply W; auto|].
  symmetry in E. destruct (W m' e' m e O' O E ltac:(lia)). auto.
Qed.

Lemma canon_eq x y : canon x -> canon y -> finite x = true -> finite y = true -> sign x = sign y -> (val x == val y)%Q -> x = y.
Proof.
  intros Cx Cy Fx Fy S V. destruct x as [|s|s|s m e], y as [|s'|s'|s' m' e']; try discriminate; simpl in S; subst.
  - auto.
  - exfalso. symmetry in V. apply num_zero in V; [discriminate|auto].
  - exfalso. apply num_zero in V; [discriminate|auto].
  - simpl in V, Cx, Cy. destruct s'.
    + destruct (@odd_eq (Z.neg m) e (Z.neg m') e') as [H1 H2]; auto. injection H1 as ->. rewrite H2. auto.
    + destruct (@odd_eq (Z.pos m) e (Z.pos m') e') as [H1 H2]; auto. injection H1 as ->. rewrite H2. auto.
Qed.

Lemma canon_fits f x : canon x -> finite x = true -> fits f (val x) -> number (prec f) x.
Proof.
  intros C F (m' & e' & A & _ & V). destruct x as [|s|s|s m e]; simpl; auto. split; [exact C|].
  simpl in V, C. set (M := if s then Z.neg m else Z.pos m) in *.
  assert (O : Z.odd M = true) by (destruct s; exact C). assert (AM : Z.abs M = Z.pos m) by (destruct s; reflexivity).
  destruct (Z_le_gt_dec e' e) as [L|L].
  - pose proof (odd_pow O V L) as H. rewrite H, Z.abs_mul, AM in A.
    assert (1 <= Z.abs (2 ^ (e - e'))) by (pose proof (Z.pow_pos_nonneg 2 (e - e')); lia). nia.
  - destruct (Z.eq_dec m' 0) as [->|Nz].
    + exfalso. change (inject_Z 0 * pow2 e')%Q with (0 * pow2 e')%Q in V.
      assert (V0 : (val (Num s m e) == 0)%Q) by (simpl; fold M; rewrite V; ring). apply num_zero in V0; [discriminate|reflexivity].
    + assert (X : (pow2 e' == pow2 (e' - e) * pow2 e)%Q) by (rewrite <- pow2_add; replace (e' - e + e) with e' by lia; reflexivity).
      rewrite X, (@pow2_Z (e' - e)) in V by lia.
      assert (H : M = m' * 2 ^ (e' - e)) by (apply (proj1 (inject_Z_injective _ _)); rewrite inject_Z_mult; pose proof (pow2_pos e); nra).
      exfalso. rewrite H, Z.odd_mul, Z.odd_pow in O by lia. rewrite andb_false_r in O. discriminate.
Qed.

Lemma number_canon p x : number p x -> canon x.
Proof. destruct x; simpl; tauto. Qed.

Lemma number_fits p x : 0 <= p -> number p x -> finite x = true -> fits (fixed p) (val x).
Proof.
  intros Hp N F. destruct x as [|s|s|s m e]; try discriminate.
  - exists 0, 0. split; [simpl; apply Z.pow_pos_nonneg; lia|]. split; [exact I|]. reflexivity.
  - destruct N as [_ N]. exists (if s then Z.neg m else Z.pos m), e. split; [destruct s; simpl; lia|]. split; [exact I|reflexivity].
Qed.

Lemma fixed_proper p : 2 <= p -> proper (fixed p).
Proof. intros. split; simpl; auto. Qed.
Lemma double_proper : proper double. Proof. split; simpl; lia. Qed.
Lemma long_double_proper : proper long_double. Proof. split; simpl; lia. Qed.

(** Rounding to the precision: *)
Lemma round_fixed p s n d e : 2 <= p -> let r := round (fixed p) s n d e in
  finite r = true /\ number p r /\ nearest (fixed p) (pm s (inject_Z (Zpos n) / inject_Z (Zpos d) * pow2 e)) (val r).
Proof.
  intros Hp r. destruct (@round_spec (fixed p) s n d e (fixed_proper Hp)) as (y & N & Y0 & [[O _]|(O & F & V)]); [destruct O|].
  fold r in F, V.
  assert (NN : nearest (fixed p) (pm s (inject_Z (Zpos n) / inject_Z (Zpos d) * pow2 e)) (val r)).
  { eapply nearest_eq; [reflexivity | symmetry; exact V |]. destruct s; simpl; [apply nearest_opp|]; exact N. }
  split; [exact F|]. split; [|exact NN].
  apply (@canon_fits (fixed p)); auto; [apply round_canon|]. apply NN.
Qed.

Lemma round_exact f s m e : proper f -> Z.odd (Zpos m) = true -> fits f (inject_Z (Zpos m) * pow2 e) ->
  ~ overflows f (inject_Z (Zpos m) * pow2 e) -> round f s m 1 e = Num s m e.
Proof.
  intros Hp O F NO. destruct (@round_spec f s m 1%positive e Hp) as (y & N & Y0 & Hy).
  assert (E : (y == inject_Z (Zpos m) * pow2 e)%Q).
  { apply (@nearest_unique f (inject_Z (Z.pos m) / inject_Z 1 * pow2 e) (inject_Z (Zpos m) * pow2 e)); auto.
    - destruct Hp; lia.
    - change (inject_Z 1) with 1%Q. field.
    - apply nearest_self; auto. }
  assert (NY : ~ overflows f y).
  { unfold overflows in *. destruct (bounds f) as [[lo hi]|]; auto. rewrite E. auto. }
  destruct Hy as [[H _]|(_ & Fr & V)]; [contradiction|].
  destruct (round_canon f s m 1 e) as (C & S & _). apply canon_eq; auto.
  rewrite V. destruct s; cbn [pm]; rewrite E; simpl; [|reflexivity]. change (Z.neg m) with (- Z.pos m). rewrite inject_Z_opp. ring.
Qed.

Lemma convert_number p x : 2 <= p -> number p x -> convert (fixed p) x = x.
Proof.
  intros Hp N. destruct x as [|s|s|s m e]; auto. simpl. apply round_exact; auto using fixed_proper.
  - apply N.
  - apply (number_fits (x := Num false m e)); auto; lia.
Qed.

(** * Operations *)
Lemma signed_val s m e : (val (Num s m e) == inject_Z (signed s (Zpos m)) * pow2 e)%Q.
Proof. destruct s; reflexivity. Qed.

Lemma scaled s m e g : g <= e -> (inject_Z (signed s (Zpos m * 2 ^ (e - g))) * pow2 g == val (Num s m e))%Q.
Proof.
  intros H. assert (X : (pow2 e == inject_Z (2 ^ (e - g)) * pow2 g)%Q) by (rewrite <- pow2_Z, <- pow2_add by lia; replace (e - g + g) with e by lia; reflexivity).
  rewrite signed_val. destruct s; cbn [signed]; rewrite X, ?inject_Z_opp, ?inject_Z_mult; ring.
Qed.

Lemma fits_zero f : 0 <= prec f -> fits f 0.
Proof.
  intros H. exists 0. exists (match bounds f with None => 0 | Some (lo, _) => lo end). split; [|split].
  - simpl. apply Z.pow_pos_nonneg; lia.
  - unfold low_ok. destruct (bounds f) as [[lo hi]|]; [lia|auto].
  - change (inject_Z 0) with 0%Q. ring.
Qed.

Definition of_int (p z g : Z) : num :=
  match z with Z0 => Zero false | Zpos k => round (fixed p) false k 1 g | Zneg k => round (fixed p) true k 1 g end.
Lemma of_int_ok p z g : 2 <= p -> let r := of_int p z g in
  finite r = true /\ number p r /\ nearest (fixed p) (inject_Z z * pow2 g) (val r).
Proof.
  intros Hp r. unfold r, of_int. destruct z as [|k|k].
  - split; [auto|]. split; [exact I|]. eapply nearest_eq; [| reflexivity | apply nearest_self, fits_zero]; simpl; [|lia].
    change (inject_Z 0) with 0%Q. ring.
  - destruct (@round_fixed p false k 1 g Hp) as (A & B & C). split; [auto|]. split; [auto|].
    eapply nearest_eq; [|reflexivity|exact C]. simpl. change (inject_Z 1) with 1%Q. field.
  - destruct (@round_fixed p true k 1 g Hp) as (A & B & C). split; [auto|]. split; [auto|].
    eapply nearest_eq; [|reflexivity|exact C]. simpl. change (inject_Z 1) with 1%Q. change (Z.neg k) with (- Z.pos k). rewrite inject_Z_opp. field.
Qed.

Lemma number_opposite p x : number p x -> number p (opposite x).
Proof. destruct x; simpl; auto. Qed.
Lemma opposite_val x : (val (opposite x) == - val x)%Q.
Proof.
  destruct x as [|s|s|s m e]; simpl; try ring. destruct s; simpl; [change (Z.neg m) with (- Z.pos m)|change (Z.neg m) with (- Z.pos m)]; rewrite ?inject_Z_opp; ring.
Qed.
Lemma opposite_finite x : finite (opposite x) = finite x. Proof. destruct x; auto. Qed.

Definition good (p : Z) (q : Q) (r : num) : Prop := finite r = true /\ number p r /\ nearest (fixed p) q (val r).

Lemma good_self p x q : 2 <= p -> number p x -> finite x = true -> (q == val x)%Q -> good p q x.
Proof.
  intros Hp N F E. split; [auto|]. split; [auto|]. eapply nearest_eq; [symmetry; exact E | reflexivity|].
  apply nearest_self. apply number_fits; auto; lia.
Qed.

Lemma good_eq p q q' r : (q == q')%Q -> good p q r -> good p q' r.
Proof. intros E (A & B & C). split; [auto|]. split; [auto|]. eapply nearest_eq; [exact E | reflexivity | exact C]. Qed.

Lemma add_ok p x y : 2 <= p -> number p x -> number p y -> finite x = true -> finite y = true -> good p (val x + val y) (add p x y).
Proof.
  intros Hp Nx Ny Fx Fy. destruct x as [|s|s|s m e], y as [|s'|s'|s' m' e']; try discriminate.
  - simpl. destruct (Bool.eqb s s'); apply good_self; simpl; auto; reflexivity.
  - unfold add. rewrite convert_number by auto. apply good_self; auto. simpl. ring.
  - unfold add. rewrite convert_number by auto. apply good_self; auto. simpl. ring.
  - unfold add. set (g := Z.min e e').
    assert (E : (inject_Z (signed s (Zpos m * 2 ^ (e - g)) + signed s' (Zpos m' * 2 ^ (e' - g))) * pow2 g == val (Num s m e) + val (Num s' m' e'))%Q).
    { rewrite inject_Z_plus, Qmult_plus_distr_l, !scaled by (unfold g; lia). reflexivity. }
    eapply good_eq; [exact E|]. apply (@of_int_ok p (signed s (Zpos m * 2 ^ (e - g)) + signed s' (Zpos m' * 2 ^ (e' - g))) g Hp).
Qed.

Lemma sub_ok p x y : 2 <= p -> number p x -> number p y -> finite x = true -> finite y = true -> good p (val x - val y) (sub p x y).
Proof.
  intros Hp Nx Ny Fx Fy. unfold sub. eapply good_eq; [|apply add_ok; auto using number_opposite; rewrite opposite_finite; auto].
  rewrite opposite_val. reflexivity.
Qed.

Lemma mul_ok p x y : 2 <= p -> number p x -> number p y -> finite x = true -> finite y = true -> good p (val x * val y) (mul p x y).
Proof.
  intros Hp Nx Ny Fx Fy. destruct x as [|s|s|s m e], y as [|s'|s'|s' m' e']; try discriminate.
  - apply good_self; simpl; auto; reflexivity.
  - apply good_self; simpl; auto. ring.
  - apply good_self; simpl; auto. ring.
  - unfold mul. eapply good_eq; [|apply round_fixed; auto]. rewrite !signed_val. simpl sign.
    rewrite Pos2Z.inj_mul, inject_Z_mult, pow2_add. change (inject_Z 1) with 1%Q.
    destruct s, s'; cbn [xorb pm signed]; rewrite ?inject_Z_opp; field.
Qed.

Lemma div_ok p x y : 2 <= p -> number p x -> number p y -> finite x = true -> finite y = true -> ~ (val y == 0)%Q -> good p (val x / val y) (div p x y).
Proof.
  intros Hp Nx Ny Fx Fy Ny0. destruct x as [|s|s|s m e], y as [|s'|s'|s' m' e']; try discriminate; try (exfalso; apply Ny0; reflexivity).
  - apply good_self; simpl; auto. unfold Qdiv. ring.
  - unfold div. eapply good_eq; [|apply round_fixed; auto]. rewrite !signed_val. simpl sign.
    assert (M0 : ~ (inject_Z (Zpos m') == 0)%Q) by (intros H; discriminate H).
    assert (X : (pow2 (e - e') * pow2 e' == pow2 e)%Q) by (rewrite <- pow2_add; replace (e - e' + e') with e by lia; reflexivity).
    pose proof (@pow2_neq e') as P0.
    rewrite <- X. destruct s, s'; cbn [xorb pm signed]; rewrite ?inject_Z_opp; field; auto.
Qed.

Lemma binary_ok p o x y : 2 <= p -> number p x -> number p y -> finite x = true -> finite y = true ->
  (o = Odiv -> ~ (val y == 0)%Q) -> good p (exact o (val x) (val y)) (binary p o x y).
Proof.
  intros Hp Nx Ny Fx Fy D. destruct o; simpl.
  - apply add_ok; auto.
  - apply sub_ok; auto.
  - apply mul_ok; auto.
  - apply div_ok; auto.
Qed.

(** * Infinities and NaN *)
Lemma undefined_ok p o x y : 2 <= p -> (binary p o x y = NaN <-> undefined o x y).
Proof.
  intros Hp. unfold undefined.
  assert (R : forall s n d e, round (fixed p) s n d e <> NaN) by (intros; apply round_canon).
  assert (R' : forall z g, of_int p z g <> NaN) by (intros [|k|k] g; simpl; auto; discriminate).
  destruct o, x as [|s|s|s m e], y as [|s'|s'|s' m' e']; simpl;
    try (split; intros H; [auto; discriminate || (exfalso; revert H; apply R) | destruct H as [H|[H|H]]; try discriminate; intuition discriminate]; fail);
    try (destruct s, s'; simpl; intuition congruence);
    try (split; intros H; [exfalso; revert H; unfold sub; simpl; first [apply R | apply (R' (_ + _) _)] | intuition discriminate]).
Qed.

Lemma infinite_ok p o x y : 2 <= p -> ~ undefined o x y -> (infinite o x y <-> is_inf (binary p o x y) = true) /\
  (infinite o x y -> binary p o x y = Inf (infinite_sign o x y)).
Proof.
  intros Hp U.
  assert (R : forall s n d e, is_inf (round (fixed p) s n d e) = false).
  { intros s n d e. destruct (@round_fixed p s n d e Hp) as (F & _). destruct (round (fixed p) s n d e); auto; discriminate. }
  assert (R' : forall z g, is_inf (of_int p z g) = false) by (intros [|k|k] g; simpl; auto).
  unfold undefined in U.
  destruct o, x as [|s|s|s m e], y as [|s'|s'|s' m' e']; simpl in *; try (exfalso; apply U; auto; fail);
    rewrite ?R; try (split; [split; [intros [H|H]; discriminate | intros H; discriminate H] | intros [H|H]; discriminate]);
    try (destruct s, s'; simpl in *; try (exfalso; intuition congruence); intuition congruence);
    try (destruct s; simpl in *; intuition congruence);
    try (destruct s'; simpl in *; intuition congruence).
  all: split; [split; [intros [H|H]; discriminate | intros H; exfalso;
    match type of H with is_inf ?t = true => match t with context [?a + ?b] => destruct (a + b) end end;
    simpl in H; rewrite ?R in H; discriminate] | intros [H|H]; discriminate].
Qed.

(** * Comparisons *)
Lemma cmp_finite x y : finite x = true -> finite y = true ->
  match cmp x y with Eq => (val x == val y)%Q | Lt => (val x < val y)%Q | Gt => (val y < val x)%Q end.
Proof.
  intros Fx Fy. destruct x as [|s|s|s m e], y as [|s'|s'|s' m' e']; try discriminate.
  - reflexivity.
  - simpl. pose proof (pow2_pos e'). destruct s'; simpl.
    + assert (inject_Z (Z.neg m') < 0)%Q by reflexivity. nra.
    + assert (0 < inject_Z (Z.pos m'))%Q by reflexivity. nra.
  - simpl. pose proof (pow2_pos e). destruct s; simpl.
    + assert (inject_Z (Z.neg m) < 0)%Q by reflexivity. nra.
    + assert (0 < inject_Z (Z.pos m))%Q by reflexivity. nra.
  - unfold cmp. set (g := Z.min e e').
    assert (E1 := @scaled s m e g ltac:(unfold g; lia)). assert (E2 := @scaled s' m' e' g ltac:(unfold g; lia)).
    set (a := signed s (Z.pos m * 2 ^ (e - g))) in *. set (b := signed s' (Z.pos m' * 2 ^ (e' - g))) in *.
    pose proof (pow2_pos g).
    destruct (Z.compare_spec a b) as [H1|H1|H1].
    + rewrite <- E1, <- E2, H1. reflexivity.
    + rewrite <- E1, <- E2. rewrite Zlt_Qlt in H1. nra.
    + rewrite <- E1, <- E2. rewrite Zlt_Qlt in H1. nra.
Qed.

Lemma cmp_ok x y : x <> NaN -> y <> NaN ->
  match cmp x y with Eq => same x y | Lt => less x y /\ ~ less y x | Gt => less y x /\ ~ less x y end.
Proof.
  intros Nx Ny. destruct (finite x) eqn:Fx, (finite y) eqn:Fy.
  - pose proof (cmp_finite Fx Fy) as H. assert (L : forall a b, finite a = true -> finite b = true -> less a b <-> (val a < val b)%Q).
    { intros a b Fa Fb. destruct a, b; try discriminate; simpl; tauto. }
    unfold same. destruct (cmp x y); rewrite !L by auto; repeat split; auto; lra.
  - destruct x as [|[]|s|s m e], y as [|[]|s'|s' m' e']; try discriminate; try congruence; simpl; auto.
  - destruct x as [|[]|s|s m e], y as [|[]|s'|s' m' e']; try discriminate; try congruence; simpl; auto.
  - destruct x as [|[]|s|s m e], y as [|[]|s'|s' m' e']; try discriminate; try congruence; simpl; auto; unfold same; simpl; auto.
Qed.

Lemma related_ok x y : x <> NaN -> y <> NaN ->
  (related Rlt x y = true <-> less x y) /\ (related Rgt x y = true <-> less y x) /\
  (related Rle x y = true <-> less x y \/ same x y) /\ (related Rge x y = true <-> less y x \/ same x y) /\
  (related Req x y = true <-> same x y) /\ (related Rne x y = true <-> ~ same x y).
Proof.
  intros Nx Ny. pose proof (cmp_ok Nx Ny) as H. unfold related. destruct (cmp x y).
  - destruct H as (_ & _ & H1 & H2). unfold same. intuition congruence.
  - unfold same. intuition congruence.
  - unfold same. intuition congruence.
Qed.

Lemma same_val x y : finite x = true -> finite y = true -> (same x y <-> (val x == val y)%Q).
Proof.
  intros Fx Fy. unfold same. destruct x, y; try discriminate; simpl less.
  - split; [reflexivity|]. intros _. repeat split; try discriminate; simpl; lra.
  - split; [intros (_ & _ & A & B); simpl in *; lra | intros H; repeat split; try discriminate; simpl in *; lra].
  - split; [intros (_ & _ & A & B); simpl in *; lra | intros H; repeat split; try discriminate; simpl in *; lra].
  - split; [intros (_ & _ & A & B); simpl in *; lra | intros H; repeat split; try discriminate; simpl in *; lra].
Qed.

(** * Conversions *)
Lemma double_fits s m e : is_double (Num s m e) -> fits double (inject_Z (Zpos m) * pow2 e) /\ ~ overflows double (inject_Z (Zpos m) * pow2 e) /\ Z.odd (Zpos m) = true.
Proof.
  intros (O & B & L & H). split; [|split; [|exact O]].
  - exists (Zpos m), e. split; [simpl prec; lia|]. split; [exact L|reflexivity].
  - unfold overflows. simpl. intros V. assert (V' : (pow2 (1024 - e) <= inject_Z (Z.pos m))%Q).
    { assert (X : (pow2 1024 == pow2 (1024 - e) * pow2 e)%Q) by (rewrite <- pow2_add; replace (1024 - e + e) with 1024 by lia; reflexivity).
      change (pow2 1024 <= inject_Z (Zpos m) * pow2 e)%Q in V.
      rewrite X in V. apply Qmult_lt_0_le_reg_r with (pow2 e); auto using pow2_pos. }
    rewrite log2_pow2 in V' by lia. lia.
Qed.

Lemma convert_double p d : 53 <= p -> is_double d -> of_double p d = d.
Proof.
  intros Hp D. destruct d as [|s|s|s m e]; auto. unfold of_double. destruct D as (O & B & L & H).
  assert (C : convert long_double (Num s m e) = Num s m e).
  { simpl. apply round_exact; auto using long_double_proper.
    - exists (Zpos m), e. split; [simpl prec; lia|]. split; [unfold low_ok; simpl; lia|reflexivity].
    - unfold overflows. simpl. intros V.
      assert (V' : (pow2 (16384 - e) <= inject_Z (Z.pos m))%Q).
      { assert (X : (pow2 16384 == pow2 (16384 - e) * pow2 e)%Q) by (rewrite <- pow2_add; replace (16384 - e + e) with 16384 by lia; reflexivity).
        change (pow2 16384 <= inject_Z (Zpos m) * pow2 e)%Q in V.
        rewrite X in V. apply Qmult_lt_0_le_reg_r with (pow2 e); auto using pow2_pos. }
      rewrite log2_pow2 in V' by lia. lia. }
  rewrite C. apply convert_number; [lia|]. split; auto. apply Z.lt_le_trans with (2 ^ 53); auto. apply Z.pow_le_mono_r; lia.
Qed.

Lemma to_float_double d : is_double d -> to_float d = d.
Proof.
  intros D. pose proof (@convert_double 64 d ltac:(lia) D) as H. unfold to_float.
  destruct d as [|s|s|s m e]; auto.
  assert (C : convert long_double (Num s m e) = Num s m e).
  { destruct D as (O & B & L & H'). simpl. apply round_exact; auto using long_double_proper.
    - exists (Zpos m), e. split; [simpl prec; lia|]. split; [unfold low_ok; simpl; lia|reflexivity].
    - unfold overflows. simpl. intros V.
      assert (V' : (pow2 (16384 - e) <= inject_Z (Z.pos m))%Q).
      { assert (X : (pow2 16384 == pow2 (16384 - e) * pow2 e)%Q) by (rewrite <- pow2_add; replace (16384 - e + e) with 16384 by lia; reflexivity).
        change (pow2 16384 <= inject_Z (Zpos m) * pow2 e)%Q in V.
        rewrite X in V. apply Qmult_lt_0_le_reg_r with (pow2 e); auto using pow2_pos. }
      rewrite log2_pow2 in V' by lia. lia. }
  rewrite C. destruct (double_fits D) as (A & B & O). simpl. apply round_exact; auto using double_proper.
Qed.
