(** Rounding to nearest is monotone and as good as any number of the type. *)
From Coq Require Import Psatz.
From Verif Require Import M_Base M_Bitset M_Tree M_CTree M_Cost M_FinWidth M_Float M_FinFloat S_Tree S_Opt S_Float S_FinWidth S_FinFloat P_Approx.
Set Implicit Arguments.
Unset Strict Implicit.
Local Open Scope Z_scope.

Lemma two_pos k : 0 <= k -> 0 < 2 ^ k.
Proof. intros. apply Z.pow_pos_nonneg; lia. Qed.

(** The rounded absolute value. *)
Lemma nearest_form p z : (1 <= p)%nat ->
  nearest p z = z /\ Z.abs z < 2 ^ Z.of_nat p \/
  exists e x', 0 < e /\ Z.log2 (Z.abs z) = e + Z.of_nat p - 1 /\ nearest p z = Z.sgn z * (x' * 2 ^ e) /\
    0 <= x' <= 2 ^ Z.of_nat p /\ z <> 0 /\
    (forall y, Z.abs (x' * 2 ^ e - Z.abs z) <= Z.abs (y * 2 ^ e - Z.abs z)).
Proof.
  intros Hp. unfold nearest. set (a := Z.abs z). assert (Ha : 0 <= a) by (unfold a; lia).
  set (e := Z.log2 a + 1 - Z.of_nat p). destruct (Z.leb_spec e 0) as [He|He].
  { left. split; auto. destruct (Z.eq_dec a 0) as [E|]; [rewrite E; apply two_pos; lia|].
    pose proof (Z.log2_spec a ltac:(lia)) as (_ & Hl). eapply Z.lt_le_trans; [exact Hl|]. apply Z.pow_le_mono_r; unfold e in He; lia. }
  right. assert (Ha' : 0 < a).
  { destruct (Z.eq_dec a 0) as [E|]; [|lia]. unfold e in He. rewrite E in He. change (Z.log2 0) with 0 in He. lia. }
  set (u := 2 ^ e). assert (Hu : 0 < u) by (apply two_pos; lia).
  pose proof (Z.div_mod a u ltac:(lia)) as Hd. pose proof (Z.mod_pos_bound a u Hu) as Hm.
  assert (Hx : 0 <= a / u) by (apply Z.div_pos; lia).
  assert (Hxp : a / u < 2 ^ Z.of_nat p).
  { apply Z.div_lt_upper_bound; auto. unfold u. rewrite <- Z.pow_add_r by lia.
    replace (e + Z.of_nat p) with (Z.succ (Z.log2 a)) by (unfold e; lia). apply Z.log2_spec. auto. }
  set (x := a / u) in *. set (r := a mod u) in *.
  match goal with |- context [Z.sgn z * (?b * u)] => exists e, b; set (x' := b) end.
  assert (G : (x' = x /\ 2 * r <= u) \/ (x' = x + 1 /\ u <= 2 * r)).
  { unfold x'. destruct (Z.ltb_spec (2 * r) u); [left; split; auto; lia|].
    destruct (Z.ltb_spec u (2 * r)); [right; split; auto; lia|].
    destruct (Z.even x); [left|right]; split; auto; lia. }
  clearbody x'. repeat split; auto; try lia; try (unfold e; lia).
  fold u. intros y. clearbody x r u. clear He Ha' Hxp Ha e. clearbody a.
  assert (Hy : y <= x \/ x + 1 <= y) by lia.
  destruct G as [(-> & Hr)|(-> & Hr)].
  - replace (x * u - a) with (- r) by lia. rewrite Z.abs_opp, Z.abs_eq by lia. destruct Hy as [Hy|Hy].
    + assert (y * u <= x * u) by nia. lia.
    + assert ((x + 1) * u <= y * u) by nia. lia.
  - replace ((x + 1) * u - a) with (u - r) by lia. rewrite Z.abs_eq by lia. destruct Hy as [Hy|Hy].
    + assert (y * u <= x * u) by nia. lia.
    + assert ((x + 1) * u <= y * u) by nia. lia.
Qed.

Lemma nearest_pbits p z : (1 <= p)%nat -> pbits p (nearest p z).
Proof.
  intros Hp. destruct (nearest_form z Hp) as [(-> & H)|(e & x' & He & _ & -> & Hx & Hz & _)].
  - exists z, 0. rewrite Z.pow_0_r. lia.
  - exists (Z.sgn z * x'), e. split; [lia|]. split; [|ring].
    rewrite Z.abs_mul, (Z.abs_eq x') by lia. destruct (Z.sgn_spec z) as [(? & ->)|[(? & ->)|(? & ->)]]; simpl Z.abs; lia.
Qed.

Lemma nearest_best p z f : (1 <= p)%nat -> pbits p f -> Z.abs (nearest p z - z) <= Z.abs (f - z).
Proof.
  intros Hp (x & k & Hk & Hx & ->). destruct (nearest_form z Hp) as [(-> & _)|(e & x' & He & HL & -> & Hx' & Hz & Hb)]; [lia|].
  set (f := x * 2 ^ k). set (g := x' * 2 ^ e) in *.
  assert (H1 : Z.abs (Z.sgn z * g - z) = Z.abs (g - Z.abs z)).
  { destruct (Z.abs_spec z) as [(H & E)|(H & E)]; rewrite E.
    - rewrite Z.sgn_pos by lia. f_equal. lia.
    - rewrite Z.sgn_neg by lia. rewrite <- Z.abs_opp. f_equal. lia. }
  rewrite H1. apply Z.le_trans with (Z.abs (Z.abs f - Z.abs z)); [|lia].
  set (a := Z.abs z) in *. assert (Hf : Z.abs f = Z.abs x * 2 ^ k) by (unfold f; rewrite Z.abs_mul, (Z.abs_eq (2 ^ k)); auto; pose proof (two_pos Hk); lia).
  rewrite Hf. destruct (Z.le_gt_cases e k) as [Hek|Hek].
  - replace (Z.abs x * 2 ^ k) with (Z.abs x * 2 ^ (k - e) * 2 ^ e); [apply Hb|].
    rewrite <- Z.mul_assoc, <- Z.pow_add_r by lia. do 2 f_equal. lia.
  - assert (Hl : 2 ^ Z.log2 a <= a) by (apply Z.log2_spec; unfold a; lia). rewrite HL in Hl.
    assert (Hle : Z.abs x * 2 ^ k <= 2 ^ (e + Z.of_nat p - 1)).
    { replace (e + Z.of_nat p - 1) with (Z.of_nat p + (e - 1)) by lia. rewrite Z.pow_add_r by lia.
      assert (2 ^ k <= 2 ^ (e - 1)) by (apply Z.pow_le_mono_r; lia). pose proof (two_pos Hk). nia. }
    specialize (Hb (2 ^ (Z.of_nat p - 1))). rewrite <- Z.pow_add_r in Hb by lia.
    replace (Z.of_nat p - 1 + e) with (e + Z.of_nat p - 1) in Hb by lia. lia.
Qed.

Lemma nearest_idem p f : (1 <= p)%nat -> pbits p f -> nearest p f = f.
Proof. intros Hp H. pose proof (@nearest_best p f f Hp H). lia. Qed.

Lemma nearest_mono p x y : (1 <= p)%nat -> x <= y -> nearest p x <= nearest p y.
Proof.
  intros Hp Hle. pose proof (@nearest_best p x _ Hp (nearest_pbits y Hp)). pose proof (@nearest_best p y _ Hp (nearest_pbits x Hp)).
  destruct (Z.eq_dec x y) as [->|]; lia.
Qed.

Lemma pbits_mono p q f : (p <= q)%nat -> pbits p f -> pbits q f.
Proof.
  intros Hp (x & k & Hk & Hx & ->). exists x, k. repeat split; auto.
  eapply Z.le_trans; [exact Hx|]. apply Z.pow_le_mono_r; lia.
Qed.

Lemma nearest_err p z : (1 <= p)%nat -> 2 ^ Z.of_nat p * Z.abs (nearest p z - z) <= Z.abs z.
Proof.
  intros Hp. destruct (Z.le_gt_cases 0 z) as [H|H].
  - rewrite (Z.abs_eq z) by auto. apply nearest_nonneg; auto.
  - destruct (@nearest_nonneg p (- z) ltac:(lia) Hp) as (G & _).
    assert (E : nearest p (- z) = - nearest p z).
    { unfold nearest. rewrite Z.abs_opp, Z.sgn_opp.
      destruct (Z.log2 (Z.abs z) + 1 - Z.of_nat p <=? 0); auto. ring. }
    rewrite E in G. replace (- nearest p z - - z) with (- (nearest p z - z)) in G by lia. rewrite Z.abs_opp in G. lia.
Qed.

Section WFloat.
  Variables (p pp : nat) (lgd : N -> Z) (cl : Z -> Z -> bool).
  Hypotheses (Hp : (1 <= p)%nat) (Hpp : (p <= pp)%nat).

  Lemma wfloat_monotone : (forall d, (1 <= d)%N -> 0 <= lgd d) -> wmonotone (pbits p) (wfloat p pp lgd cl).
  Proof.
    intros Hl. assert (Hpp' : (1 <= pp)%nat) by lia. split; simpl; auto.
    - exists 0, 0. pose proof (@two_pos (Z.of_nat p) ltac:(lia)). simpl. repeat split; lia.
    - intros. apply nearest_pbits; auto.
    - intros. apply nearest_pbits; auto.
    - intros d k j Hd Hk. apply nearest_mono; auto. apply nearest_mono; auto. specialize (Hl d Hd). nia.
    - intros. apply nearest_mono; auto. apply nearest_mono; auto. lia.
    - intros w y Hw Hy. rewrite <- (nearest_idem Hp Hw) at 1. apply nearest_mono; auto.
      rewrite <- (nearest_idem Hpp' (pbits_mono Hpp Hw)) at 1. apply nearest_mono; auto. lia.
    - intros x y Hx Hy. rewrite <- (nearest_idem Hp Hx) at 1. apply nearest_mono; auto.
    - intros. apply nearest_mono; auto. lia.
  Qed.

  Variables (lg : N -> Z) (q b : nat).
  Hypotheses (Hq : (q <= p)%nat) (Hb : (q <= b)%nat).
  Hypothesis Hlg : forall d, 2 ^ Z.of_nat q * Z.abs (lgd d - lg d) <= Z.abs (lg d).

  Lemma near_q r z k : (q <= r)%nat -> (1 <= r)%nat -> Z.abs z <= k * 2 ^ Z.of_nat b -> 0 <= k ->
    Z.abs (nearest r z - z) <= k * 2 ^ Z.of_nat (b - q).
  Proof.
    intros Hr H1 Hz Hk. pose proof (@nearest_err r z H1) as He.
    assert (E : 2 ^ Z.of_nat b = 2 ^ Z.of_nat q * 2 ^ Z.of_nat (b - q)) by (rewrite <- Z.pow_add_r by lia; f_equal; lia).
    assert (2 ^ Z.of_nat q <= 2 ^ Z.of_nat r) by (apply Z.pow_le_mono_r; lia).
    pose proof (@two_pos (Z.of_nat q) ltac:(lia)). pose proof (@two_pos (Z.of_nat (b - q)) ltac:(lia)).
    rewrite E in Hz. set (x := Z.abs (nearest r z - z)) in *. assert (0 <= x) by (unfold x; lia).
    assert (2 ^ Z.of_nat q * x <= 2 ^ Z.of_nat q * (k * 2 ^ Z.of_nat (b - q))) by nia.
    apply (proj2 (Z.mul_le_mono_pos_l x (k * 2 ^ Z.of_nat (b - q)) (2 ^ Z.of_nat q) ltac:(assumption))). assumption.
  Qed.

  Lemma wfloat_accurate : waccurate (2 ^ Z.of_nat (b + 3 - q)) (2 ^ Z.of_nat b) lg (wfloat p pp lgd cl).
  Proof.
    assert (E8 : 2 ^ Z.of_nat (b + 3 - q) = 8 * 2 ^ Z.of_nat (b - q)).
    { replace (Z.of_nat (b + 3 - q)) with (3 + Z.of_nat (b - q)) by lia. rewrite Z.pow_add_r by lia. auto. }
    assert (E : 2 ^ Z.of_nat b = 2 ^ Z.of_nat q * 2 ^ Z.of_nat (b - q)) by (rewrite <- Z.pow_add_r by lia; f_equal; lia).
    pose proof (@two_pos (Z.of_nat q) ltac:(lia)) as P1. pose proof (@two_pos (Z.of_nat (b - q)) ltac:(lia)) as P2.
    assert (Pb : 2 ^ Z.of_nat (b - q) <= 2 ^ Z.of_nat b) by (apply Z.pow_le_mono_r; lia).
    assert (Hpp' : (1 <= pp)%nat) by lia. assert (Hqp : (q <= pp)%nat) by lia.
    assert (D : forall z, Z.abs z <= 2 * 2 ^ Z.of_nat b -> Z.abs (nearest p (nearest pp z) - z) <= 6 * 2 ^ Z.of_nat (b - q)).
    { intros z Hz. pose proof (@near_q pp z 2 Hqp Hpp' Hz ltac:(lia)) as G1.
      pose proof (@near_q p (nearest pp z) 4 Hq Hp ltac:(lia) ltac:(lia)) as G2. lia. }
    assert (L : forall d k, Z.abs (lg d * Z.of_nat k) <= 2 ^ Z.of_nat b -> Z.abs (lgd d * Z.of_nat k - lg d * Z.of_nat k) <= 2 ^ Z.of_nat (b - q)).
    { intros d k Hd. rewrite <- Z.mul_sub_distr_r, Z.abs_mul. pose proof (@Hlg d) as Hl. rewrite Z.abs_mul, E in Hd.
      set (x := Z.abs (lgd d - lg d)) in *. set (y := Z.abs (lg d)) in *. set (w := Z.abs (Z.of_nat k)) in *.
      assert (0 <= w) by (unfold w; lia).
      assert (2 ^ Z.of_nat q * (x * w) <= 2 ^ Z.of_nat q * 2 ^ Z.of_nat (b - q)) by nia.
      apply (proj2 (Z.mul_le_mono_pos_l (x * w) (2 ^ Z.of_nat (b - q)) (2 ^ Z.of_nat q) P1)). assumption. }
    rewrite E8. split; cbn [wlog wlogs wcast wacc wadd wfloat].
    - lia.
    - intros d Hd. specialize (L d 1%nat). change (Z.of_nat 1) with 1 in L. rewrite !Z.mul_1_r in L. specialize (L Hd). lia.
    - intros d k Hd. specialize (L d k Hd). specialize (D (lgd d * Z.of_nat k) ltac:(lia)). lia.
    - intros x Hx. pose proof (@near_q p x 1 Hq Hp ltac:(lia) ltac:(lia)). lia.
    - intros x y Hx. specialize (D (x + y) ltac:(lia)). lia.
    - intros x y Hx. pose proof (@near_q p (x + y) 1 Hq Hp ltac:(lia) ltac:(lia)). lia.
  Qed.
End WFloat.
