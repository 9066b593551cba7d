(** Relative errors and rounding to nearest. *)
From Coq Require Import ZArith List Lia Psatz.
From Verif Require Import M_Base M_CTree M_Cost M_Float S_Opt S_Float.
Set Implicit Arguments.
Unset Strict Implicit.
Local Open Scope Z_scope.

Section Approx.
  Variable q : nat.
  Hypothesis Hq : (1 <= q)%nat.
  Let b := 2 ^ Z.of_nat q.

  Lemma b_two : 2 <= b.
  Proof. unfold b. change 2 with (2 ^ 1) at 1. apply Z.pow_le_mono_r; lia. Qed.

  Lemma pw_pos x (k : nat) : 0 < x -> 0 < x ^ Z.of_nat k.
  Proof. intros. apply Z.pow_pos_nonneg; lia. Qed.
  Lemma pw_S x (k : nat) : x ^ Z.of_nat (S k) = x * x ^ Z.of_nat k.
  Proof. rewrite Nat2Z.inj_succ, Z.pow_succ_r by lia. auto. Qed.
  Lemma pw_add x (k j : nat) : x ^ Z.of_nat (k + j) = x ^ Z.of_nat k * x ^ Z.of_nat j.
  Proof. rewrite Nat2Z.inj_add, Z.pow_add_r by lia. auto. Qed.

  Lemma approx_refl x : approx q 0 x x.
  Proof. unfold approx. simpl. lia. Qed.

  Lemma approx_S k x y : 0 <= y -> approx q k x y -> approx q (S k) x y.
  Proof.
    unfold approx. fold b. intros Hy (H1 & H2). pose proof b_two. rewrite !pw_S.
    pose proof (@pw_pos (b - 1) k ltac:(lia)). pose proof (@pw_pos b k ltac:(lia)). pose proof (@pw_pos (b + 1) k ltac:(lia)).
    split; nia.
  Qed.
  Lemma approx_mono k j x y : 0 <= y -> (k <= j)%nat -> approx q k x y -> approx q j x y.
  Proof. intros Hy H. induction H; auto. intros. apply approx_S; auto. Qed.

  Lemma approx_nonneg k x y : 0 <= y -> approx q k x y -> 0 <= x.
  Proof.
    unfold approx. fold b. intros Hy (H1 & _). pose proof b_two.
    pose proof (@pw_pos (b - 1) k ltac:(lia)). pose proof (@pw_pos b k ltac:(lia)). nia.
  Qed.
  Lemma approx_pos k x y : 0 < y -> approx q k x y -> 0 < x.
  Proof.
    unfold approx. fold b. intros Hy (H1 & _). pose proof b_two.
    pose proof (@pw_pos (b - 1) k ltac:(lia)). pose proof (@pw_pos b k ltac:(lia)). nia.
  Qed.
  Lemma approx_zero k x : approx q k x 0 -> x = 0.
  Proof.
    unfold approx. fold b. intros (H1 & H2). pose proof b_two.
    pose proof (@pw_pos b k ltac:(lia)). nia.
  Qed.

  Lemma approx_add k x y x' y' : approx q k x y -> approx q k x' y' -> approx q k (x + x') (y + y').
  Proof. unfold approx. nia. Qed.

  Lemma approx_trans k j x y z : approx q k x y -> approx q j z x -> approx q (k + j) z y.
  Proof.
    unfold approx. fold b. intros (H1 & H2) (H3 & H4). pose proof b_two. rewrite !pw_add.
    pose proof (@pw_pos (b - 1) j ltac:(lia)). pose proof (@pw_pos b k ltac:(lia)). pose proof (@pw_pos (b + 1) j ltac:(lia)).
    set (a1 := (b - 1) ^ Z.of_nat k) in *. set (a2 := (b - 1) ^ Z.of_nat j) in *.
    set (b1 := b ^ Z.of_nat k) in *. set (b2 := b ^ Z.of_nat j) in *.
    set (c1 := (b + 1) ^ Z.of_nat k) in *. set (c2 := (b + 1) ^ Z.of_nat j) in *.
    split.
    - apply Z.le_trans with (a2 * (b1 * x)); [|nia]. replace (a1 * a2 * y) with (a2 * (a1 * y)) by ring. nia.
    - apply Z.le_trans with (c2 * (b1 * x)); [nia|]. replace (c1 * c2 * y) with (c2 * (c1 * y)) by ring. nia.
  Qed.

  Lemma approx_mul k j x y x' y' : 0 <= y -> 0 <= y' -> approx q k x y -> approx q j x' y' -> approx q (k + j) (x * x') (y * y').
  Proof.
    intros Hy Hy' H H'. pose proof (approx_nonneg Hy H) as Hx. pose proof (approx_nonneg Hy' H') as Hx'.
    unfold approx in *. fold b in H, H' |- *. destruct H as (H1 & H2). destruct H' as (H3 & H4). pose proof b_two. rewrite !pw_add.
    pose proof (@pw_pos (b - 1) j ltac:(lia)). pose proof (@pw_pos b k ltac:(lia)). pose proof (@pw_pos (b + 1) j ltac:(lia)).
    pose proof (@pw_pos (b - 1) k ltac:(lia)). pose proof (@pw_pos b j ltac:(lia)). pose proof (@pw_pos (b + 1) k ltac:(lia)).
    set (a1 := (b - 1) ^ Z.of_nat k) in *. set (a2 := (b - 1) ^ Z.of_nat j) in *.
    set (b1 := b ^ Z.of_nat k) in *. set (b2 := b ^ Z.of_nat j) in *.
    set (c1 := (b + 1) ^ Z.of_nat k) in *. set (c2 := (b + 1) ^ Z.of_nat j) in *.
    replace (a1 * a2 * (y * y')) with ((a1 * y) * (a2 * y')) by ring.
    replace (b1 * b2 * (x * x')) with ((b1 * x) * (b2 * x')) by ring.
    replace (c1 * c2 * (y * y')) with ((c1 * y) * (c2 * y')) by ring.
    split; apply Z.mul_le_mono_nonneg; nia.
  Qed.

  Lemma approx_min k x y x' y' : approx q k x y -> approx q k x' y' -> approx q k (Z.min x x') (Z.min y y').
  Proof.
    unfold approx. fold b. intros (H1 & H2) (H3 & H4). pose proof b_two.
    pose proof (@pw_pos (b - 1) k ltac:(lia)). pose proof (@pw_pos b k ltac:(lia)). pose proof (@pw_pos (b + 1) k ltac:(lia)).
    set (a1 := (b - 1) ^ Z.of_nat k) in *. set (b1 := b ^ Z.of_nat k) in *. set (c1 := (b + 1) ^ Z.of_nat k) in *.
    destruct (Z.min_spec x x') as [(Hx & ->)|(Hx & ->)]; destruct (Z.min_spec y y') as [(Hy & ->)|(Hy & ->)]; split; auto.
    - apply Z.le_trans with (a1 * y); auto. apply Z.mul_le_mono_nonneg_l; lia.
    - apply Z.le_trans with (b1 * x'); auto. apply Z.mul_le_mono_nonneg_l; lia.
    - apply Z.le_trans with (a1 * y'); auto. apply Z.mul_le_mono_nonneg_l; lia.
    - apply Z.le_trans with (b1 * x); auto. apply Z.mul_le_mono_nonneg_l; [lia|]. lia.
  Qed.
End Approx.

(** ** Rounding to nearest *)
Lemma nearest_nonneg p z : 0 <= z -> (1 <= p)%nat ->
  2 ^ Z.of_nat p * Z.abs (nearest p z - z) <= z /\ 0 <= nearest p z.
Proof.
  intros Hz Hp. unfold nearest. rewrite (Z.abs_eq z) by auto.
  set (e := Z.log2 z + 1 - Z.of_nat p). destruct (Z.leb_spec e 0) as [He|He].
  { rewrite Z.sub_diag. simpl. rewrite Z.mul_0_r. auto. }
  assert (Hz' : 0 < z).
  { destruct (Z.eq_dec z 0) as [->|]; [|lia]. unfold e in He. change (Z.log2 0) with 0 in He. lia. }
  rewrite Z.sgn_pos, Z.mul_1_l by auto.
  set (u := 2 ^ e). assert (Hu : 0 < u) by (apply Z.pow_pos_nonneg; lia).
  pose proof (Z.div_mod z u ltac:(lia)) as Hd. pose proof (Z.mod_pos_bound z u Hu) as Hm.
  set (x := z / u) in *. set (r := z mod u) in *.
  assert (Hx : 0 <= x) by (apply Z.div_pos; lia).
  assert (Hl : 2 ^ (Z.log2 z) <= z) by (apply Z.log2_spec; auto).
  assert (HP : 2 ^ Z.of_nat p * u = 2 * 2 ^ Z.log2 z).
  { unfold u. rewrite <- Z.pow_add_r by lia. replace (Z.of_nat p + e) with (Z.succ (Z.log2 z)) by (unfold e; lia).
    rewrite Z.pow_succ_r by apply Z.log2_nonneg. auto. }
  assert (HPp : 0 < 2 ^ Z.of_nat p) by (apply Z.pow_pos_nonneg; lia).
  assert (G : forall x', (x' = x /\ 2 * r <= u) \/ (x' = x + 1 /\ u <= 2 * r) ->
    2 ^ Z.of_nat p * Z.abs (x' * u - z) <= z /\ 0 <= x' * u).
  { intros x' [(-> & Hr)|(-> & Hr)].
    - replace (x * u - z) with (- r) by lia. rewrite Z.abs_opp, Z.abs_eq by lia. nia.
    - replace ((x + 1) * u - z) with (u - r) by lia. rewrite Z.abs_eq by lia. nia. }
  apply G. destruct (Z.ltb_spec (2 * r) u); [left; split; auto; lia|].
  destruct (Z.ltb_spec u (2 * r)); [right; split; auto; lia|].
  destruct (Z.even x); [left|right]; split; auto; lia.
Qed.

Lemma nearest_approx p q z : 0 <= z -> (1 <= p)%nat -> (q <= p)%nat -> approx q 1 (nearest p z) z.
Proof.
  intros Hz Hp Hq. destruct (nearest_nonneg Hz Hp) as (H & H0). unfold approx. rewrite !Z.pow_1_r.
  assert (2 ^ Z.of_nat q <= 2 ^ Z.of_nat p) by (apply Z.pow_le_mono_r; lia).
  assert (0 < 2 ^ Z.of_nat q) by (apply Z.pow_pos_nonneg; lia).
  assert (2 ^ Z.of_nat q * Z.abs (nearest p z - z) <= z) by nia.
  destruct (Z.abs_spec (nearest p z - z)) as [(? & E)|(? & E)]; rewrite E in *; nia.
Qed.

Lemma nearest_exact p z : Z.abs z <= 2 ^ Z.of_nat p -> (1 <= p)%nat -> nearest p z = z.
Proof.
  intros Hz Hp. unfold nearest. set (a := Z.abs z) in *.
  destruct (Z.leb_spec (Z.log2 a + 1 - Z.of_nat p) 0) as [He|He]; auto.
  assert (Ha0 : 0 < a).
  { destruct (Z.eq_dec a 0) as [E|]; [rewrite E in He; change (Z.log2 0) with 0 in He; lia|]. unfold a in *. lia. }
  pose proof (Z.log2_spec a Ha0) as (Hl & _).
  assert (Z.log2 a = Z.of_nat p).
  { destruct (Z.eq_dec (Z.log2 a) (Z.of_nat p)) as [|Hn]; auto. exfalso.
    assert (2 ^ Z.succ (Z.of_nat p) <= 2 ^ Z.log2 a) by (apply Z.pow_le_mono_r; lia).
    rewrite Z.pow_succ_r in H by lia. assert (0 < 2 ^ Z.of_nat p) by (apply Z.pow_pos_nonneg; lia). lia. }
  assert (Ea : a = 2 ^ Z.of_nat p) by (rewrite H in Hl; lia).
  replace (Z.log2 a + 1 - Z.of_nat p) with 1 by lia. change (2 ^ 1) with 2.
  assert (E2 : a = 2 * 2 ^ (Z.of_nat p - 1)).
  { rewrite Ea. replace (Z.of_nat p) with (Z.succ (Z.of_nat p - 1)) at 1 by lia. rewrite Z.pow_succ_r by lia. auto. }
  assert (Em : a mod 2 = 0) by (rewrite E2, Z.mul_comm; apply Z_mod_mult). rewrite Em. simpl.
  assert (Ed : a = a / 2 * 2) by (pose proof (Z.div_mod a 2 ltac:(lia)); lia).
  rewrite <- Ed. unfold a. rewrite Z.mul_comm. apply Z.abs_sgn.
Qed.

Lemma nearest_abs p z : (1 <= p)%nat -> Z.abs z <= 2 ^ Z.of_nat p -> nearest p z = z.
Proof. auto using nearest_exact. Qed.

Lemma float_accurate p pp cl q : (1 <= q)%nat -> (q <= p)%nat -> (q <= pp)%nat -> accurate q 2 (float p pp cl).
Proof.
  intros Hq Hp Hpp. split.
  - intros z Hz. apply nearest_approx; auto; lia.
  - intros d k. simpl rpow. assert (H0 : 0 <= Z.of_N d ^ Z.of_nat k) by (apply Z.pow_nonneg; lia).
    apply (@approx_trans q Hq 1 1 (nearest pp (Z.of_N d ^ Z.of_nat k))).
    + apply nearest_approx; auto; lia.
    + apply nearest_approx; auto; try lia. apply nearest_nonneg; auto; lia.
Qed.

Lemma float_exact p pp cl : (1 <= p)%nat -> (1 <= pp)%nat ->
  exact_upto (Z.min (2 ^ Z.of_nat p) (2 ^ Z.of_nat pp)) (float p pp cl).
Proof.
  intros Hp Hpp. split.
  - intros z Hz. apply nearest_exact; auto. lia.
  - intros d k H. simpl. assert (H0 : 0 <= Z.of_N d ^ Z.of_nat k) by (apply Z.pow_nonneg; lia).
    rewrite (@nearest_exact pp) by (auto; lia). apply nearest_exact; auto; lia.
Qed.

Lemma float_tolerates p pp q k : (1 <= q)%nat -> tolerates q k (float p pp (logclose q k)).
Proof.
  intros Hq x y z Hz Hx Hy. simpl.
  pose proof (approx_nonneg Hq Hz Hx) as Px. pose proof (approx_nonneg Hq Hz Hy) as Py. unfold logclose.
  destruct (Z.ltb_spec x 0); [lia|]. destruct (Z.ltb_spec y 0); [lia|]. simpl orb. cbn iota.
  destruct (Z.eq_dec z 0) as [->|Nz].
  { apply (approx_zero Hq) in Hx. apply (approx_zero Hq) in Hy. subst. auto. }
  assert (0 < z) by lia. pose proof (approx_pos Hq H1 Hx). pose proof (approx_pos Hq H1 Hy).
  destruct (Z.eqb_spec x 0); [lia|]. destruct (Z.eqb_spec y 0); [lia|]. simpl orb. cbn iota.
  unfold approx in Hx, Hy. set (b := 2 ^ Z.of_nat q) in *.
  assert (Hb : 2 <= b). { unfold b. replace (Z.of_nat q) with (1 + (Z.of_nat q - 1)) by lia. rewrite Z.pow_add_r by lia.
    assert (0 < 2 ^ (Z.of_nat q - 1)) by (apply Z.pow_pos_nonneg; lia). lia. }
  assert (0 < (b - 1) ^ Z.of_nat k) by (apply Z.pow_pos_nonneg; lia).
  assert (0 < b ^ Z.of_nat k) by (apply Z.pow_pos_nonneg; lia).
  assert (0 < (b + 1) ^ Z.of_nat k) by (apply Z.pow_pos_nonneg; lia).
  set (l := (b - 1) ^ Z.of_nat k) in *. set (u := (b + 1) ^ Z.of_nat k) in *. set (w := b ^ Z.of_nat k) in *. clearbody l u w. clear b Hb.
  assert (G : forall s t, l * z <= w * s <= u * z -> l * z <= w * t <= u * z -> l * s <= u * t).
  { intros s t (A1 & A2) (B1 & B2). apply Z.mul_le_mono_pos_l with (p := w); auto.
    assert (l * (w * s) <= l * (u * z)) by (apply Z.mul_le_mono_nonneg_l; lia).
    assert (u * (l * z) <= u * (w * t)) by (apply Z.mul_le_mono_nonneg_l; lia). lia. }
  apply andb_true_iff. split; apply Z.leb_le; apply G; auto.
Qed.
