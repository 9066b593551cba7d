(** Proofs about rounding to decimal digits. *)
From Coq Require Import ZArith Lia List Bool.
From Verif Require Import M_Base M_Report S_Report.
Import ListNotations.
Set Implicit Arguments.
Unset Strict Implicit.
Local Open Scope Z_scope.

Lemma pow10_pos k : 0 < 10 ^ Z.of_nat k.
Proof. apply Z.pow_pos_nonneg; lia. Qed.
Lemma pow10_S k : 10 ^ Z.of_nat (S k) = 10 * 10 ^ Z.of_nat k.
Proof. rewrite Nat2Z.inj_succ, Z.pow_succ_r; lia. Qed.

Lemma ndigits_loop_ok fuel : forall x, 0 < x -> Z.log2 x <= Z.of_nat fuel ->
  (1 <= ndigits_loop fuel x)%nat /\ 10 ^ Z.of_nat (ndigits_loop fuel x - 1) <= x < 10 ^ Z.of_nat (ndigits_loop fuel x).
Proof.
  induction fuel as [|f IH]; intros x Hx Hl.
  - pose proof (proj2 (Z.log2_spec x Hx)) as H. replace (Z.log2 x) with 0 in H by (pose proof (Z.log2_nonneg x); lia).
    simpl ndigits_loop. change (2 ^ Z.succ 0) with 2 in H. change (10 ^ Z.of_nat (1 - 1)) with 1. change (10 ^ Z.of_nat 1) with 10. lia.
  - cbn [ndigits_loop]. destruct (Z.ltb_spec x 10) as [H|H].
    + change (10 ^ Z.of_nat (1 - 1)) with 1. change (10 ^ Z.of_nat 1) with 10. lia.
    + assert (Hd : 0 < x / 10) by (apply Z.div_str_pos; lia).
      assert (Hl' : Z.log2 (x / 10) <= Z.of_nat f).
      { apply Z.lt_succ_r. apply Z.log2_lt_pow2; [exact Hd|]. apply Z.le_lt_trans with (x / 2).
        - apply Z.div_le_compat_l; lia.
        - apply Z.div_lt_upper_bound; [lia|]. rewrite <- Z.pow_succ_r by lia.
          apply Z.log2_lt_pow2; [exact Hx|]. lia. }
      destruct (IH _ Hd Hl') as (H1 & H2 & H3). set (n := ndigits_loop f (x / 10)) in *. split; [lia|].
      replace (S n - 1)%nat with (S (n - 1)) by lia. rewrite !pow10_S.
      pose proof (Z.div_mod x 10 ltac:(lia)). pose proof (Z.mod_pos_bound x 10 ltac:(lia)). lia.
Qed.

Lemma ndigits_ok x : 0 < x -> (1 <= ndigits x)%nat /\ 10 ^ Z.of_nat (ndigits x - 1) <= x < 10 ^ Z.of_nat (ndigits x).
Proof. intros Hx. apply ndigits_loop_ok; [exact Hx|]. pose proof (Z.log2_nonneg x). lia. Qed.
Lemma ndigits_0 : ndigits 0 = 1%nat.
Proof. reflexivity. Qed.

Lemma pow10_le a b : (a <= b)%nat -> 10 ^ Z.of_nat a <= 10 ^ Z.of_nat b.
Proof. intros H. apply Z.pow_le_mono_r; lia. Qed.
Lemma pow10_lt_inv a b : 10 ^ Z.of_nat a < 10 ^ Z.of_nat b -> (a < b)%nat.
Proof. intros H. apply (Z.pow_lt_mono_r_iff 10) in H; lia. Qed.

Lemma ndigits_mono x y : 0 <= x <= y -> (ndigits x <= ndigits y)%nat.
Proof.
  intros [H0 H]. destruct (Z.eq_dec x 0) as [->|Hx].
  - rewrite ndigits_0. destruct (Z.eq_dec y 0) as [->|Hy]; [rewrite ndigits_0; lia|]. apply ndigits_ok. lia.
  - destruct (@ndigits_ok x) as (A & B & _); [lia|]. destruct (@ndigits_ok y) as (_ & _ & C); [lia|].
    assert (ndigits x - 1 < ndigits y)%nat by (apply pow10_lt_inv; lia). lia.
Qed.

(** ** Division *)
Lemma round_div_close a b : 0 < b -> 2 * Z.abs (round_div a b * b - a) <= b.
Proof.
  intros Hb. unfold round_div. pose proof (Z.div_mod a b ltac:(lia)) as E. pose proof (Z.mod_pos_bound a b Hb) as M.
  set (q := a / b) in *. set (r := a mod b) in *. clearbody q r.
  destruct (Z.ltb_spec (2 * r) b) as [H|H]; [|destruct (Z.ltb_spec b (2 * r)) as [H'|H']; [|destruct (Z.even q)]]; subst a; nia.
Qed.
Lemma round_div_nearest a b m : 0 < b -> Z.abs (round_div a b * b - a) <= Z.abs (m * b - a).
Proof.
  intros Hb. pose proof (@round_div_close a b Hb) as H. set (q := round_div a b) in *. clearbody q.
  destruct (Z.eq_dec m q) as [->|N]; [lia|]. assert (b <= Z.abs (m * b - q * b)) by nia. lia.
Qed.
Lemma round_div_mono a a' b : 0 < b -> a <= a' -> round_div a b <= round_div a' b.
Proof.
  intros Hb H. unfold round_div.
  pose proof (Z.div_mod a b ltac:(lia)) as E. pose proof (Z.mod_pos_bound a b Hb) as M.
  pose proof (Z.div_mod a' b ltac:(lia)) as E'. pose proof (Z.mod_pos_bound a' b Hb) as M'.
  assert (Q : a / b <= a' / b) by (apply Z.div_le_mono; lia).
  set (q := a / b) in *. set (r := a mod b) in *. set (q' := a' / b) in *. set (r' := a' mod b) in *. clearbody q r q' r'.
  destruct (Z.eq_dec q q') as [<-|N].
  - assert (r <= r') by lia.
    destruct (Z.ltb_spec (2 * r) b), (Z.ltb_spec b (2 * r)), (Z.ltb_spec (2 * r') b), (Z.ltb_spec b (2 * r')), (Z.even q); lia.
  - destruct (Z.ltb_spec (2 * r) b), (Z.ltb_spec b (2 * r)), (Z.ltb_spec (2 * r') b), (Z.ltb_spec b (2 * r')), (Z.even q), (Z.even q'); lia.
Qed.
Lemma round_div_nonneg a b : 0 < b -> 0 <= a -> 0 <= round_div a b.
Proof.
  intros Hb Ha. unfold round_div. assert (0 <= a / b) by (apply Z.div_pos; lia).
  destruct (2 * (a mod b) <? b), (b <? 2 * (a mod b)), (Z.even (a / b)); lia.
Qed.
Lemma round_div_mult m b : 0 < b -> round_div (m * b) b = m.
Proof.
  intros Hb. unfold round_div. rewrite Z.div_mul, Z.mod_mul by lia. destruct (Z.ltb_spec (2 * 0) b); lia.
Qed.

(** ** Significant digits *)
Lemma sig_exact p x : 0 <= x -> (ndigits x <= p)%nat -> sig p x = x.
Proof.
  intros Hx H. unfold sig. replace (ndigits x - p)%nat with 0%nat by lia. change (10 ^ Z.of_nat 0) with 1.
  rewrite <- (Z.mul_1_r x) at 1. rewrite round_div_mult; lia.
Qed.
Lemma sig_below p x : (1 <= p)%nat -> 0 <= x < 10 ^ Z.of_nat p -> sig p x = x.
Proof.
  intros Hp [H0 H]. apply sig_exact; [exact H0|]. destruct (Z.eq_dec x 0) as [->|N]; [rewrite ndigits_0; lia|].
  destruct (@ndigits_ok x) as (A & B & _); [lia|]. assert (ndigits x - 1 < p)%nat by (apply pow10_lt_inv; lia). lia.
Qed.
Lemma sig_0 p : (1 <= p)%nat -> sig p 0 = 0.
Proof. intros Hp. apply sig_below; [exact Hp|]. pose proof (pow10_pos p). lia. Qed.
Lemma sig_nonneg p x : 0 <= x -> 0 <= sig p x.
Proof. intros H. unfold sig. apply Z.mul_nonneg_nonneg; [apply round_div_nonneg; [apply pow10_pos|exact H]|]. apply Z.lt_le_incl, pow10_pos. Qed.

(** Between two powers of ten. *)
Lemma sig_range p x : (1 <= p)%nat -> 0 < x -> 10 ^ Z.of_nat (ndigits x - 1) <= sig p x <= 10 ^ Z.of_nat (ndigits x).
Proof.
  intros Hp Hx. destruct (ndigits_ok Hx) as (A & B & C). destruct (le_lt_dec (ndigits x) p) as [E|E].
  - rewrite sig_exact by lia. lia.
  - unfold sig. set (k := (ndigits x - p)%nat). assert (U : 0 < 10 ^ Z.of_nat k) by apply pow10_pos.
    assert (L : 10 ^ Z.of_nat (ndigits x - 1) = 10 ^ Z.of_nat (p - 1) * 10 ^ Z.of_nat k).
    { rewrite <- Z.pow_add_r by lia. f_equal. unfold k in *. lia. }
    assert (M : 10 ^ Z.of_nat (ndigits x) = 10 ^ Z.of_nat p * 10 ^ Z.of_nat k).
    { rewrite <- Z.pow_add_r by lia. f_equal. unfold k in *. lia. }
    split.
    + rewrite L. apply Z.mul_le_mono_nonneg_r; [lia|]. rewrite <- (@round_div_mult (10 ^ Z.of_nat (p - 1)) _ U). apply round_div_mono; [exact U|lia].
    + rewrite M. apply Z.mul_le_mono_nonneg_r; [lia|]. rewrite <- (@round_div_mult (10 ^ Z.of_nat p) _ U). apply round_div_mono; [exact U|lia].
Qed.

Lemma sig_mono p x y : (1 <= p)%nat -> 0 <= x <= y -> sig p x <= sig p y.
Proof.
  intros Hp [H0 H]. destruct (Z.eq_dec x 0) as [->|Nx]; [rewrite sig_0 by exact Hp; apply sig_nonneg; lia|].
  destruct (Nat.eq_dec (ndigits x) (ndigits y)) as [E|E].
  - unfold sig. rewrite <- E. apply Z.mul_le_mono_nonneg_r; [apply Z.lt_le_incl, pow10_pos|]. apply round_div_mono; [apply pow10_pos|exact H].
  - pose proof (@ndigits_mono x y ltac:(lia)). destruct (@sig_range p x Hp ltac:(lia)) as [_ A]. destruct (@sig_range p y Hp ltac:(lia)) as [B _].
    pose proof (@pow10_le (ndigits x) (ndigits y - 1) ltac:(lia)). lia.
Qed.

Lemma sig_short p x : (1 <= p)%nat -> 0 <= x -> short p (sig p x).
Proof.
  intros Hp Hx. destruct (Z.eq_dec x 0) as [->|N].
  - rewrite sig_0 by exact Hp. exists 0, 0. pose proof (pow10_pos p). lia.
  - destruct (@ndigits_ok x ltac:(lia)) as (A & B & C). destruct (@sig_range p x Hp ltac:(lia)) as [D F].
    unfold sig in *. set (k := (ndigits x - p)%nat) in *. assert (U : 0 < 10 ^ Z.of_nat k) by apply pow10_pos.
    set (q := round_div x (10 ^ Z.of_nat k)) in *.
    assert (Q : 0 <= q <= 10 ^ Z.of_nat p).
    { split; [apply round_div_nonneg; lia|]. apply Z.mul_le_mono_pos_r with (10 ^ Z.of_nat k); [exact U|].
      rewrite <- Z.pow_add_r by lia. eapply Z.le_trans; [exact F|]. apply Z.pow_le_mono_r; [lia|]. unfold k. lia. }
    destruct (Z.eq_dec q (10 ^ Z.of_nat p)) as [E|E].
    + exists (10 ^ Z.of_nat (p - 1)), (Z.of_nat (S k)). rewrite E. split; [|split; [lia|]].
      * pose proof (pow10_pos (p - 1)). replace (10 ^ Z.of_nat p) with (10 ^ Z.of_nat (S (p - 1))) by (f_equal; lia). rewrite pow10_S. lia.
      * rewrite <- !Z.pow_add_r by lia. f_equal. lia.
    + exists q, (Z.of_nat k). split; [lia|]. split; [lia|reflexivity].
Qed.

Lemma sig_nearest p x : (1 <= p)%nat -> 0 <= x -> nearest_short p x (sig p x).
Proof.
  intros Hp Hx. split; [apply sig_short; assumption|]. intros z (m & k & Hm & Hk & ->).
  destruct (le_lt_dec (ndigits x) p) as [Hn|Hn].
  { rewrite sig_exact by assumption. replace (x - x) with 0 by lia. apply Z.abs_nonneg. }
  assert (Nx : 0 < x). { destruct (Z.eq_dec x 0) as [->|N]; [rewrite ndigits_0 in Hn; lia|lia]. }
  destruct (@ndigits_ok x Nx) as (A & B & C).
  unfold sig. set (j := (ndigits x - p)%nat). assert (U : 0 < 10 ^ Z.of_nat j) by apply pow10_pos.
  destruct (Z_le_gt_dec (Z.of_nat j) k) as [L|L].
  - replace (m * 10 ^ k) with (m * 10 ^ (k - Z.of_nat j) * 10 ^ Z.of_nat j); [apply round_div_nearest; exact U|].
    rewrite <- Z.mul_assoc, <- Z.pow_add_r by lia. do 2 f_equal. lia.
  - assert (T : 10 ^ Z.of_nat (ndigits x - 1) = 10 ^ Z.of_nat (p - 1) * 10 ^ Z.of_nat j).
    { rewrite <- Z.pow_add_r by lia. f_equal. unfold j. lia. }
    assert (K : m * 10 ^ k < 10 ^ Z.of_nat (ndigits x - 1)).
    { apply Z.lt_le_trans with (10 ^ Z.of_nat p * 10 ^ k).
      - apply Z.mul_lt_mono_pos_r; [apply Z.pow_pos_nonneg; lia|lia].
      - rewrite <- Z.pow_add_r by lia. apply Z.pow_le_mono_r; [lia|]. unfold j in L. lia. }
    pose proof (@round_div_nearest x _ (10 ^ Z.of_nat (p - 1)) U) as R. rewrite <- T in R. lia.
Qed.

Lemma sig_within p x : (1 <= p)%nat -> 0 <= x -> within (2 * 10 ^ Z.of_nat (p - 1)) x (sig p x).
Proof.
  intros Hp Hx. unfold within. destruct (le_lt_dec (ndigits x) p) as [Hn|Hn].
  { rewrite sig_exact by assumption. replace (x - x) with 0 by lia. simpl Z.abs. lia. }
  assert (Nx : 0 < x). { destruct (Z.eq_dec x 0) as [->|N]; [rewrite ndigits_0 in Hn; lia|lia]. }
  destruct (@ndigits_ok x Nx) as (A & B & C). unfold sig. set (j := (ndigits x - p)%nat).
  assert (U : 0 < 10 ^ Z.of_nat j) by apply pow10_pos. pose proof (@round_div_close x _ U) as R.
  assert (T : 10 ^ Z.of_nat (ndigits x - 1) = 10 ^ Z.of_nat (p - 1) * 10 ^ Z.of_nat j).
  { rewrite <- Z.pow_add_r by lia. f_equal. unfold j. lia. }
  pose proof (pow10_pos (p - 1)). nia.
Qed.

(** ** What Python sees *)
Lemma shown_nonneg ct x : 0 <= x -> 0 <= shown ct x.
Proof. destruct ct; [apply sig_nonneg|auto]. Qed.
Lemma shown_mono ct x y : 0 <= x <= y -> shown ct x <= shown ct y.
Proof. destruct ct; [apply sig_mono; lia|simpl; lia]. Qed.
Lemma shown_within ct x : 0 <= x -> within 200000 x (shown ct x).
Proof.
  intros Hx. destruct ct; [exact (@sig_within 6 x ltac:(lia) Hx)|]. unfold within, shown. replace (x - x) with 0 by lia. simpl Z.abs. lia.
Qed.
Lemma shown_below ct x : 0 <= x < 1000000 -> shown ct x = x.
Proof. destruct ct; [intros H; apply sig_below; [lia|exact H]|auto]. Qed.

(** ** Sums *)
Definition total (l : list Z) : Z := fold_right Z.add 0 l.
Lemma total_nonneg l : Forall (fun c => 0 <= c) l -> 0 <= total l.
Proof. induction 1; simpl; lia. Qed.

Lemma sum_loop l : forall s a (i : nat), Forall (fun c => 0 <= c) l -> 0 <= a -> 0 <= s -> Z.of_nat (i + length l) <= 10 ^ 15 ->
  10 ^ 27 * Z.abs (s - a) <= Z.of_nat i * a ->
  10 ^ 27 * Z.abs (fold_left (fun s c => sig 28 (s + c)) l s - (a + total l)) <= Z.of_nat (i + length l) * (a + total l).
Proof.
  induction l as [|c l IH]; intros s a i Hl Ha Hs Hn H.
  - simpl fold_left. simpl total. simpl length. rewrite Nat.add_0_r, Z.add_0_r. exact H.
  - inversion_clear Hl as [|? ? Hc Hl']. cbn [fold_left total fold_right]. fold (total l).
    replace (a + (c + total l)) with (a + c + total l) by lia. cbn [length] in *. replace (i + S (length l))%nat with (S i + length l)%nat by lia.
    apply IH; [exact Hl'|lia|apply sig_nonneg; lia|lia|].
    pose proof (@sig_within 28 (s + c) ltac:(lia) ltac:(lia)) as W. unfold within in W.
    change (2 * 10 ^ Z.of_nat (28 - 1)) with (2 * 10 ^ 27) in W.
    assert (T : 10 ^ 15 < 10 ^ 27) by reflexivity. set (q := 10 ^ 27) in *. set (q0 := 10 ^ 15) in *. clearbody q q0.
    assert (I : Z.of_nat i <= q) by lia. rewrite Nat2Z.inj_succ. set (n := Z.of_nat i) in *. assert (0 <= n) by (unfold n; lia). clearbody n.
    set (y := sig 28 (s + c)) in *. clearbody y.
    assert (S1 : q * s <= q * a + n * a) by nia.
    assert (S2 : s <= 2 * a) by nia.
    assert (D : q * Z.abs (y - (a + c)) <= q * Z.abs (y - (s + c)) + q * Z.abs (s - a)) by nia.
    nia.
Qed.

Lemma decimal_sum_within l : Forall (fun c => 0 <= c) l -> Z.of_nat (length l) <= 10 ^ 15 ->
  10 ^ 27 * Z.abs (decimal_sum l - total l) <= Z.of_nat (length l) * total l.
Proof.
  intros Hl Hn. unfold decimal_sum. apply (@sum_loop l 0 0 0); [exact Hl|lia|lia|exact Hn|]. replace (0 - 0) with 0 by lia. simpl. lia.
Qed.

Lemma total_shown ct l : Forall (fun c => 0 <= c) l -> 200000 * Z.abs (total (map (shown ct) l) - total l) <= total l.
Proof.
  induction 1 as [|c l Hc Hl IH]; [simpl; lia|]. cbn [map total fold_right]. fold (total l). fold (total (map (shown ct) l)).
  pose proof (@shown_within ct c Hc) as W. unfold within in W. lia.
Qed.

Lemma reported_within ct l : Forall (fun c => 0 <= c) l -> Z.of_nat (length l) <= 10 ^ 15 ->
  within 199999 (total l) (decimal_sum (map (shown ct) l)).
Proof.
  intros Hl Hn. unfold within. pose proof (@total_shown ct l Hl) as A.
  assert (Hs : Forall (fun c => 0 <= c) (map (shown ct) l)).
  { apply Forall_map. eapply Forall_impl; [|exact Hl]. intros c. apply shown_nonneg. }
  pose proof (@decimal_sum_within _ Hs) as B. rewrite map_length in B. specialize (B Hn).
  pose proof (total_nonneg Hs) as P1. pose proof (total_nonneg Hl) as P2.
  set (t := total l) in *. set (u := total (map (shown ct) l)) in *. set (v := decimal_sum (map (shown ct) l)) in *. clearbody t u v.
  set (n := Z.of_nat (length l)) in *. assert (0 <= n) by (unfold n; lia). clearbody n.
  assert (E : 10 ^ 27 = 10 ^ 15 * 1000000000000) by reflexivity. rewrite E in B. set (q := 10 ^ 15) in *. assert (0 < q) by reflexivity. clearbody q.
  assert (B2 : n * u <= q * u) by (apply Z.mul_le_mono_nonneg_r; lia).
  assert (B' : 1000000000000 * Z.abs (v - u) <= u) by (apply Z.mul_le_mono_pos_l with q; [assumption|]; rewrite Z.mul_assoc; eapply Z.le_trans; [exact B|exact B2]). lia.
Qed.
