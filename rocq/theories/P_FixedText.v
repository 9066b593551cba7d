(** Proofs about the texts of numbers of fixed precision. *)
From Coq Require Import QArith Qpower Qabs ZArith Bool List Lia Lqa.
From Verif Require Import M_Base M_Fixed M_FixedText S_Fixed S_FixedText P_Base P_Fixed P_FixedMain P_FixedConv.
Import ListNotations.
Set Implicit Arguments. Unset Strict Implicit.
Local Open Scope Z_scope.

(** * Digits *)
Definition dv (b c : Z) : Z := match digit_value b c with Some d => d | None => 0 end.
Definition bdigit (b c : Z) : Prop := c <> 46 /\ c <> 0 /\ exists d, digit_value b c = Some d.
Definition val_of (b : Z) (t : list Z) (v : Z) : Z := fold_left (fun a c => a * b + dv b c) t v.

Lemma digit_char_ok b d : 0 <= d < b -> b <= 36 -> digit_value b (digit_char d) = Some d /\ digit_char d <> 46 /\ digit_char d <> 0.
Proof.
  intros H Hb. unfold digit_char. destruct (Z.ltb_spec d 10) as [L|L].
  - split; [|split; lia]. unfold digit_value.
    replace (48 <=? 48 + d) with true by (symmetry; apply Z.leb_le; lia). replace (48 + d <=? 57) with true by (symmetry; apply Z.leb_le; lia).
    cbn [andb]. replace (48 + d - 48) with d by lia. replace (0 <=? d) with true by (symmetry; apply Z.leb_le; lia).
    replace (d <? b) with true by (symmetry; apply Z.ltb_lt; lia). reflexivity.
  - split; [|split; lia]. unfold digit_value.
    replace (87 + d <=? 57) with false by (symmetry; apply Z.leb_gt; lia). rewrite andb_false_r.
    replace (97 <=? 87 + d) with true by (symmetry; apply Z.leb_le; lia). replace (87 + d <=? 122) with true by (symmetry; apply Z.leb_le; lia).
    cbn [andb]. replace (87 + d - 87) with d by lia. replace (0 <=? d) with true by (symmetry; apply Z.leb_le; lia).
    replace (d <? b) with true by (symmetry; apply Z.ltb_lt; lia). reflexivity.
Qed.

Lemma val_app b t1 t2 v : val_of b (t1 ++ t2) v = val_of b t2 (val_of b t1 v).
Proof. unfold val_of. apply fold_left_app. Qed.

Lemma digits_loop_ok b fuel : 2 <= b <= 36 -> forall z, 0 <= z -> (Z.to_nat (Z.log2 z) < fuel)%nat ->
  Forall (bdigit b) (digits_loop b fuel z) /\ val_of b (digits_loop b fuel z) 0 = z /\ digits_loop b fuel z <> [].
Proof.
  intros Hb. induction fuel as [|f IH]; intros z Hz Hf; [lia|]. simpl. destruct (Z.ltb_spec z b) as [H|H].
  - destruct (@digit_char_ok b z ltac:(lia) ltac:(lia)) as (A & B & C). split; [|split; [|discriminate]].
    + constructor; auto. split; [auto|split; eauto].
    + unfold val_of. simpl. unfold dv. rewrite A. lia.
  - assert (D : z / b < z) by (apply Z.div_lt; lia). assert (D0 : 0 < z / b) by (apply Z.div_str_pos; lia).
    assert (L : Z.log2 (z / b) < Z.log2 z).
    { assert (2 * (z / b) <= z) by (pose proof (Z.mul_div_le z b ltac:(lia)); nia).
      assert (Z.log2 (2 * (z / b)) <= Z.log2 z) by (apply Z.log2_le_mono; lia). rewrite Z.log2_double in H1 by lia. lia. }
    pose proof (Z.log2_nonneg (z / b)).
    destruct (IH (z / b)) as (A & B & C); [lia | lia |].
    pose proof (Z.mod_pos_bound z b ltac:(lia)) as M.
    destruct (@digit_char_ok b (z mod b) M ltac:(lia)) as (A' & B' & C'). split; [|split].
    + apply Forall_app. split; auto. constructor; auto. split; [auto|split; eauto].
    + rewrite val_app, B. unfold val_of. simpl. unfold dv. rewrite A'. pose proof (Z.div_mod z b ltac:(lia)). lia.
    + intros E. apply app_eq_nil in E. destruct E. discriminate.
Qed.
Lemma digits_ok b z : 2 <= b <= 36 -> 0 <= z -> Forall (bdigit b) (digits b z) /\ val_of b (digits b z) 0 = z /\ digits b z <> [].
Proof. intros. unfold digits. apply digits_loop_ok; auto. Qed.

Lemma mantissa_digits b ds : Forall (bdigit b) ds -> forall r pt v n fr,
  mantissa b (ds ++ r) pt v n fr =
  mantissa b r pt (val_of b ds v) (n + Z.of_nat (length ds)) (if pt then fr + Z.of_nat (length ds) else fr).
Proof.
  induction 1 as [|c ds (H1 & _ & d & H2) H IH]; intros r pt v n fr.
  - simpl. f_equal; [lia|destruct pt; lia].
  - cbn [app mantissa]. destruct (Z.eqb_spec c 46); [contradiction|]. rewrite H2, IH. unfold val_of. simpl fold_left. unfold dv at 3. rewrite H2.
    simpl length. rewrite Nat2Z.inj_succ. f_equal; [lia|destruct pt; lia].
Qed.

Lemma mantissa_point b r v n fr : mantissa b (46 :: r) false v n fr = mantissa b r true v n fr.
Proof. reflexivity. Qed.

Definition stops (b : Z) (r : list Z) : Prop := match r with [] => True | c :: _ => c <> 46 /\ digit_value b c = None end.
Lemma mantissa_stop b r pt v n fr : stops b r -> mantissa b r pt v n fr = (v, n, fr, r).
Proof.
  destruct r as [|c r]; simpl; auto. intros [H1 H2]. destruct (Z.eqb_spec c 46); [contradiction|]. rewrite H2. reflexivity.
Qed.

Lemma take_int_digits ds : Forall (bdigit 10) ds -> forall v, take_int ds v = val_of 10 ds v.
Proof.
  induction 1 as [|c ds (H1 & _ & d & H2) H IH]; intros v; [reflexivity|]. cbn [take_int]. rewrite H2, IH.
  unfold val_of. simpl fold_left. unfold dv at 3. rewrite H2. reflexivity.
Qed.

Lemma dec_bdigit c : digit c -> bdigit 10 c /\ digit_value 10 c = Some (c - 48).
Proof.
  intros H. unfold digit in H. assert (E : digit_value 10 c = Some (c - 48)).
  { unfold digit_value. destruct (Z.leb_spec 48 c); [|lia]. destruct (Z.leb_spec c 57); [|lia]. simpl.
    destruct (Z.leb_spec 0 (c - 48)); [|lia]. destruct (Z.ltb_spec (c - 48) 10); [|lia]. reflexivity. }
  split; auto. split; [lia|]. split; [lia|]. eauto.
Qed.
Lemma dec_bdigits t : Forall digit t -> Forall (bdigit 10) t.
Proof. intros H. eapply Forall_impl; [|exact H]. intros c Hc. apply dec_bdigit; auto. Qed.
Lemma decimal_val t : Forall digit t -> forall v, decimal_from v t = val_of 10 t v.
Proof.
  induction 1 as [|c t H1 H IH]; intros v; [reflexivity|]. cbn [decimal_from]. rewrite IH.
  change (val_of 10 (c :: t) v) with (val_of 10 t (v * 10 + dv 10 c)).
  assert (E : dv 10 c = c - 48) by (unfold dv; destruct (dec_bdigit H1) as [_ ->]; reflexivity). rewrite E. f_equal. lia.
Qed.
Lemma bdigit_dec c : bdigit 10 c -> digit c.
Proof.
  intros (_ & _ & d & H). unfold digit_value in H. cbv zeta in H. unfold digit.
  destruct (Z.leb_spec 48 c); destruct (Z.leb_spec c 57); cbn [andb] in H; try lia.
  - destruct (Z.leb_spec 97 c); destruct (Z.leb_spec c 122); cbn [andb] in H; try lia.
    + destruct (Z.ltb_spec (c - 87) 10); [lia|]. rewrite andb_false_r in H. discriminate.
    + destruct (Z.leb_spec 65 c); destruct (Z.leb_spec c 90); cbn [andb] in H; try lia; discriminate.
    + destruct (Z.leb_spec 65 c); destruct (Z.leb_spec c 90); cbn [andb] in H; try lia; try discriminate.
      destruct (Z.ltb_spec (c - 55) 10); [lia|]. rewrite andb_false_r in H. discriminate.
  - destruct (Z.leb_spec 97 c); destruct (Z.leb_spec 65 c); cbn [andb] in H; try lia; discriminate.
Qed.
Lemma bdigits_dec t : Forall (bdigit 10) t -> Forall digit t.
Proof. intros H. eapply Forall_impl; [|exact H]. intros. apply bdigit_dec. auto. Qed.

(** * Values *)
Lemma base_pow b x : 2 <= b -> (inject_Z (b ^ Z.max 0 x) == Qpower (inject_Z b) x * inject_Z (b ^ Z.max 0 (- x)))%Q.
Proof.
  intros Hb. rewrite !Zpower_Qpower by lia. rewrite <- Qpower_plus.
  - replace (x + Z.max 0 (- x)) with (Z.max 0 x) by lia. reflexivity.
  - intros H. change 0%Q with (inject_Z 0) in H. apply (proj1 (inject_Z_injective _ _)) in H. lia.
Qed.

Lemma scaled_value_ok p s b v x y : 2 <= p -> 2 <= b -> 0 <= v -> let r := scaled_value p s b v x y in
  good p (pm s (inject_Z v * Qpower (inject_Z b) x * pow2 y)) r /\ sign r = s.
Proof.
  intros Hp Hb Hv r. unfold r, scaled_value. destruct v as [|m|m]; [| |lia].
  - split; [|reflexivity]. apply good_self; simpl; auto. change (inject_Z 0) with 0%Q. destruct s; simpl; ring.
  - pose proof (@base_pow b x Hb) as E.
    assert (A : 0 < b ^ Z.max 0 x) by (apply Z.pow_pos_nonneg; lia). assert (B : 0 < b ^ Z.max 0 (- x)) by (apply Z.pow_pos_nonneg; lia).
    destruct (b ^ Z.max 0 x) as [|u|u]; try lia. destruct (b ^ Z.max 0 (- x)) as [|w|w]; try lia.
    split; [|apply round_canon].
    eapply good_eq; [|apply round_fixed; auto]. rewrite Pos2Z.inj_mul, inject_Z_mult, E.
    assert (W0 : ~ (inject_Z (Z.pos w) == 0)%Q) by (intros H; discriminate H).
    destruct s; cbn [pm]; field; auto.
Qed.

(** * Reading *)
Lemma c_string_id t : Forall (fun c => c <> 0) t -> c_string t = t.
Proof. induction 1 as [|c t H1 H IH]; [reflexivity|]. cbn [c_string]. destruct (Z.eqb_spec c 0); [contradiction|]. rewrite IH. reflexivity. Qed.

Definition plain10 (p : Z) (s : bool) (t : list Z) : num := match read_base p s 10 t with Some x => x | None => Zero false end.
Lemma strtofr10 p sg t : (forall c t', t = c :: t' -> c = 46 \/ digit c) ->
  strtofr p 10 (sign_of sg ++ t) = plain10 p (is_minus sg) t.
Proof.
  intros H. assert (G : forall s u, u = t ->
     (if begins [64; 110; 97; 110; 64] u || begins M_FixedText.t_nan u then NaN
      else if begins [64; 105; 110; 102; 64] u || begins M_FixedText.t_inf u then Inf s
      else let plain b := match read_base p s b u with Some x => x | None => Zero false end in
       match u with
       | c0 :: c1 :: t' => if (10 =? 0) && (c0 =? 48) && (lower c1 =? 120) then match read_base p s 16 t' with Some x => x | None => plain 10 end
                           else if (10 =? 0) && (c0 =? 48) && (lower c1 =? 98) then match read_base p s 2 t' with Some x => x | None => plain 10 end
                           else plain 10
       | _ => plain 10
       end) = plain10 p s t).
  { intros s u ->.
    assert (B : forall a w, a = 64 \/ a = 110 \/ a = 105 -> begins (a :: w) t = false).
    { intros a w Ha. destruct t as [|c t']; [reflexivity|]. cbn [begins]. specialize (H c t' eq_refl).
      assert (L : lower c = c). { unfold lower. unfold digit in H. destruct (Z.leb_spec 65 c); [|reflexivity]. lia. }
      rewrite L. unfold digit in H. destruct (Z.eqb_spec c a); [lia|]. reflexivity. }
    unfold M_FixedText.t_nan, M_FixedText.t_inf. rewrite !B by auto. cbn [orb]. cbv zeta. unfold plain10. destruct t as [|c0 [|c1 t']]; reflexivity. }
  unfold strtofr. destruct sg as [[|]|]; cbn [sign_of app skip_spaces is_minus].
  - change (is_space 45) with false. cbv iota zeta. change (45 =? 45) with true. cbn [orb]. exact (G true t eq_refl).
  - change (is_space 43) with false. cbv iota zeta. change (43 =? 45) with false. change (43 =? 43) with true. cbn [orb]. exact (G false t eq_refl).
  - destruct t as [|c t']; [reflexivity|]. specialize (H c t' eq_refl) as Hc. unfold digit in Hc.
    assert (S : is_space c = false). { unfold is_space. destruct (Z.eqb_spec c 32); [lia|]. destruct (Z.leb_spec 9 c); [|reflexivity]. destruct (Z.leb_spec c 13); [lia|reflexivity]. }
    cbn [skip_spaces]. rewrite S. cbv iota zeta. destruct (Z.eqb_spec c 45); [lia|]. destruct (Z.eqb_spec c 43); [lia|]. cbn [orb]. exact (G false (c :: t') eq_refl).
Qed.

Lemma digit_nz t : Forall digit t -> Forall (fun c => c <> 0) t.
Proof. intros H. eapply Forall_impl; [|exact H]. unfold digit. intros. lia. Qed.

Lemma strtol_ok s x : Forall digit x -> x <> [] -> strtol (sign_of s ++ x) = if is_minus s then - decimal x else decimal x.
Proof.
  intros H N. unfold decimal. rewrite (decimal_val H), <- (take_int_digits (dec_bdigits H)).
  destruct s as [[|]|]; try reflexivity. destruct x as [|c x]; [contradiction|]. cbn [sign_of app is_minus strtol].
  inversion H as [|? ? Hc]; subst. unfold digit in Hc. destruct (Z.eqb_spec c 45); [lia|]. destruct (Z.eqb_spec c 43); [lia|]. reflexivity.
Qed.

Lemma read_literal p l : 2 <= p -> is_literal l ->
  good p (literal_value l) (of_string p 10 (literal_text l)) /\ sign (of_string p 10 (literal_text l)) = is_minus (l_sign l).
Proof.
  intros Hp (Hi & Hf & Hn & He). set (body := l_whole l ++ match l_fraction l with None => [] | Some f => 46 :: f end ++
     match l_exponent l with None => [] | Some (c, s, x) => c :: sign_of s ++ x end).
  set (ex := match l_exponent l with None => [] | Some (c, s, x) => c :: sign_of s ++ x end) in *.
  assert (EZ : Forall (fun c => c <> 0) ex).
  { unfold ex. destruct (l_exponent l) as [[[c s] x]|]; [|constructor]. destruct He as (C & _ & X). constructor; [lia|].
    apply Forall_app. split; [destruct s as [[|]|]; repeat constructor; discriminate | apply digit_nz; auto]. }
  assert (NZ : Forall (fun c => c <> 0) (literal_text l)).
  { unfold literal_text. fold ex. apply Forall_app. split; [destruct (l_sign l) as [[|]|]; repeat constructor; discriminate|].
    apply Forall_app. split; [apply digit_nz; auto|]. apply Forall_app. split; [|exact EZ].
    unfold fraction_of in Hf. destruct (l_fraction l); [|constructor]. constructor; [lia|]. apply digit_nz; auto. }
  assert (HD : forall c t', body = c :: t' -> c = 46 \/ digit c).
  { unfold body. intros c t' E. destruct (l_whole l) as [|w ws] eqn:Ew.
    - unfold fraction_of in Hn. destruct (l_fraction l); [|simpl in Hn; contradiction]. simpl in E. injection E as <- _. auto.
    - simpl in E. injection E as <- _. inversion Hi; auto. }
  assert (OS : of_string p 10 (literal_text l) = plain10 p (is_minus (l_sign l)) body).
  { unfold of_string. rewrite c_string_id by exact NZ. unfold literal_text. fold ex. fold body.
    assert (B0 : body <> []).
    { unfold body. intros E. apply app_eq_nil in E. destruct E as [E1 E2]. apply app_eq_nil in E2. destruct E2 as [E2 _].
      apply Hn. unfold fraction_of. rewrite E1. destruct (l_fraction l); [discriminate|reflexivity]. }
    rewrite <- strtofr10 by exact HD. destruct (sign_of (l_sign l) ++ body) eqn:E; [|reflexivity].
    apply app_eq_nil in E. destruct E; contradiction. }
  rewrite OS. clear OS NZ HD. unfold plain10, read_base.
  assert (ST : stops 10 ex).
  { unfold ex. destruct (l_exponent l) as [[[c s] x]|]; [|exact I]. destruct He as ([-> | ->] & _ & _); split; try discriminate; reflexivity. }
  assert (EX : exponents 10 ex = (exponent_of l, 0)).
  { unfold ex, exponent_of. destruct (l_exponent l) as [[[c s] x]|]; [|reflexivity]. destruct He as (C & X0 & X).
    assert (SS : starts_space (sign_of s ++ x) = false).
    { destruct s as [[|]|]; try reflexivity. destruct x as [|d x]; [reflexivity|]. inversion X as [|? ? Hd]; subst. unfold digit in Hd. simpl. unfold is_space.
      destruct (Z.eqb_spec d 32); [lia|]. destruct (Z.leb_spec 9 d); [|reflexivity]. destruct (Z.leb_spec d 13); [lia|reflexivity]. }
    unfold exponents. assert (L : lower c = 101) by (destruct C as [-> | ->]; reflexivity). rewrite L, SS.
    rewrite (strtol_ok s X X0). replace (c =? 64) with false by (symmetry; apply Z.eqb_neq; lia). reflexivity. }
  assert (MA : mantissa 10 body false 0 0 0 = (decimal (l_whole l ++ fraction_of l), Z.of_nat (length (l_whole l ++ fraction_of l)), Z.of_nat (length (fraction_of l)), ex)).
  { unfold body, decimal, fraction_of in *. rewrite decimal_val by (apply Forall_app; auto). rewrite val_app.
    rewrite mantissa_digits by (apply dec_bdigits; auto). destruct (l_fraction l) as [f|].
    - cbn [app]. rewrite mantissa_point, mantissa_digits by (apply dec_bdigits; auto). rewrite mantissa_stop by exact ST.
      rewrite app_length. repeat f_equal; lia.
    - cbn [app]. rewrite mantissa_stop by exact ST. rewrite app_nil_r. reflexivity. }
  rewrite MA. destruct (Z.eqb_spec (Z.of_nat (length (l_whole l ++ fraction_of l))) 0) as [E|_].
  { exfalso. apply Hn. destruct (l_whole l ++ fraction_of l); [reflexivity | simpl in E; lia]. }
  rewrite EX. assert (V0 : 0 <= decimal (l_whole l ++ fraction_of l)).
  { assert (W : Forall digit (l_whole l ++ fraction_of l)) by (apply Forall_app; auto). revert W. generalize (l_whole l ++ fraction_of l) as t.
    intros t W. unfold decimal. assert (G : forall v, 0 <= v -> 0 <= decimal_from v t); [|apply G; lia].
    induction W as [|c t H1 H IH]; intros v Hv; cbn [decimal_from]; auto. apply IH. unfold digit in H1. lia. }
  destruct (@scaled_value_ok p (is_minus (l_sign l)) 10 (decimal (l_whole l ++ fraction_of l)) (exponent_of l - Z.of_nat (length (fraction_of l))) 0 Hp ltac:(lia) V0) as [A B].
  split; [|exact B]. eapply good_eq; [|exact A]. unfold literal_value. change (inject_Z 10) with 10%Q. rewrite pow2_0.
  destruct (is_minus (l_sign l)); cbn [pm]; [change (inject_Z (-1)) with (-1)%Q | change (inject_Z 1) with 1%Q]; ring.
Qed.

(** * Pickle *)
Lemma sign_text_of s : sign_text s = sign_of (if s then Some true else None).
Proof. destruct s; reflexivity. Qed.

Lemma exponent_strtol x : strtol (exponent_text x) = x /\ starts_space (exponent_text x) = false /\ Forall (fun c => c <> 0) (exponent_text x).
Proof.
  unfold exponent_text. destruct (Z.ltb_spec x 0) as [H|H].
  - destruct (@digits_ok 10 (- x) ltac:(lia) ltac:(lia)) as (A & B & C). split; [|split; [reflexivity|]].
    + cbn [strtol]. change (45 =? 45) with true. cbv iota. rewrite take_int_digits, B by exact A. lia.
    + constructor; [discriminate|]. eapply Forall_impl; [|exact A]. intros c (_ & N & _). exact N.
  - destruct (@digits_ok 10 x ltac:(lia) ltac:(lia)) as (A & B & C). split; [|split; [reflexivity|]].
    + cbn [strtol]. change (43 =? 45) with false. change (43 =? 43) with true. cbv iota. rewrite take_int_digits, B by exact A. lia.
    + constructor; [discriminate|]. eapply Forall_impl; [|exact A]. intros c (_ & N & _). exact N.
Qed.

Lemma strtofr_hex p s t : strtofr p 0 (sign_text s ++ 48 :: 120 :: t) = match read_base p s 16 t with Some x => x | None => plain10 p s (48 :: 120 :: t) end.
Proof. destruct s; reflexivity. Qed.

Lemma pow16 k : (Qpower (inject_Z 16) k == pow2 (4 * k))%Q.
Proof. change (inject_Z 16) with (Qpower 2 4). unfold pow2. rewrite <- Qpower_mult. reflexivity. Qed.

Lemma pickle_ok p x : 2 <= p -> number p x -> load p (dump x) = x.
Proof.
  intros Hp N. destruct x as [|s|s|s m e].
  - reflexivity.
  - destruct s; reflexivity.
  - destruct s; reflexivity.
  - unfold dump, load. set (M := Z.pos m * 2 ^ (e mod 4)). pose proof (Z.mod_pos_bound e 4 ltac:(lia)) as E4.
    assert (M0 : 0 < M) by (apply Z.mul_pos_pos; [lia | apply Z.pow_pos_nonneg; lia]).
    destruct (@digits_ok 16 M ltac:(lia) ltac:(lia)) as (A & B & C). set (ds := digits 16 M) in *. clearbody ds.
    set (E := 4 * (e / 4) + 4 * (Z.of_nat (length ds) - 1)).
    destruct (exponent_strtol E) as (X1 & X2 & X3).
    assert (NZ : Forall (fun c => c <> 0) (sign_text s ++ [48; 120] ++ pointed ds ++ 112 :: exponent_text E)).
    { apply Forall_app. split; [destruct s; repeat constructor; discriminate|]. apply Forall_app. split; [repeat constructor; discriminate|].
      apply Forall_app. split; [|constructor; [discriminate|auto]].
      assert (Ad : Forall (fun c => c <> 0) ds) by (eapply Forall_impl; [|exact A]; intros c (_ & H & _); exact H).
      destruct ds as [|d [|d' ds']]; simpl; auto. inversion Ad; subst. constructor; auto. constructor; [discriminate|auto]. }
    unfold of_string. rewrite c_string_id by exact NZ.
    assert (EQ : sign_text s ++ [48; 120] ++ pointed ds ++ 112 :: exponent_text E = sign_text s ++ 48 :: 120 :: pointed ds ++ 112 :: exponent_text E) by reflexivity.
    rewrite EQ. destruct (sign_text s ++ 48 :: 120 :: pointed ds ++ 112 :: exponent_text E) eqn:T.
    { apply app_eq_nil in T. destruct T; discriminate. }
    rewrite <- T, strtofr_hex. unfold read_base.
    assert (MA : mantissa 16 (pointed ds ++ 112 :: exponent_text E) false 0 0 0 = (M, Z.of_nat (length ds), Z.of_nat (length ds) - 1, 112 :: exponent_text E)).
    { assert (S : stops 16 (112 :: exponent_text E)) by (split; [discriminate|reflexivity]).
      destruct ds as [|d [|d' ds']]; [contradiction| |].
      - cbn [pointed]. rewrite mantissa_digits, mantissa_stop, B by auto. reflexivity.
      - change (pointed (d :: d' :: ds') ++ 112 :: exponent_text E) with ([d] ++ 46 :: (d' :: ds') ++ 112 :: exponent_text E).
        inversion A as [|? ? A1 A2]; subst.
        rewrite mantissa_digits, mantissa_point, mantissa_digits, mantissa_stop by auto. rewrite <- val_app.
        change ([d] ++ d' :: ds') with (d :: d' :: ds'). rewrite B. cbn [length]. f_equal; [f_equal; [f_equal; lia | lia]]. }
    rewrite MA. destruct (Z.eqb_spec (Z.of_nat (length ds)) 0) as [H|_]; [destruct ds; [contradiction|simpl in H; lia]|].
    assert (EX : exponents 16 (112 :: exponent_text E) = (0, E)).
    { unfold exponents. rewrite X1, X2. reflexivity. }
    rewrite EX. destruct (@scaled_value_ok p s 16 M (0 - (Z.of_nat (length ds) - 1)) E Hp ltac:(lia) ltac:(lia)) as [(G1 & G2 & G3) G4].
    set (r := scaled_value p s 16 M (0 - (Z.of_nat (length ds) - 1)) E) in *.
    assert (V : (val r == val (Num s m e))%Q).
    { assert (EV : (pm s (inject_Z M * Qpower (inject_Z 16) (0 - (Z.of_nat (length ds) - 1)) * pow2 E) == val (Num s m e))%Q).
      { rewrite pow16. unfold M. rewrite inject_Z_mult, <- pow2_Z by lia. rewrite <- !Qmult_assoc, <- !pow2_add.
        replace (e mod 4 + (4 * (0 - (Z.of_nat (length ds) - 1)) + E)) with e by (unfold E; pose proof (Z.div_mod e 4 ltac:(lia)); lia).
        rewrite signed_val. destruct s; cbn [pm signed]; [rewrite inject_Z_opp; ring | reflexivity]. }
      apply (@nearest_unique (fixed p) (pm s (inject_Z M * Qpower (inject_Z 16) (0 - (Z.of_nat (length ds) - 1)) * pow2 E)) (val (Num s m e))); auto.
      - simpl. lia.
      - apply nearest_self. apply number_fits; auto. lia. }
    apply canon_eq; auto; [eapply number_canon; eauto | eapply number_canon; eauto].
Qed.
