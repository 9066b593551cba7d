(** Proofs about the numbers of fixed precision: conversions, whole numbers, names. *)
From Coq Require Import QArith Qpower Qabs ZArith Bool List Lia Lqa.
From Verif Require Import M_Base M_Fixed S_Fixed P_Base P_Fixed P_FixedMain.
From Verif Require S_Float.
Import ListNotations.
Set Implicit Arguments. Unset Strict Implicit.
Local Open Scope Z_scope.

Lemma no_between f x y z : nearest f x y -> fits f z -> ~ (x < z < y)%Q /\ ~ (y < z < x)%Q.
Proof. intros (_ & N & _) F. specialize (N _ F). split; intros [H1 H2]; qabs; lra. Qed.

Lemma double_long z : fits double z -> fits long_double z.
Proof.
  intros (m & e & A & B & C). exists m, e. split; [|split; [|exact C]].
  - apply Z.lt_trans with (2 ^ 53); [exact A|]. reflexivity.
  - unfold low_ok in *. simpl in *. lia.
Qed.

(** Rounding to a format with bounds, of a number with its sign. *)
Lemma convert_cases f x : proper f -> finite x = true -> exists y, nearest f (val x) y /\
  ((exists s, convert f x = Inf s /\ overflows f (pm s y)) \/
   finite (convert f x) = true /\ (val (convert f x) == y)%Q /\ ~ overflows f y /\ ~ overflows f (- y)).
Proof.
  intros Hp F. destruct x as [|s|s|s m e]; try discriminate.
  - assert (NO : ~ overflows f 0).
    { unfold overflows. destruct (bounds f) as [[lo hi]|]; auto. pose proof (pow2_pos hi). lra. }
    exists 0%Q. split; [apply nearest_self, fits_zero; destruct Hp; lia|]. right. split; [auto|]. split; [reflexivity|]. split; [auto|].
    unfold overflows in *. destruct (bounds f) as [[lo hi]|]; auto.
  - destruct (@round_spec f s m 1%positive e Hp) as (y & N & Y0 & Hy). exists (pm s y). split.
    + assert (N' : nearest f (pm s (inject_Z (Z.pos m) / inject_Z 1 * pow2 e)) (pm s y)) by (destruct s; [apply nearest_opp|]; exact N).
      eapply nearest_eq; [|reflexivity|exact N']. rewrite signed_val.
      change (inject_Z 1) with 1%Q. destruct s; cbn [signed pm]; rewrite ?inject_Z_opp; field.
    + assert (NEG : ~ overflows f (- y)).
      { unfold overflows. destruct (bounds f) as [[lo hi]|]; auto. pose proof (pow2_pos hi). lra. }
      destruct Hy as [[O E]|(NO & Fr & V)].
      * left. exists s. split; [exact E|]. unfold overflows in *. destruct (bounds f) as [[lo hi]|]; auto.
        destruct s; cbn [pm]; [rewrite Qopp_involutive|]; exact O.
      * right. split; [exact Fr|]. split; [exact V|]. destruct s; simpl; split; auto.
        unfold overflows in *. destruct (bounds f) as [[lo hi]|]; auto. rewrite Qopp_involutive. auto.
Qed.

Lemma overflows_double y : overflows double y <-> (pow2 1024 <= y)%Q. Proof. reflexivity. Qed.
Lemma overflows_long y : overflows long_double y <-> (pow2 16384 <= y)%Q. Proof. reflexivity. Qed.

Lemma not_over y : ~ (pow2 1024 <= y)%Q -> ~ (pow2 1024 <= - y)%Q -> (Qabs y < pow2 1024)%Q.
Proof. intros A B. destruct (Qabs_cases y) as [[C D]|[C D]]; rewrite D; lra. Qed.

Lemma to_float_ok x : finite x = true -> faithful x (to_float x) /\
  (fits long_double (val x) -> finite (to_float x) = true -> nearest double (val x) (val (to_float x))).
Proof.
  intros F. unfold to_float.
  destruct (convert_cases long_double_proper F) as (y & N & [(s & E & O)|(F1 & V & O1 & O2)]).
  - rewrite E. simpl convert. split; [|discriminate]. rewrite overflows_long in O.
    assert (L : (pow2 1024 <= pow2 16384)%Q) by (apply pow2_le; lia).
    destruct s; simpl faithful; intros z [Fz Bz]; apply double_long in Fz; destruct (no_between N Fz) as [B1 B2]; cbn [pm] in O.
    + destruct (Qlt_le_dec z (val x)) as [H|H]; auto. exfalso. apply B2. split; auto. destruct (Qabs_cases z) as [[A B]|[A B]]; rewrite B in Bz; lra.
    + destruct (Qlt_le_dec (val x) z) as [H|H]; auto. exfalso. apply B1. split; auto. destruct (Qabs_cases z) as [[A B]|[A B]]; rewrite B in Bz; lra.
  - destruct (convert_cases double_proper F1) as (w & N2 & R).
    set (r := convert double (convert long_double x)) in *.
    assert (N2' : nearest double y w) by (eapply nearest_eq; [exact V | reflexivity | exact N2]).
    (* no double between x and w *)
    assert (NB : forall z, fits double z -> ~ (val x < z < w)%Q /\ ~ (w < z < val x)%Q).
    { intros z Fz. destruct (no_between N (double_long Fz)) as [A1 A2]. destruct (no_between N2' Fz) as [B1 B2].
      assert (EQ : (z == y)%Q -> (w == y)%Q).
      { intros H. apply (@nearest_unique double y y); auto; [simpl; lia | reflexivity|]. eapply nearest_eq; [exact H | exact H | apply nearest_self; auto]. }
      split; intros [H1 H2].
      - destruct (Q_dec z y) as [[H|H]|H]; [apply A1; lra | apply B1; lra | specialize (EQ H); lra].
      - destruct (Q_dec z y) as [[H|H]|H]; [apply B2; lra | apply A2; lra | specialize (EQ H); lra]. }
    split.
    + destruct R as [(s & E & O)|(F2 & V2 & O3 & O4)].
      * fold r in E. rewrite E. rewrite overflows_double in O. destruct s; simpl faithful; intros z [Fz Bz]; destruct (NB z Fz) as [B1 B2]; cbn [pm] in O.
        -- destruct (Qlt_le_dec z (val x)) as [H|H]; auto. exfalso. apply B2. split; auto. destruct (Qabs_cases z) as [[A B]|[A B]]; rewrite B in Bz; lra.
        -- destruct (Qlt_le_dec (val x) z) as [H|H]; auto. exfalso. apply B1. split; auto. destruct (Qabs_cases z) as [[A B]|[A B]]; rewrite B in Bz; lra.
      * fold r in F2, V2. assert (DV : double_value (val r)).
        { split; [apply (@fits_eq double w); [symmetry; exact V2|]; apply N2'|]. rewrite V2. apply not_over; auto. }
        assert (G : double_value (val r) /\ forall z, double_value z -> ~ (val x < z < val r)%Q /\ ~ (val r < z < val x)%Q).
        { split; [auto|]. intros z [Fz _]. rewrite V2. auto. }
        unfold faithful. destruct r; try discriminate; exact G.
    + intros Fx Fr. assert (Ey : (y == val x)%Q).
      { apply (@nearest_unique long_double (val x) (val x)); auto; [simpl; lia | reflexivity | apply nearest_self; auto]. }
      destruct R as [(s & E & O)|(F2 & V2 & O3 & O4)]; [fold r in E; rewrite E in Fr; discriminate|]. fold r in V2.
      eapply nearest_eq; [exact Ey | symmetry; exact V2 | exact N2'].
Qed.

(** Numbers that come out of a rounding to double are doubles. *)
Lemma canon_low x lo : canon x -> finite x = true -> (exists m' e', lo <= e' /\ m' <> 0 /\ (val x == inject_Z m' * pow2 e')%Q) ->
  match x with Num _ _ e => lo <= e | _ => True end.
Proof.
  intros C F (m' & e' & L & Nz & V). destruct x as [|s|s|s m e]; auto. destruct (Z_le_gt_dec lo e) as [H|H]; auto. exfalso.
  rewrite signed_val in V. simpl in C. set (M := signed s (Z.pos m)) in *. assert (O : Z.odd M = true) by (destruct s; exact C).
  assert (X : (pow2 e' == pow2 (e' - e) * pow2 e)%Q) by (rewrite <- pow2_add; replace (e' - e + e) with e' by lia; reflexivity).
  rewrite X, (@pow2_Z (e' - e)) in V by lia.
  assert (H1 : M = m' * 2 ^ (e' - e)) by (apply (proj1 (inject_Z_injective _ _)); rewrite inject_Z_mult; pose proof (pow2_pos e); nra).
  rewrite H1, Z.odd_mul, Z.odd_pow in O by lia. rewrite andb_false_r in O. discriminate.
Qed.

Lemma double_is_double x : canon x -> finite x = true -> fits double (val x) -> (Qabs (val x) < pow2 1024)%Q -> is_double x.
Proof.
  intros C F Fd B. pose proof (canon_fits C F Fd) as N. destruct x as [|s|s|s m e]; auto. destruct N as [O M].
  split; [exact O|]. split; [exact M|]. split.
  - apply (@canon_low (Num s m e) (-1074) C F). destruct Fd as (m' & e' & A1 & A2 & A3). exists m', e'. split; [exact A2|]. split; [|exact A3].
    intros ->. change (inject_Z 0) with 0%Q in A3. assert (Z0 : (val (Num s m e) == 0)%Q) by (rewrite A3; ring).
    apply num_zero in Z0; [discriminate|auto].
  - assert (AV : (Qabs (val (Num s m e)) == inject_Z (Zpos m) * pow2 e)%Q).
    { rewrite signed_val, Qabs_Qmult, (Qabs_pos (pow2 e)) by (apply Qlt_le_weak, pow2_pos). destruct s; reflexivity. }
    rewrite AV in B. destruct (Z_lt_le_dec (Z.log2 (Z.pos m) + e) 1024) as [H|H]; auto. exfalso.
    assert (P : (pow2 (1024 - e) <= inject_Z (Zpos m))%Q) by (apply log2_pow2; lia).
    assert (X : (pow2 1024 == pow2 (1024 - e) * pow2 e)%Q) by (rewrite <- pow2_add; replace (1024 - e + e) with 1024 by lia; reflexivity).
    rewrite X in B. pose proof (pow2_pos e). nra.
Qed.

Lemma int_ok p z : 53 <= p -> exists y, nearest double (inject_Z z) y /\
  ((Qabs y < pow2 1024)%Q -> exists v, argument p (OInt z) = Ok v /\ finite v = true /\ (val v == y)%Q) /\
  ((pow2 1024 <= Qabs y)%Q -> argument p (OInt z) = Err Throw).
Proof.
  intros Hp. set (x := match z with Z0 => Zero false | Zpos m => make false (Zpos m) 0 | Zneg m => make true (Zpos m) 0 end).
  set (r := match z with Z0 => Zero false | Zpos m => round double false m 1 0 | Zneg m => round double true m 1 0 end).
  assert (RR : exists y, nearest double (inject_Z z) y /\ ((exists s, r = Inf s /\ (pow2 1024 <= Qabs y)%Q) \/ finite r = true /\ canon r /\ (val r == y)%Q /\ (Qabs y < pow2 1024)%Q)).
  { unfold r. destruct z as [|m|m].
    - exists 0%Q. split; [apply nearest_self, fits_zero; simpl; lia|]. right. split; [auto|]. split; [exact I|]. split; [reflexivity|].
      change (Qabs 0) with 0%Q. apply pow2_pos.
    - destruct (@round_spec double false m 1%positive 0 double_proper) as (y & N & Y0 & Hy). exists y. split.
      + eapply nearest_eq; [|reflexivity|exact N]. change (inject_Z 1) with 1%Q. rewrite pow2_0. field.
      + destruct Hy as [[O E]|(O & Fr & V)]; rewrite overflows_double in O.
        * left. exists false. split; [exact E|]. rewrite (Qabs_pos y) by exact Y0. exact O.
        * right. split; [exact Fr|]. split; [apply round_canon|]. split; [exact V|]. rewrite (Qabs_pos y) by exact Y0. lra.
    - destruct (@round_spec double true m 1%positive 0 double_proper) as (y & N & Y0 & Hy). exists (- y)%Q. split.
      + eapply nearest_eq; [|reflexivity|apply nearest_opp; exact N]. change (inject_Z 1) with 1%Q. rewrite pow2_0.
        change (Z.neg m) with (- Z.pos m). rewrite inject_Z_opp. field.
      + destruct Hy as [[O E]|(O & Fr & V)]; rewrite overflows_double in O.
        * left. exists true. split; [exact E|]. rewrite Qabs_opp, (Qabs_pos y) by exact Y0. exact O.
        * right. split; [exact Fr|]. split; [apply round_canon|]. split; [exact V|]. rewrite Qabs_opp, (Qabs_pos y) by exact Y0. lra. }
  destruct RR as (y & N & R). exists y. split; [exact N|].
  assert (AD : as_double (OInt z) = match r with Inf _ => None | d => Some d end) by (unfold as_double, float_of_int; fold r; destruct r; reflexivity).
  unfold argument. rewrite AD. destruct R as [(s & E & B)|(Fr & C & V & B)].
  - rewrite E. split; [intros; lra | auto].
  - split; [|intros; lra]. intros _.
    assert (D : is_double r).
    { apply double_is_double; auto; [|rewrite V; auto]. apply (@fits_eq double y); [symmetry; exact V | apply N]. }
    exists r. assert (E : match r with Inf _ => None | d => Some d end = Some r) by (destruct r; auto; discriminate).
    rewrite E, convert_double by auto. auto.
Qed.

Lemma int_exact p z : 53 <= p -> Z.abs z <= 2 ^ 53 -> exists v, argument p (OInt z) = Ok v /\ finite v = true /\ (val v == inject_Z z)%Q.
Proof.
  intros Hp Hz. destruct (@int_ok p z Hp) as (y & N & A & _).
  assert (F : fits double (inject_Z z)).
  { destruct (Z.eq_dec (Z.abs z) (2 ^ 53)) as [E|Ne].
    - exists (Z.sgn z), 53. split; [destruct z; simpl; lia|]. split; [unfold low_ok; simpl; lia|].
      rewrite pow2_Z, <- inject_Z_mult by lia. rewrite <- E, Z.mul_comm, Z.abs_sgn. reflexivity.
    - exists z, 0. split; [simpl prec; lia|]. split; [unfold low_ok; simpl; lia|]. rewrite pow2_0. ring. }
  assert (E : (y == inject_Z z)%Q) by (apply (@nearest_unique double (inject_Z z) (inject_Z z)); auto; [simpl; lia | reflexivity | apply nearest_self; auto]).
  destruct A as (v & V1 & V2 & V3).
  - rewrite E. change (Qabs (inject_Z z)) with (inject_Z (Z.abs z)). apply Qle_lt_trans with (inject_Z (2 ^ 53)); [rewrite <- Zle_Qle; auto|].
    rewrite <- pow2_Z by lia. apply pow2_lt. lia.
  - exists v. rewrite V3. auto.
Qed.

(** * The rounding of costs *)
Lemma nearest_whole p z : 2 <= p -> nearest (fixed p) (inject_Z z) (inject_Z (S_Float.nearest (Z.to_nat p) z)).
Proof.
  intros Hp. unfold S_Float.nearest. rewrite Z2Nat.id by lia.
  destruct (Z.eq_dec z 0) as [->|Nz].
  { simpl Z.abs. change (Z.log2 0) with 0. destruct (Z.leb_spec (0 + 1 - p) 0); [|lia]. apply nearest_self, fits_zero. simpl. lia. }
  pose proof (Z.log2_spec (Z.abs z) ltac:(lia)) as [L U]. pose proof (Z.log2_nonneg (Z.abs z)) as L0.
  set (e := Z.log2 (Z.abs z) + 1 - p). destruct (Z.leb_spec e 0) as [He|He].
  - apply nearest_self. exists z, 0. split; [|split; [exact I | rewrite pow2_0; ring]]. simpl prec.
    apply Z.lt_le_trans with (2 ^ Z.succ (Z.log2 (Z.abs z))); auto. apply Z.pow_le_mono_r; lia.
  - assert (Pu : 0 < 2 ^ e) by (apply Z.pow_pos_nonneg; lia).
    pose proof (div_even_spec (Z.abs z) Pu) as [H1 H2]. pose proof (@div_even_nonneg (Z.abs z) (2 ^ e) ltac:(lia) Pu) as H3.
    change (if 2 * (Z.abs z mod 2 ^ e) <? 2 ^ e then Z.abs z / 2 ^ e
            else if 2 ^ e <? 2 * (Z.abs z mod 2 ^ e) then Z.abs z / 2 ^ e + 1
                 else if Z.even (Z.abs z / 2 ^ e) then Z.abs z / 2 ^ e else Z.abs z / 2 ^ e + 1) with (div_even (Z.abs z) (2 ^ e)).
    set (q := div_even (Z.abs z) (2 ^ e)) in *.
    assert (N : nearest (fixed p) (inject_Z (Z.abs z)) (inject_Z q * pow2 e)).
    { pose proof (pow2_pos e) as Pe. apply nearest_core; simpl prec; auto; try exact I.
      - left. replace (e + p - 1) with (Z.log2 (Z.abs z)) by (unfold e; lia). rewrite pow2_Z by lia. rewrite <- Zle_Qle. auto.
      - change 0%Q with (inject_Z 0). rewrite <- Zle_Qle. lia.
      - replace (e + p) with (Z.succ (Z.log2 (Z.abs z))) by (unfold e; lia). rewrite pow2_Z by lia. rewrite <- Zlt_Qlt. auto.
      - rewrite pow2_Z by lia. assert (H4 : (inject_Z (- 2 ^ e) <= inject_Z (2 * (Z.abs z - q * 2 ^ e)) <= inject_Z (2 ^ e))%Q) by (rewrite <- !Zle_Qle; lia).
        unfold Z.sub in H4. rewrite inject_Z_mult, inject_Z_plus, !inject_Z_opp, inject_Z_mult in H4. change (inject_Z 2) with 2%Q in H4.
        set (A := inject_Z (Z.abs z)) in *. set (B := inject_Z (2 ^ e)) in *. set (C := inject_Z q) in *. split; lra.
      - rewrite pow2_Z by lia. intros E. apply H2.
        assert (E2 : (Qabs (inject_Z (Z.abs z) - inject_Z q * inject_Z (2 ^ e)) == inject_Z (Z.abs (Z.abs z - q * 2 ^ e)))%Q).
        { rewrite <- inject_Z_mult. unfold Qminus. rewrite <- inject_Z_opp, <- inject_Z_plus. reflexivity. }
        rewrite E2 in E. apply (proj1 (inject_Z_injective _ _)). rewrite inject_Z_mult, E. change (inject_Z 2) with 2%Q. field. }
    assert (Eq : (inject_Z q * pow2 e == inject_Z (q * 2 ^ e))%Q) by (rewrite pow2_Z, inject_Z_mult by lia; reflexivity).
    destruct (Z_lt_le_dec z 0) as [Hz|Hz].
    + eapply nearest_eq; [| |apply nearest_opp; exact N].
      * rewrite <- inject_Z_opp. replace (- Z.abs z) with z by lia. reflexivity.
      * rewrite Eq, <- inject_Z_opp. replace (Z.sgn z) with (-1) by lia. replace (-1 * (q * 2 ^ e)) with (- (q * 2 ^ e)) by lia. reflexivity.
    + eapply nearest_eq; [| |exact N].
      * replace (Z.abs z) with z by lia. reflexivity.
      * rewrite Eq. replace (Z.sgn z) with 1 by lia. rewrite Z.mul_1_l. reflexivity.
Qed.

Definition whole_op (o : binop) : Z -> Z -> Z := match o with Oadd => Z.add | Osub => Z.sub | _ => Z.mul end.
Lemma whole_ok p o x y a b : 2 <= p -> o <> Odiv -> number p x -> number p y -> finite x = true -> finite y = true ->
  (val x == inject_Z a)%Q -> (val y == inject_Z b)%Q ->
  (val (binary p o x y) == inject_Z (S_Float.nearest (Z.to_nat p) (whole_op o a b)))%Q.
Proof.
  intros Hp O Nx Ny Fx Fy Vx Vy. destruct (@binary_ok p o x y Hp Nx Ny Fx Fy ltac:(intros; contradiction)) as (_ & _ & N).
  apply (@nearest_unique (fixed p) (exact o (val x) (val y)) (inject_Z (whole_op o a b))); auto using nearest_whole; [simpl; lia|].
  destruct o; simpl; rewrite Vx, Vy; try contradiction.
  - rewrite inject_Z_plus. reflexivity.
  - unfold Z.sub. rewrite inject_Z_plus, inject_Z_opp. reflexivity.
  - rewrite inject_Z_mult. reflexivity.
Qed.

(** * Names *)
Lemma put_length l i v : length (put l i v) = length l.
Proof. revert i. induction l as [|a l IH]; intros [|i]; simpl; auto. Qed.
Lemma put_same l i v : (i < length l)%nat -> nth_error (put l i v) i = Some v.
Proof. revert i. induction l as [|a l IH]; intros [|i] H; simpl in *; try lia; auto. apply IH. lia. Qed.
Lemma put_other l i j v : i <> j -> nth_error (put l i v) j = nth_error l j.
Proof. revert i j. induction l as [|a l IH]; intros [|i] [|j] H; simpl; auto; try lia. Qed.

Lemma inplace_ok p o s x other s' : py_inplace p o s x other = Ok s' ->
  exists v y, lookup s x = Some v /\ argument p other = Ok y /\ lookup s' x = Some (binary p o v y) /\
    (forall n, n <> x -> bound s n -> vars s n <> vars s x -> lookup s' n = lookup s n) /\
    (forall n, n <> x -> vars s n = vars s x -> lookup s' n = Some (binary p o v y)).
Proof.
  unfold py_inplace. destruct (lookup s x) as [v|] eqn:E; [|discriminate]. intros H. apply bind_ok in H. destruct H as (y & Ey & H).
  injection H as <-. exists v, y. split; [auto|]. split; [auto|].
  assert (B : bound s x) by (unfold bound; apply nth_error_Some; unfold lookup in E; rewrite E; discriminate).
  unfold lookup in *. simpl. rewrite Nat.eqb_refl. split; [|split].
  - rewrite nth_error_app2 by (rewrite put_length; auto). rewrite put_length, Nat.sub_diag. reflexivity.
  - intros n Nn Bn D. destruct (Nat.eqb_spec n x); [contradiction|].
    rewrite nth_error_app1 by (rewrite put_length; exact Bn). apply put_other. auto.
  - intros n Nn D. destruct (Nat.eqb_spec n x); [contradiction|]. rewrite D.
    rewrite nth_error_app1 by (rewrite put_length; exact B). apply put_same. exact B.
Qed.
