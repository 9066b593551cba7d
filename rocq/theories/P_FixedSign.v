(** Proofs about signs, zeros and percents of numbers of fixed precision. *)
From Coq Require Import QArith Qpower Qabs ZArith Bool List Lia Lqa.
From Verif Require Import M_Base M_Fixed M_FixedText S_Fixed S_FixedText P_Base P_Fixed P_FixedMain P_FixedConv P_FixedText P_FixedFmt.
Import ListNotations.
Set Implicit Arguments. Unset Strict Implicit.
Local Open Scope Z_scope.

Lemma small_power X : ~ (X == 0)%Q -> exists e, (pow2 e <= Qabs X)%Q.
Proof.
  intros H. exists (- (Z.log2 (QDen X) + 1)).
  assert (H1 : (1 <= Qabs X * inject_Z (QDen X))%Q).
  { destruct X as [a b]. unfold Qabs, inject_Z, Qmult, Qle, Qeq in *. simpl in *. assert (a <> 0) by (intros ->; apply H; reflexivity). nia. }
  pose proof (Z.log2_spec (QDen X) ltac:(lia)) as [_ U]. pose proof (Z.log2_nonneg (QDen X)) as L0.
  assert (U2 : (inject_Z (QDen X) <= pow2 (Z.log2 (QDen X) + 1))%Q).
  { rewrite (@pow2_Z (Z.log2 (QDen X) + 1)) by lia. rewrite <- Zle_Qle. unfold Z.succ in U. lia. }
  assert (P : (pow2 (- (Z.log2 (QDen X) + 1)) * pow2 (Z.log2 (QDen X) + 1) == 1)%Q).
  { rewrite <- pow2_add. replace (- (Z.log2 (QDen X) + 1) + (Z.log2 (QDen X) + 1)) with 0 by lia. reflexivity. }
  set (A := Qabs X) in *. set (B := inject_Z (QDen X)) in *. set (V := pow2 (Z.log2 (QDen X) + 1)) in *. set (W := pow2 (- (Z.log2 (QDen X) + 1))) in *.
  assert (W0 : (0 < W)%Q) by apply pow2_pos. assert (A0 : (0 <= A)%Q) by apply Qabs_nonneg.
  clearbody A B V W.
  assert (AV : (1 <= A * V)%Q) by (apply Qle_trans with (A * B)%Q; [exact H1|]; rewrite (Qmult_comm A B), (Qmult_comm A V); apply Qmult_le_compat_r; auto).
  assert (AW : (W * 1 <= W * (A * V))%Q) by (rewrite !(Qmult_comm W); apply Qmult_le_compat_r; lra).
  setoid_replace (W * (A * V))%Q with (A * (W * V))%Q in AW by ring. rewrite P in AW. lra.
Qed.

Lemma nearest_nonzero p X y : 1 <= p -> nearest (fixed p) X y -> (y == 0)%Q -> (X == 0)%Q.
Proof.
  intros Hp (_ & N & _) Y. destruct (Qeq_dec X 0) as [E|E]; auto. exfalso. destruct (small_power E) as [e He].
  pose proof (pow2_pos e) as P.
  assert (F : forall s, fits (fixed p) (inject_Z (if s : bool then -1 else 1) * pow2 e)).
  { intros s. exists (if s then -1 else 1), e. split; [|split; [exact I|reflexivity]]. assert (2 ^ 1 <= 2 ^ prec (fixed p)) by (apply Z.pow_le_mono_r; simpl; lia). destruct s; simpl Z.abs; lia. }
  pose proof (N _ (F true)) as N1. pose proof (N _ (F false)) as N2. change (inject_Z (-1)) with (-1)%Q in N1. change (inject_Z 1) with 1%Q in N2.
  set (w := pow2 e) in *. clearbody w.
  destruct (Qabs_cases X) as [[C1 D1]|[C1 D1]]; rewrite D1 in He; clear D1; [clear N1|clear N2].
  - rewrite (Qabs_pos (X - y)), (Qabs_pos (X - 1 * w)) in N2 by lra. lra.
  - rewrite (Qabs_neg (X - y)), (Qabs_neg (X - -1 * w)) in N1 by lra. lra.
Qed.

Lemma nearest_zero p X y : 1 <= p -> nearest (fixed p) X y -> ((y == 0)%Q <-> (X == 0)%Q).
Proof.
  intros Hp N. split; [apply (nearest_nonzero Hp N)|]. intros E. apply (@nearest_unique (fixed p) X 0 y 0); auto.
  apply nearest_self, fits_zero. simpl. lia.
Qed.

Lemma negative_sign x : negative x = sign x.
Proof. destruct x as [|[]|[]|[] m e]; reflexivity. Qed.

Lemma of_int_zero p z g : 2 <= p -> (inject_Z z * pow2 g == 0)%Q -> of_int p z g = Zero false.
Proof.
  intros Hp E. assert (z = 0); [|subst; reflexivity]. pose proof (pow2_pos g) as P. destruct z as [|k|k]; auto; exfalso.
  - assert (0 < inject_Z (Z.pos k))%Q by reflexivity. nra.
  - assert (inject_Z (Z.neg k) < 0)%Q by reflexivity. nra.
Qed.

Lemma val_zero x : finite x = true -> ((val x == 0)%Q <-> is_zero x = true).
Proof.
  intros F. split; [intros H; rewrite (num_zero F H); reflexivity|]. destruct x; try discriminate. reflexivity.
Qed.

Lemma add_zero_sign p x y : 2 <= p -> number p x -> number p y -> finite x = true -> finite y = true -> (val x + val y == 0)%Q ->
  add p x y = Zero (sign x && sign y).
Proof.
  intros Hp Nx Ny Fx Fy E. destruct x as [|s|s|s m e], y as [|s'|s'|s' m' e']; try discriminate.
  - simpl. destruct s, s'; reflexivity.
  - exfalso. assert (E' : (val (Num s' m' e') == 0)%Q) by (rewrite <- E; simpl; ring). apply val_zero in E'; [discriminate|reflexivity].
  - exfalso. assert (E' : (val (Num s m e) == 0)%Q) by (rewrite <- E; simpl; ring). apply val_zero in E'; [discriminate|reflexivity].
  - unfold add. set (g := Z.min e e').
    assert (E1 : (inject_Z (signed s (Zpos m * 2 ^ (e - g)) + signed s' (Zpos m' * 2 ^ (e' - g))) * pow2 g == val (Num s m e) + val (Num s' m' e'))%Q).
    { rewrite inject_Z_plus, Qmult_plus_distr_l, !scaled by (unfold g; lia). reflexivity. }
    rewrite E in E1. pose proof (of_int_zero Hp E1) as Z0. unfold of_int in Z0. rewrite Z0.
    assert (SS : (s && s')%bool = false); [|simpl; rewrite SS; reflexivity].
    destruct s, s'; auto. exfalso. rewrite !signed_val in E. simpl signed in E.
    pose proof (pow2_pos e) as P1. pose proof (pow2_pos e') as P2. assert (inject_Z (Z.neg m) < 0)%Q by reflexivity. assert (inject_Z (Z.neg m') < 0)%Q by reflexivity. nra.
Qed.

Lemma signs_ok p o x y : 2 <= p -> number p x -> number p y -> finite x = true -> finite y = true -> (o = Odiv -> ~ (val y == 0)%Q) ->
  (is_zero (binary p o x y) = true <-> (exact o (val x) (val y) == 0)%Q) /\
  match o with
  | Omul | Odiv => negative (binary p o x y) = xorb (negative x) (negative y)
  | Oadd => (val x + val y == 0)%Q -> negative (binary p o x y) = negative x && negative y
  | Osub => (val x - val y == 0)%Q -> negative (binary p o x y) = negative x && negb (negative y)
  end.
Proof.
  intros Hp Nx Ny Fx Fy D. destruct (@binary_ok p o x y Hp Nx Ny Fx Fy D) as (F & N & R). split.
  - rewrite <- (val_zero F). apply (@nearest_zero p (exact o (val x) (val y)) (val (binary p o x y))); auto. lia.
  - rewrite !negative_sign. destruct o.
    + intros E. simpl. rewrite add_zero_sign by auto. reflexivity.
    + intros E. simpl. unfold sub. rewrite add_zero_sign; auto using number_opposite.
      * simpl. f_equal. destruct y; auto; discriminate.
      * rewrite opposite_finite. auto.
      * rewrite opposite_val. exact E.
    + simpl. unfold mul. destruct x as [|s|s|s m e], y as [|s'|s'|s' m' e']; try discriminate; try reflexivity. apply round_canon.
    + simpl. unfold div. destruct x as [|s|s|s m e], y as [|s'|s'|s' m' e']; try discriminate; try reflexivity. apply round_canon.
Qed.

Lemma quotient_inf p x s : finite x = true -> binary p Odiv x (Inf s) = Zero (xorb (negative x) s).
Proof. intros F. rewrite negative_sign. destruct x; try discriminate; reflexivity. Qed.

(** * Percents *)
Definition hundred : num := Num false 25 2.
Lemma percent_mul p x : 2 <= p -> number p x -> percent p x = match x with Num s m e => round (fixed p) s (m * 25) 1 (e + 2) | _ => x end.
Proof.
  intros Hp N. destruct x as [|s|s|s m e]; auto. simpl.
  destruct (@round_fixed p s (m * 100) 1 e Hp) as (F1 & N1 & R1). destruct (@round_fixed p s (m * 25) 1 (e + 2) Hp) as (F2 & N2 & R2).
  apply canon_eq; auto; try (apply round_canon).
  - destruct (round_canon (fixed p) s (m * 100) 1 e) as (_ & S1 & _). destruct (round_canon (fixed p) s (m * 25) 1 (e + 2)) as (_ & S2 & _). congruence.
  - eapply (@nearest_unique (fixed p)); [simpl; lia| |exact R1|exact R2].
    assert (E : (inject_Z (Z.pos (m * 100)) / inject_Z 1 * pow2 e == inject_Z (Z.pos (m * 25)) / inject_Z 1 * pow2 (e + 2))%Q).
    { rewrite pow2_add, !Pos2Z.inj_mul, !inject_Z_mult. change (pow2 2) with 4%Q. change (inject_Z 100) with 100%Q. change (inject_Z 25) with 25%Q. change (inject_Z 1) with 1%Q. field. }
    destruct s; simpl pm; rewrite E; reflexivity.
Qed.

Lemma percent_ok p other x l : 7 <= p -> number p x -> finite x = true -> is_layout l -> y_align l = None -> y_zero l = false -> y_width l = [] ->
  y_type l = Some 37 -> exists t, py_format p other (binary p Omul x hundred) (layout_text (as_f l)) = Ok t /\
    py_format p other x (layout_text l) = Ok (t ++ [37]).
Proof.
  intros Hp N F L A Z0 W Ty.
  assert (L2 : is_layout (as_f l)).
  { destruct L as (a & b & c & d & e & f & g). split; [assumption|]. split; [assumption|]. split; [assumption|]. split; [assumption|]. split; [assumption|]. split; [|intros k E; injection E as <-; simpl; auto].
    intros k E. injection E as <-. destruct (y_precision l) as [q|]; [apply (f q eq_refl)|]. split; [discriminate|repeat constructor; unfold digit; lia]. }
  assert (NE : forall l', y_type l' <> None -> layout_text l' <> []).
  { intros l' T H. unfold layout_text in H. apply app_eq_nil in H. destruct H as [_ H]. repeat (apply app_eq_nil in H; destruct H as [_ H]).
    destruct (y_type l'); [discriminate|congruence]. }
  eexists. split; [unfold py_format; apply to_string_layout; auto; apply NE; discriminate|].
  unfold py_format. rewrite to_string_layout; auto; [|apply NE; rewrite Ty; discriminate].
  assert (CA : c_align l = None) by (unfold c_align; rewrite A; reflexivity).
  assert (CA2 : c_align (as_f l) = None) by exact CA. rewrite CA, CA2.
  f_equal. rewrite !padded_python by discriminate. simpl width. rewrite W. change (decimal []) with 0.
  assert (PP : forall fl al t, al <> 61 -> python_pad fl al 0 t = t).
  { intros fl al t Na. unfold python_pad. replace (Z.to_nat (0 - Z.of_nat (length t))) with O by lia. simpl. rewrite app_nil_r.
    destruct (al =? 60), (al =? 94), (Z.eqb_spec al 61); auto; contradiction. }
  rewrite !PP by discriminate. unfold number_text. simpl. rewrite Ty. simpl. rewrite Z0. simpl.
  assert (PE : percent p x = binary p Omul x hundred).
  { rewrite percent_mul by (auto; lia). destruct x as [|s|s|s m e]; try discriminate; simpl; rewrite xorb_false_r; reflexivity. }
  rewrite PE. f_equal.
  f_equal. unfold as_f. simpl. destruct (y_precision l); reflexivity.
Qed.
