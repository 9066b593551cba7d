(** Proofs about the texts of numbers of fixed precision: formats. *)
From Coq Require Import QArith Qpower Qabs ZArith Bool List Lia Lqa.
From Verif Require Import M_Base M_Fixed M_FixedText S_Fixed S_FixedText P_Base P_Fixed P_FixedMain P_FixedConv P_FixedText.
Import ListNotations.
Set Implicit Arguments. Unset Strict Implicit.
Local Open Scope Z_scope.

Definition hd_ok (P : Z -> Prop) (t : list Z) : Prop := match t with [] => True | c :: _ => P c end.
Lemma hd_app P a t : hd_ok P a -> hd_ok P t -> hd_ok P (a ++ t).
Proof. destruct a; simpl; auto. Qed.
Lemma hd_impl (P R : Z -> Prop) t : hd_ok P t -> (forall c, P c -> R c) -> hd_ok R t.
Proof. destruct t; simpl; auto. Qed.

Lemma opt_some f o t : (forall c, o = Some c -> f c = true) -> hd_ok (fun c => f c = false) t -> opt f (maybe o ++ t) = (o, t).
Proof.
  intros H1 H2. destruct o as [c|]; simpl.
  - rewrite (H1 c eq_refl). reflexivity.
  - destruct t as [|c t]; simpl in *; auto. rewrite H2. reflexivity.
Qed.
Lemma opt_one f b c t : f c = true -> hd_ok (fun c => f c = false) t -> opt f (one b c ++ t) = (if b then Some c else None, t).
Proof. intros H1 H2. destruct b; [apply (@opt_some f (Some c)) | apply (@opt_some f None)]; auto; congruence. Qed.

Lemma is_digit_spec c : is_digit c = true <-> digit c.
Proof. unfold is_digit, digit. rewrite andb_true_iff, !Z.leb_le. reflexivity. Qed.
Lemma take_digits_ok w t : Forall digit w -> hd_ok (fun c => ~ digit c) t -> take_digits (w ++ t) = (w, t).
Proof.
  induction 1 as [|c w H1 H IH]; intros Ht; simpl.
  - destruct t as [|c t]; auto. simpl in *. destruct (is_digit c) eqn:E; [|reflexivity]. apply is_digit_spec in E. contradiction.
  - rewrite (proj2 (is_digit_spec c) H1), IH by auto. reflexivity.
Qed.
Lemma take_int_decimal w : Forall digit w -> take_int w 0 = decimal w.
Proof. intros H. unfold decimal. rewrite (decimal_val H), take_int_digits by (apply dec_bdigits; auto). reflexivity. Qed.

Definition ty (c : Z) : Prop := c = 102 \/ c = 70 \/ c = 101 \/ c = 69 \/ c = 103 \/ c = 71 \/ c = 37.
Definition c_fill (l : layout) : Z := match y_align l with Some (Some c, _) => c | _ => 32 end.
Definition c_align (l : layout) : option Z := match y_align l with Some (_, a) => Some a | None => None end.

Ltac ch := simpl in *; unfold ty, digit in *; try (repeat split; lia).
Lemma is_align_false c : c <> 60 -> c <> 62 -> c <> 94 -> c <> 61 -> is_align c = false.
Proof.
  intros. unfold is_align. repeat match goal with |- context [?x =? ?y] => destruct (Z.eqb_spec x y); [lia|] end. reflexivity.
Qed.

Lemma parse_layout l : is_layout l -> parse_format (layout_text l) =
  Some (mkP (c_fill l) (c_align l) (y_sign l) (y_alt l) (y_zero l) (decimal (y_width l)) (y_comma l) (option_map decimal (y_precision l)) (y_type l)).
Proof.
  intros (Ha & Hs & Hw & Hw0 & _ & Hp & Ht).
  set (T6 := maybe (y_type l)). set (T5 := match y_precision l with None => [] | Some d => 46 :: d end ++ T6).
  set (T4 := one (y_comma l) 44 ++ T5). set (T3 := y_width l ++ T4). set (T2 := one (y_zero l) 48 ++ T3).
  set (T1 := one (y_alt l) 35 ++ T2). set (T0 := maybe (y_sign l) ++ T1).
  assert (E0 : layout_text l = align_of l ++ T0) by (unfold layout_text, T0, T1, T2, T3, T4, T5, T6; reflexivity).
  assert (H6 : hd_ok ty T6).
  { unfold T6. destruct (y_type l) as [c|]; [|exact I]. specialize (Ht c eq_refl). simpl in *. unfold ty. lia. }
  assert (H5 : hd_ok (fun c => c = 46 \/ ty c) T5).
  { unfold T5. apply hd_app; [destruct (y_precision l); simpl; auto | eapply hd_impl; [exact H6|auto]]. }
  assert (H4 : hd_ok (fun c => c = 44 \/ c = 46 \/ ty c) T4).
  { unfold T4. apply hd_app; [destruct (y_comma l); simpl; auto | eapply hd_impl; [exact H5|auto]]. }
  assert (H3 : hd_ok (fun c => (digit c /\ c <> 48) \/ c = 44 \/ c = 46 \/ ty c) T3).
  { unfold T3. apply hd_app; [|eapply hd_impl; [exact H4|auto]]. destruct (y_width l) as [|c w]; [exact I|]. simpl. left.
    inversion Hw; subst. split; auto. intros ->. apply (Hw0 w). reflexivity. }
  assert (H2 : hd_ok (fun c => digit c \/ c = 44 \/ c = 46 \/ ty c) T2).
  { unfold T2. apply hd_app; [destruct (y_zero l); simpl; unfold digit; auto; left; lia | eapply hd_impl; [exact H3|]; intros c; simpl; tauto]. }
  assert (H1 : hd_ok (fun c => c = 35 \/ digit c \/ c = 44 \/ c = 46 \/ ty c) T1).
  { unfold T1. apply hd_app; [destruct (y_alt l); simpl; auto | eapply hd_impl; [exact H2|auto]]. }
  assert (H0 : hd_ok (fun c => c = 43 \/ c = 45 \/ c = 32 \/ c = 35 \/ digit c \/ c = 44 \/ c = 46 \/ ty c) T0).
  { unfold T0. apply hd_app; [|eapply hd_impl; [exact H1|]; intros c; simpl; tauto].
    destruct (y_sign l) as [c|]; [|exact I]. specialize (Hs c eq_refl). simpl in *. lia. }
  assert (NA : hd_ok (fun c => is_align c = false) T0).
  { eapply hd_impl; [exact H0|]. intros c Hc. apply is_align_false; unfold ty, digit in Hc; lia. }
  assert (NA2 : forall c t, T0 = c :: t -> hd_ok (fun c => is_align c = false) t).
  { assert (G : forall t : list Z, Forall (fun c => is_align c = false) t -> hd_ok (fun c => is_align c = false) t) by (intros [|c t] F; simpl; auto; inversion F; auto).
    assert (FT : Forall (fun c => is_align c = false) T0).
    { assert (FD : forall t, Forall digit t -> Forall (fun c => is_align c = false) t).
      { intros t F. eapply Forall_impl; [|exact F]. intros c Hc. apply is_align_false; unfold digit in Hc; lia. }
      unfold T0, T1, T2, T3, T4, T5, T6. repeat (apply Forall_app; split).
      - destruct (y_sign l) as [c|]; [|constructor]. specialize (Hs c eq_refl). simpl in *. constructor; [|constructor]. apply is_align_false; lia.
      - destruct (y_alt l); repeat constructor.
      - destruct (y_zero l); repeat constructor.
      - apply FD; auto.
      - destruct (y_comma l); repeat constructor.
      - destruct (y_precision l) as [d|]; [|constructor]. constructor; [reflexivity|]. apply FD. apply (Hp d eq_refl).
      - destruct (y_type l) as [c|]; [|constructor]. specialize (Ht c eq_refl). simpl in *. constructor; [|constructor]. apply is_align_false; lia. }
    intros c t E. apply G. rewrite E in FT. inversion FT; auto. }
  unfold parse_format.
  assert (EA : (match layout_text l with
    | c0 :: c1 :: t' => if is_align c1 && negb (line_end c0) then (c0, Some c1, t')
                        else if is_align c0 then (32, Some c0, c1 :: t') else (32, None, layout_text l)
    | [c0] => if is_align c0 then (32, Some c0, []) else (32, None, layout_text l)
    | [] => (32, None, []) end) = (c_fill l, c_align l, T0)).
  { rewrite E0. unfold align_of, c_fill, c_align. destruct (y_align l) as [[[c|] a]|] eqn:El.
    - destruct (Ha _ _ eq_refl) as [A1 A2]. destruct (A2 c eq_refl) as [B1 B2]. cbn [maybe app].
      assert (IA : is_align a = true) by (simpl in A1; unfold is_align; destruct A1 as [<-|[<-|[<-|[<-|[]]]]]; reflexivity).
      assert (LE : line_end c = false) by (unfold line_end; destruct (Z.eqb_spec c 10); [lia|]; destruct (Z.eqb_spec c 13); [lia|reflexivity]).
      rewrite IA, LE. reflexivity.
    - destruct (Ha _ _ eq_refl) as [A1 _]. cbn [maybe app].
      assert (IA : is_align a = true) by (simpl in A1; unfold is_align; destruct A1 as [<-|[<-|[<-|[<-|[]]]]]; reflexivity).
      destruct T0 as [|c0 t0]; [rewrite IA; reflexivity|]. simpl in NA. rewrite NA, IA. reflexivity.
    - cbn [app]. destruct T0 as [|c0 [|c1 t0]] eqn:ET; [reflexivity| |].
      + simpl in NA. rewrite NA. reflexivity.
      + simpl in NA. pose proof (NA2 c0 (c1 :: t0) eq_refl) as N2. simpl in N2. rewrite N2, NA. reflexivity. }
  match goal with |- match ?m with _ => _ end = _ => replace m with (c_fill l, c_align l, T0) by (symmetry; exact EA) end. clear EA NA NA2 H0. cbv iota beta.
  unfold T0 at 1. rewrite (@opt_some _ (y_sign l)).
  2:{ intros c E. specialize (Hs c E). simpl in Hs. destruct Hs as [<-|[<-|[<-|[]]]]; reflexivity. }
  2:{ eapply hd_impl; [exact H1|]. intros c Hc. unfold ty, digit in Hc. repeat match goal with |- context [?x =? ?y] => destruct (Z.eqb_spec x y); [lia|] end. reflexivity. }
  unfold T1 at 1. rewrite opt_one; [|reflexivity|].
  2:{ eapply hd_impl; [exact H2|]. intros c Hc. unfold ty, digit in Hc. destruct (Z.eqb_spec c 35); [lia|reflexivity]. }
  unfold T2 at 1. rewrite opt_one; [|reflexivity|].
  2:{ eapply hd_impl; [exact H3|]. intros c Hc. unfold ty, digit in Hc. destruct (Z.eqb_spec c 48); [lia|reflexivity]. }
  unfold T3 at 1. rewrite take_digits_ok; auto.
  2:{ eapply hd_impl; [exact H4|]. intros c Hc. unfold ty, digit in *. lia. }
  unfold T4 at 1. rewrite opt_one; [|reflexivity|].
  2:{ eapply hd_impl; [exact H5|]. intros c Hc. unfold ty in Hc. destruct (Z.eqb_spec c 44); [lia|reflexivity]. }
  assert (E5 : (match T5 with
                | c :: t' => if c =? 46 then match take_digits t' with ([], _) => (None, T5) | (ds, t'') => (Some (take_int ds 0), t'') end else (None, T5)
                | [] => (None, []) end) = (option_map decimal (y_precision l), T6)).
  { unfold T5. destruct (y_precision l) as [d|] eqn:Ed.
    - destruct (Hp d eq_refl) as [D1 D2]. cbn [app]. change (46 =? 46) with true. cbv iota.
      rewrite take_digits_ok; auto; [|eapply hd_impl; [exact H6|]; intros c Hc; unfold ty, digit in *; lia].
      destruct d as [|d0 ds]; [contradiction|]. rewrite take_int_decimal by auto. reflexivity.
    - cbn [app option_map]. destruct T6 as [|c t]; [reflexivity|]. simpl in H6. unfold ty in H6. destruct (Z.eqb_spec c 46); [lia|reflexivity]. }
  match goal with |- match ?m with _ => _ end = _ => replace m with (option_map decimal (y_precision l), T6) by (symmetry; exact E5) end. cbv iota beta. replace T6 with (maybe (y_type l) ++ []) by (unfold T6; apply app_nil_r). rewrite (@opt_some _ (y_type l)).
  - rewrite take_int_decimal by auto. destruct (y_alt l), (y_zero l), (y_comma l); reflexivity.
  - intros c E. specialize (Ht c E). simpl in Ht. destruct Ht as [<-|[<-|[<-|[<-|[<-|[<-|[<-|[]]]]]]]]; reflexivity.
  - exact I.
Qed.

Lemma bare_layout l : is_layout l -> is_layout (bare l).
Proof.
  intros (Ha & Hs & Hw & Hw0 & Hw1 & Hp & Ht). unfold is_layout, bare. simpl. repeat split; auto; try discriminate; try lia; try (apply Hs || apply Ht || apply Hp); auto.
Qed.

Section Fmt.
Variable p : Z.
Variable other : conversion -> num -> M_FixedText.text.
Notation fmt := (to_string p other).

Lemma to_string_layout x l : is_layout l -> layout_text l <> [] ->
  fmt x (layout_text l) = Ok (padded (mkP (c_fill l) (c_align l) (y_sign l) (y_alt l) (y_zero l) (decimal (y_width l)) (y_comma l) (option_map decimal (y_precision l)) (y_type l))
    (number_text p other (mkP (c_fill l) (c_align l) (y_sign l) (y_alt l) (y_zero l) (decimal (y_width l)) (y_comma l) (option_map decimal (y_precision l)) (y_type l)) x)).
Proof.
  intros L N. unfold to_string. destruct (layout_text l) eqn:E; [contradiction|]. rewrite <- E. unfold to_string_format.
  rewrite (parse_layout L). simpl width. destruct L as (_ & _ & _ & _ & W & _). destruct (Z.leb_spec (2 ^ 31) (decimal (y_width l))); [lia|]. reflexivity.
Qed.

Lemma padded_python f t : align f <> Some 61 ->
  padded f t = python_pad (fill f) (match align f with Some a => a | None => 62 end) (width f) t.
Proof.
  intros NA. unfold padded, python_pad. set (a := match align f with Some a => a | None => 62 end).
  assert (A : a <> 61) by (unfold a; destruct (align f); [congruence|discriminate]).
  destruct (Z.eqb_spec a 61) as [H|_]; [contradiction|].
  destruct (Z.leb_spec (width f) (Z.of_nat (length t))) as [H|H]; [|reflexivity].
  replace (Z.to_nat (width f - Z.of_nat (length t))) with O by lia. simpl. rewrite app_nil_r.
  destruct (a =? 60); destruct (a =? 94); reflexivity.
Qed.

Lemma format_ok x l : is_layout l -> y_zero l = false -> aligned l <> 61 -> layout_text (bare l) <> [] ->
  exists t, fmt x (layout_text (bare l)) = Ok t /\ fmt x (layout_text l) = Ok (python_pad (fill_of l) (aligned l) (decimal (y_width l)) t).
Proof.
  intros L Z0 A N. eexists. split; [apply to_string_layout; auto using bare_layout|].
  rewrite to_string_layout; auto.
  2:{ intros E. apply N. unfold layout_text in *. simpl. apply app_eq_nil in E. destruct E as [_ E]. apply app_eq_nil in E. destruct E as [E1 E].
      apply app_eq_nil in E. destruct E as [E2 E]. apply app_eq_nil in E. destruct E as [_ E]. apply app_eq_nil in E. destruct E as [_ E].
      simpl in E1, E2, E. rewrite E1, E2, E. reflexivity. }
  f_equal. rewrite padded_python.
  2:{ simpl. unfold c_align, aligned in *. destruct (y_align l) as [[f a]|]; [|discriminate]. congruence. }
  rewrite padded_python by (simpl; discriminate). simpl fill. simpl align. simpl width.
  assert (NT : forall f1 f2, sgn f1 = sgn f2 -> alt f1 = alt f2 -> thousands f1 = thousands f2 -> precision f1 = precision f2 -> type f1 = type f2 ->
     zero_pad f1 = false -> zero_pad f2 = false -> align f1 <> Some 61 -> align f2 <> Some 61 -> number_text p other f1 x = number_text p other f2 x).
  { intros f1 f2 e1 e2 e3 e4 e5 e6 e7 e8 e9. unfold number_text. rewrite e1, e2, e3, e4, e5, e6, e7.
    assert (K : forall o, o <> Some 61 -> (match o with Some c => c | None => 62 end =? 61) = false).
    { intros [c|] H; [|reflexivity]. apply Z.eqb_neq. congruence. }
    rewrite !K by auto. reflexivity. }
  assert (P0 : forall t, python_pad 32 62 (decimal []) t = t).
  { intros t. unfold python_pad. change (decimal []) with 0. replace (Z.to_nat (0 - Z.of_nat (length t))) with O by lia. reflexivity. }
  simpl c_fill. rewrite P0.
  rewrite (NT (mkP (c_fill l) (c_align l) (y_sign l) (y_alt l) (y_zero l) (decimal (y_width l)) (y_comma l) (option_map decimal (y_precision l)) (y_type l))
              (mkP 32 None (y_sign l) (y_alt l) false 0 (y_comma l) (option_map decimal (y_precision l)) (y_type l))); simpl; auto; try discriminate.
  - unfold c_fill, fill_of, c_align, aligned. destruct (y_align l) as [[[c|] a]|]; rewrite ?Z0; reflexivity.
  - unfold c_align, aligned in *. destruct (y_align l) as [[f a]|]; [|discriminate]. congruence.
Qed.

(** * str *)
Lemma digits_dec N : 0 <= N -> Forall digit (digits 10 N) /\ decimal (digits 10 N) = N /\ digits 10 N <> [].
Proof.
  intros H. destruct (@digits_ok 10 N ltac:(lia) H) as (A & B & C). pose proof (bdigits_dec A) as D. split; [auto|]. split; [|auto].
  unfold decimal. rewrite (decimal_val D). exact B.
Qed.

Lemma zeros_ok n t : Forall digit t -> Forall digit (zeros n ++ t) /\ decimal (zeros n ++ t) = decimal t /\ length (zeros n ++ t) = (n + length t)%nat.
Proof.
  intros H. induction n as [|n (A & B & C)]; simpl zeros; [auto|]. split; [|split].
  - constructor; auto. unfold digit. lia.
  - exact B.
  - simpl. rewrite C. reflexivity.
Qed.

Lemma fixed_digits_ok d N s : 0 <= d -> 0 <= N -> writes s d N (sign_text s ++ fixed_digits d N).
Proof.
  intros Hd HN. destruct (digits_dec HN) as (A & B & C). unfold fixed_digits.
  set (ds0 := digits 10 N) in *. set (n := (Z.to_nat (d + 1) - length ds0)%nat).
  destruct (zeros_ok n A) as (Z1 & Z2 & Z3). rewrite B in Z2. set (ds := zeros n ++ ds0) in *.
  assert (L : (Z.to_nat d < length ds)%nat).
  { rewrite Z3. unfold n. assert (length ds0 <> 0)%nat by (destruct ds0; [contradiction|simpl; lia]). lia. }
  set (k := (length ds - Z.to_nat d)%nat).
  destruct (Z.eqb_spec d 0) as [->|Nd].
  - exists ds, []. split; [unfold sign_text; rewrite app_nil_r; destruct s; reflexivity|]. split; [auto|]. split; [constructor|]. split; [intros E; rewrite E in L; simpl in L; lia|]. split; [reflexivity|].
    rewrite app_nil_r. auto.
  - exists (firstn k ds), (skipn k ds). assert (F : firstn k ds ++ skipn k ds = ds) by apply firstn_skipn.
    assert (FA : Forall digit (firstn k ds) /\ Forall digit (skipn k ds)) by (apply Forall_app; rewrite F; auto).
    split; [destruct s, (Z.eqb_spec d 0); try contradiction; reflexivity|]. split; [apply FA|]. split; [apply FA|].
    split; [intros E; apply (f_equal (@length Z)) in E; rewrite firstn_length in E; simpl in E; unfold k in E; lia|].
    split; [rewrite skipn_length; unfold k; lia|]. rewrite F. auto.
Qed.

Lemma digits10_nonneg : 0 <= p -> 0 <= digits10 p.
Proof. intros H. unfold digits10. apply Z.div_pos; lia. Qed.

Definition default_layout : layout := mkY None None false false [49] false (Some (digits 10 (digits10 p))) (Some 102).
Lemma default_layout_ok : 0 <= p -> is_layout default_layout /\ layout_text default_layout = default_format p.
Proof.
  intros Hp. destruct (digits_dec (digits10_nonneg Hp)) as (A & B & C). split; [|reflexivity].
  split; [discriminate|]. split; [discriminate|]. split; [repeat constructor; unfold digit; lia|]. split; [discriminate|].
  split; [reflexivity|]. split; [intros d E; injection E as <-; auto|]. intros c E. injection E as <-. simpl. auto.
Qed.

Lemma default_str x : 0 <= p -> py_str p other x = Ok (sign_text (sign x) ++ fixed_text (digits10 p) x).
Proof.
  intros Hp. destruct (default_layout_ok Hp) as [L E]. unfold py_str, to_string, to_string_format. rewrite <- E, (parse_layout L).
  destruct (digits_dec (digits10_nonneg Hp)) as (A & B & C).
  simpl width. change (decimal [49]) with 1. change (2 ^ 31 <=? 1) with false. cbv iota.
  assert (NTX : number_text p other (mkP (c_fill default_layout) (c_align default_layout) (y_sign default_layout) (y_alt default_layout) (y_zero default_layout)
      (decimal (y_width default_layout)) (y_comma default_layout) (option_map decimal (y_precision default_layout)) (y_type default_layout)) x =
      sign_text (sign x) ++ fixed_text (digits10 p) x).
  { unfold number_text, printf. simpl. rewrite B. destruct (sign x); reflexivity. }
  rewrite NTX. f_equal. unfold padded. simpl width. change (decimal [49]) with 1.
  destruct (Z.leb_spec 1 (Z.of_nat (length (sign_text (sign x) ++ fixed_text (digits10 p) x)))) as [H|H]; [reflexivity|].
  exfalso. assert (Z.of_nat (length (fixed_text (digits10 p) x)) >= 1).
  { assert (FD : forall N, 0 <= N -> Z.of_nat (length (fixed_digits (digits10 p) N)) >= 1).
    { intros N HN. destruct (@fixed_digits_ok (digits10 p) N false (digits10_nonneg Hp) HN) as (i & f & E1 & _ & _ & Ni & _).
      simpl in E1. rewrite E1, app_length. destruct i; [contradiction|simpl; lia]. }
    destruct x as [|s|s|s m e]; simpl fixed_text; try (simpl; lia); apply FD; [lia|].
    unfold scaled_int. apply div_even_nonneg; [|apply Z.pow_pos_nonneg; lia].
    apply Z.mul_nonneg_nonneg; [apply Z.mul_nonneg_nonneg; [lia|apply Z.pow_nonneg; lia]|apply Z.pow_nonneg; lia]. }
  rewrite app_length in H. lia.
Qed.

Lemma scaled_int_ok d m e : 0 <= d -> let N := scaled_int d m e in
  0 <= N /\ (Qabs (inject_Z (Zpos m) * pow2 e * inject_Z (10 ^ d) - inject_Z N) <= 1#2)%Q /\
  ((Qabs (inject_Z (Zpos m) * pow2 e * inject_Z (10 ^ d) - inject_Z N) == 1#2)%Q -> Z.even N = true) /\
  (- d <= e -> (inject_Z (Zpos m) * pow2 e * inject_Z (10 ^ d) == inject_Z N)%Q).
Proof.
  intros Hd N. unfold N, scaled_int. set (a := Z.pos m * 2 ^ Z.max 0 e * 10 ^ d). set (b := 2 ^ Z.max 0 (- e)).
  assert (Hb : 0 < b) by (apply Z.pow_pos_nonneg; lia).
  assert (Ha : 0 <= a) by (apply Z.mul_nonneg_nonneg; [apply Z.mul_nonneg_nonneg; [lia|apply Z.pow_nonneg; lia]|apply Z.pow_nonneg; lia]).
  pose proof (div_even_spec a Hb) as [H1 H2]. pose proof (div_even_nonneg Ha Hb) as H3. set (q := div_even a b) in *. clearbody q.
  assert (E : (inject_Z (Zpos m) * pow2 e * inject_Z (10 ^ d) * inject_Z b == inject_Z a)%Q).
  { unfold a, b. rewrite !inject_Z_mult, (split_pow e). ring. }
  set (X := (inject_Z (Zpos m) * pow2 e * inject_Z (10 ^ d))%Q) in *.
  assert (B0 : (0 < inject_Z b)%Q) by (change 0%Q with (inject_Z 0); rewrite <- Zlt_Qlt; auto).
  assert (DF : ((X - inject_Z q) * inject_Z b == inject_Z (a - q * b))%Q).
  { unfold Z.sub. rewrite inject_Z_plus, inject_Z_opp, inject_Z_mult, <- E. ring. }
  assert (AB : (Qabs (X - inject_Z q) * inject_Z b == inject_Z (Z.abs (a - q * b)))%Q).
  { change (inject_Z (Z.abs (a - q * b))) with (Qabs (inject_Z (a - q * b))). rewrite <- DF, Qabs_Qmult, (Qabs_pos (inject_Z b)) by lra. reflexivity. }
  split; [auto|]. split; [|split].
  - assert (H4 : 2 * Z.abs (a - q * b) <= b) by lia. rewrite Zle_Qle, inject_Z_mult, <- AB in H4. change (inject_Z 2) with 2%Q in H4.
    set (D := Qabs (X - inject_Z q)) in *. nra.
  - intros E2. apply H2. apply (proj1 (inject_Z_injective _ _)). rewrite inject_Z_mult, <- AB, E2. change (inject_Z 2) with 2%Q. ring.
  - intros He. assert (DV : exists j, a = j * b).
    { exists (Z.pos m * 2 ^ Z.max 0 e * (5 ^ d * 2 ^ (d - Z.max 0 (- e)))). unfold a, b.
      replace (10 ^ d) with (5 ^ d * 2 ^ (d - Z.max 0 (- e)) * 2 ^ Z.max 0 (- e)); [ring|].
      rewrite <- Z.mul_assoc, <- Z.pow_add_r by lia. replace (d - Z.max 0 (- e) + Z.max 0 (- e)) with d by lia. rewrite <- Z.pow_mul_l. reflexivity. }
    destruct DV as [j Ej]. assert (a = q * b).
    { assert (J : j = q); [|subst j; auto]. rewrite Ej in H1. replace (j * b - q * b) with ((j - q) * b) in H1 by ring. rewrite ?Z.abs_mul, ?(Z.abs_eq b) in H1 by lia. nia. }
    assert (Z0 : ((X - inject_Z q) * inject_Z b == 0)%Q) by (rewrite DF; replace (a - q * b) with 0 by lia; reflexivity).
    apply Qmult_integral in Z0. destruct Z0 as [Z0|Z0]; lra.
Qed.

Lemma val_abs s m e : (Qabs (val (Num s m e)) == inject_Z (Zpos m) * pow2 e)%Q.
Proof. rewrite signed_val, Qabs_Qmult, (Qabs_pos (pow2 e)) by (apply Qlt_le_weak, pow2_pos). destruct s; reflexivity. Qed.

Lemma str_ok x : 0 <= p -> finite x = true -> exists t N, py_str p other x = Ok t /\ writes (sign x) (digits10 p) N t /\
  (Qabs (Qabs (val x) * inject_Z (10 ^ digits10 p) - inject_Z N) <= 1#2)%Q /\
  ((Qabs (Qabs (val x) * inject_Z (10 ^ digits10 p) - inject_Z N) == 1#2)%Q -> Z.even N = true).
Proof.
  intros Hp F. pose proof (digits10_nonneg Hp) as Hd. rewrite default_str by auto. destruct x as [|s|s|s m e]; try discriminate.
  - eexists. exists 0. split; [reflexivity|]. split; [apply fixed_digits_ok; auto; lia|].
    assert (E : (Qabs (Qabs (val (Zero s)) * inject_Z (10 ^ digits10 p) - inject_Z 0) == 0)%Q).
    { simpl val. change (Qabs 0) with 0%Q. change (inject_Z 0) with 0%Q. setoid_replace (0 * inject_Z (10 ^ digits10 p) - 0)%Q with 0%Q by ring. reflexivity. }
    rewrite E. split; [discriminate|]. intros H. discriminate H.
  - destruct (@scaled_int_ok (digits10 p) m e Hd) as (A & B & C & _). eexists. exists (scaled_int (digits10 p) m e).
    split; [reflexivity|]. split; [apply fixed_digits_ok; auto|]. rewrite val_abs. auto.
Qed.

Lemma str_round_trip x : 2 <= p -> number p x -> written_exactly (digits10 p) x ->
  exists t, py_str p other x = Ok t /\ of_string p 10 t = x.
Proof.
  intros Hp Nx W. pose proof (@digits10_nonneg ltac:(lia)) as Hd. rewrite default_str by lia. eexists. split; [reflexivity|].
  destruct (finite x) eqn:F.
  2:{ destruct x as [|[]|s|s m e]; try discriminate; reflexivity. }
  assert (HN : exists N, 0 <= N /\ fixed_text (digits10 p) x = fixed_digits (digits10 p) N /\ (Qabs (val x) * inject_Z (10 ^ digits10 p) == inject_Z N)%Q).
  { destruct x as [|s|s|s m e]; try discriminate.
    - exists 0. split; [lia|]. split; [reflexivity|]. simpl val. change (Qabs 0) with 0%Q. change (inject_Z 0) with 0%Q. ring.
    - destruct (@scaled_int_ok (digits10 p) m e Hd) as (A & _ & _ & D). exists (scaled_int (digits10 p) m e). split; [auto|]. split; [reflexivity|].
      rewrite val_abs. apply D. exact W. }
  destruct HN as (N & N0 & EN & VN). rewrite EN.
  destruct (@fixed_digits_ok (digits10 p) N (sign x) Hd N0) as (i & f & ET & Fi & Ff & Ni & Lf & DN). rewrite ET.
  set (l := mkL (if sign x then Some true else None) i (if digits10 p =? 0 then None else Some f) None).
  assert (TX : (if sign x then [45] else []) ++ i ++ (if digits10 p =? 0 then [] else 46 :: f) = literal_text l).
  { unfold literal_text, l. simpl. destruct (sign x), (digits10 p =? 0); simpl; rewrite ?app_nil_r; reflexivity. }
  assert (FR : fraction_of l = f).
  { unfold l, fraction_of. simpl. destruct (Z.eqb_spec (digits10 p) 0) as [E|E]; [|reflexivity]. destruct f; [reflexivity|simpl in Lf; lia]. }
  assert (IL : is_literal l).
  { unfold is_literal. rewrite FR. simpl. split; [auto|]. split; [auto|]. split; [|exact I]. intros E. apply app_eq_nil in E. destruct E; contradiction. }
  rewrite TX. destruct (read_literal Hp IL) as [(G1 & G2 & G3) G4].
  assert (MS : is_minus (l_sign l) = sign x) by (unfold l; simpl; destruct (sign x); reflexivity).
  apply canon_eq; auto; [eapply number_canon; eauto | eapply number_canon; eauto | rewrite G4; auto|].
  apply (@nearest_unique (fixed p) (literal_value l) (val x)); auto; [simpl; lia| |apply nearest_self; apply number_fits; auto; lia].
  unfold literal_value. rewrite FR, MS. simpl l_whole. rewrite DN, Lf. simpl exponent_of.
  assert (P10 : (Qpower 10 (0 - digits10 p) * inject_Z (10 ^ digits10 p) == 1)%Q).
  { rewrite Zpower_Qpower by auto. change (inject_Z 10) with 10%Q. rewrite <- Qpower_plus by discriminate. replace (0 - digits10 p + digits10 p) with 0 by lia. reflexivity. }
  change (exponent_of l) with 0. rewrite <- VN.
  assert (SA : (inject_Z (if sign x then -1 else 1) * Qabs (val x) == val x)%Q).
  { destruct x as [|s|s|s m e]; try discriminate.
    - simpl val. change (Qabs 0) with 0%Q. ring.
    - rewrite val_abs, signed_val. simpl sign. destruct s; cbn [signed]; [change (inject_Z (-1)) with (-1)%Q; rewrite inject_Z_opp | change (inject_Z 1) with 1%Q]; ring. }
  rewrite <- SA at 2.
  setoid_replace (inject_Z (if sign x then -1 else 1) * (Qabs (val x) * inject_Z (10 ^ digits10 p)) * Qpower 10 (0 - digits10 p))%Q
    with (inject_Z (if sign x then -1 else 1) * Qabs (val x) * (Qpower 10 (0 - digits10 p) * inject_Z (10 ^ digits10 p)))%Q by ring.
  rewrite P10. ring.
Qed.
End Fmt.
