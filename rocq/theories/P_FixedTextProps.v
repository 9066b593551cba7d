(** Proofs about the texts of numbers of fixed precision, as stated in Props_FixedText. *)
From Coq Require Import QArith Qpower Qabs ZArith Bool List Lia Lqa.
From Verif Require Import M_Base M_Fixed M_FixedText S_Fixed S_FixedText P_Base P_Fixed P_FixedMain P_FixedConv P_FixedText P_FixedFmt.
Import ListNotations.
Set Implicit Arguments. Unset Strict Implicit.
Local Open Scope Z_scope.

Lemma literals_ok p l : 2 <= p -> is_literal l ->
  let r := of_string p 10 (literal_text l) in
  finite r = true /\ number p r /\ nearest (fixed p) (literal_value l) (val r) /\ negative r = is_minus (l_sign l).
Proof.
  intros Hp L. destruct (read_literal Hp L) as [(A & B & C) D]. split; [exact A|]. split; [exact B|]. split; [exact C|].
  rewrite <- D. destruct (of_string p 10 (literal_text l)) as [|[]|[]|[] m e]; reflexivity.
Qed.

Lemma float_ok x : finite x = true -> faithful x (to_float x) /\
  (fits long_double (val x) -> finite (to_float x) = true -> nearest double (val x) (val (to_float x))).
Proof. apply to_float_ok. Qed.

Lemma float_back p d : 53 <= p -> is_double d -> exists x, construct p (Some (OFloat d)) = Ok x /\ to_float x = d.
Proof. intros Hp D. exists d. unfold construct, argument, as_double. rewrite convert_double by auto. split; [reflexivity|]. apply to_float_double; auto. Qed.

(** 1 + 2^-53 + 2^-70 is above the middle of 1 and the next float. *)
Definition middle : num := Num false (2 ^ 70 + 2 ^ 17 + 1) (-70).
Lemma float_false : ~ (forall x, number 1024 x -> finite x = true -> finite (to_float x) = true -> nearest double (val x) (val (to_float x))).
Proof.
  intros H. specialize (H middle ltac:(split; reflexivity) eq_refl).
  assert (E : to_float middle = Num false 1 0) by (vm_compute; reflexivity). rewrite E in H. destruct (H eq_refl) as (_ & N & _).
  specialize (N (val (Num false 4503599627370497 (-52)))). 
  assert (F : fits double (val (Num false 4503599627370497 (-52)))).
  { exists 4503599627370497, (-52). split; [reflexivity|]. split; [unfold low_ok; simpl; lia|]. reflexivity. }
  specialize (N F). vm_compute in N. apply N. reflexivity.
Qed.

Lemma garbage_false : ~ (forall p t, of_string p 10 t <> NaN -> exists l, is_literal l /\ t = literal_text l \/ is_inf (of_string p 10 t) = true) /\
  (forall p, of_string p 10 [97; 98; 99] = Zero false /\ of_string p 10 [] = NaN) /\
  of_string 1024 10 [49; 46; 53; 97; 98; 99] = Num false 3 (-1).
Proof.
  split; [|split; [split; reflexivity|vm_compute; reflexivity]].
  intros H. specialize (H 1024 [97; 98; 99]).
  assert (E : of_string 1024 10 [97; 98; 99] = Zero false) by reflexivity. rewrite E in H.
  destruct (H ltac:(discriminate)) as (l & [[L T]|I]); [|discriminate]. destruct l as [s w f x]. destruct L as (A & B & C & D). simpl in *.
  destruct s as [[]|]; try discriminate. simpl in T. destruct w as [|c w].
  - destruct f as [f|]; [discriminate|]. simpl in C. contradiction.
  - injection T as T _. inversion A; subst. unfold digit in *. lia.
Qed.

Lemma str_nearest p other x : 2 <= p -> finite x = true -> exists t N,
  py_str p other x = Ok t /\ writes (negative x) (digits10 p) N t /\
  (Qabs (Qabs (val x) * inject_Z (10 ^ digits10 p) - inject_Z N) <= 1#2)%Q /\
  ((Qabs (Qabs (val x) * inject_Z (10 ^ digits10 p) - inject_Z N) == 1#2)%Q -> Z.even N = true).
Proof.
  intros Hp F. destruct (@str_ok p other x ltac:(lia) F) as (t & N & A & B & C). exists t, N. split; [exact A|]. split; [|exact C].
  replace (negative x) with (sign x) by (destruct x as [|[]|[]|[] m e]; reflexivity). exact B.
Qed.

Lemma ok_inj (A : Type) (x y : A) : Ok x = Ok y -> x = y.
Proof. intros H. injection H. auto. Qed.

Lemma str_false : ~ (forall x, number 1024 x -> finite x = true -> exists t, py_str 1024 (fun _ _ => []) x = Ok t /\ of_string 1024 10 t = x).
Proof.
  intros H. destruct (H (Num false 1 (-1100)) ltac:(split; reflexivity) eq_refl) as (t & E & R).
  rewrite default_str in E by lia. apply ok_inj in E. rewrite <- E in R. clear E.
  assert (X : of_string 1024 10 (sign_text (sign (Num false 1 (-1100))) ++ fixed_text (digits10 1024) (Num false 1 (-1100))) = Zero false)
    by (vm_compute; reflexivity).
  rewrite X in R. discriminate R.
Qed.

Definition zeros_before : layout := mkY None None false true [56] false (Some [50]) (Some 102).
Definition sign_first : layout := mkY (Some (Some 42, 61)) None false false [56] false (Some [50]) (Some 102).
Lemma format_false : ~ (forall p other x l t, is_layout l -> layout_text (bare l) <> [] ->
    py_format p other x (layout_text (bare l)) = Ok t ->
    py_format p other x (layout_text l) = Ok (python_pad (fill_of l) (aligned l) (decimal (y_width l)) t)).
Proof.
  intros H. specialize (H 1024 (fun _ _ => []) (Num false 3 (-1)) zeros_before [49; 46; 53; 48]).
  assert (L : is_layout zeros_before).
  { repeat split; simpl; try discriminate; auto.
    - repeat constructor; unfold digit; lia.
    - intros E. injection H0 as <-. discriminate.
    - injection H0 as <-. repeat constructor; unfold digit; lia.
    - intros c E. injection E as <-. auto. }
  specialize (H L ltac:(discriminate) ltac:(vm_compute; reflexivity)). vm_compute in H. discriminate H.
Qed.

Lemma decimal_nonneg t : Forall digit t -> 0 <= decimal t.
Proof.
  intros H. unfold decimal. assert (G : forall t v, Forall digit t -> 0 <= v -> 0 <= decimal_from v t).
  { clear. induction t as [|c t IH]; intros v F V; cbn [decimal_from]; auto. inversion F; subst. apply IH; auto. unfold digit in *. lia. }
  apply G; auto. lia.
Qed.
Lemma format_f_ok p other x l : is_layout l -> y_align l = None -> y_zero l = false -> y_width l = [] -> y_alt l = false -> y_comma l = false -> y_type l = Some 102 ->
  finite x = true -> exists t N,
  py_format p other x (layout_text l) = Ok ((if negative x then [] else match y_sign l with Some 43 => [43] | Some 32 => [32] | _ => [] end) ++ t) /\
  writes (negative x) (decimals l) N t /\
  (Qabs (Qabs (val x) * inject_Z (10 ^ decimals l) - inject_Z N) <= 1#2)%Q /\
  ((Qabs (Qabs (val x) * inject_Z (10 ^ decimals l) - inject_Z N) == 1#2)%Q -> Z.even N = true).
Proof.
  intros L A Z0 W At Co Ty F.
  assert (D0 : 0 <= decimals l).
  { unfold decimals. destruct (y_precision l) as [d|] eqn:E; [|lia]. destruct L as (_ & _ & _ & _ & _ & Hp & _). apply decimal_nonneg. apply (Hp d E). }
  assert (NS : negative x = sign x) by (destruct x as [|[]|[]|[] m e]; reflexivity).
  assert (HN : exists N, 0 <= N /\ fixed_text (decimals l) x = fixed_digits (decimals l) N /\
     (Qabs (Qabs (val x) * inject_Z (10 ^ decimals l) - inject_Z N) <= 1#2)%Q /\
     ((Qabs (Qabs (val x) * inject_Z (10 ^ decimals l) - inject_Z N) == 1#2)%Q -> Z.even N = true)).
  { destruct x as [|s|s|s m e]; try discriminate.
    - exists 0. split; [lia|]. split; [reflexivity|].
      assert (E : (Qabs (Qabs (val (Zero s)) * inject_Z (10 ^ decimals l) - inject_Z 0) == 0)%Q).
      { simpl val. change (Qabs 0) with 0%Q. change (inject_Z 0) with 0%Q. setoid_replace (0 * inject_Z (10 ^ decimals l) - 0)%Q with 0%Q by ring. reflexivity. }
      rewrite E. split; [discriminate|]. intros H. discriminate H.
    - destruct (@scaled_int_ok (decimals l) m e D0) as (B1 & B2 & B3 & _). exists (scaled_int (decimals l) m e).
      split; [exact B1|]. split; [reflexivity|]. rewrite val_abs. auto. }
  destruct HN as (N & N0 & E1 & E2 & E3). exists (sign_text (sign x) ++ fixed_digits (decimals l) N), N.
  split; [|split; [rewrite NS; apply fixed_digits_ok; auto | auto]].
  unfold py_format. rewrite to_string_layout; auto.
  2:{ unfold layout_text. rewrite Ty. intros H. apply app_eq_nil in H. destruct H as [_ H]. repeat (apply app_eq_nil in H; destruct H as [_ H]). discriminate. }
  assert (CA : c_align l = None) by (unfold c_align; rewrite A; reflexivity). rewrite CA.
  f_equal. rewrite padded_python by discriminate.
  simpl width. rewrite W. change (decimal []) with 0.
  unfold python_pad. set (nt := number_text _ _ _ _). replace (Z.to_nat (0 - Z.of_nat (length nt))) with O by lia.
  simpl align. simpl. unfold nt, number_text. simpl. rewrite Ty, At, Co. simpl. unfold printf. simpl.
  replace (match option_map decimal (y_precision l) with Some d => d | None => 6 end) with (decimals l) by (unfold decimals; destruct (y_precision l); reflexivity).
  rewrite E1, NS. unfold sign_text. destruct (sign x); [reflexivity|]. simpl. reflexivity.
Qed.

Lemma format_false_sign : is_layout sign_first /\
  py_format 1024 (fun _ _ => []) (Num true 3 (-1)) (layout_text (bare sign_first)) = Ok [45; 49; 46; 53; 48] /\
  py_format 1024 (fun _ _ => []) (Num true 3 (-1)) (layout_text sign_first) = Ok [42; 42; 42; 45; 49; 46; 53; 48] /\
  python_pad (fill_of sign_first) (aligned sign_first) (decimal (y_width sign_first)) [45; 49; 46; 53; 48] = [45; 42; 42; 42; 49; 46; 53; 48].
Proof.
  split; [|split; [vm_compute; reflexivity|split; vm_compute; reflexivity]].
  split; [intros f a E; injection E as <- <-; split; [simpl; auto|intros c E; injection E as <-; lia]|].
  split; [discriminate|]. split; [repeat constructor; unfold digit; lia|]. split; [discriminate|]. split; [reflexivity|].
  split; [intros d E; injection E as <-; split; [discriminate|repeat constructor; unfold digit; lia]|]. intros c E. injection E as <-. simpl. auto.
Qed.
