(** JSON: reading what was written. *)
From Coq Require Import List ZArith Bool Lia Znumtheory.
Import ListNotations.
From Verif Require Import M_Json S_Json.
Set Implicit Arguments.
Unset Strict Implicit.
Local Open Scope Z_scope.

(** ** Decimal numbers *)
Lemma digits_loop_ok fuel : forall z, 0 <= z -> (Z.to_nat (Z.log2 z) < fuel)%nat ->
  Forall digit (digits_loop fuel z) /\ digits_value (digits_loop fuel z) = z /\
  (z = 0 -> digits_loop fuel z = [48]) /\ (0 < z -> exists c d, digits_loop fuel z = c :: d /\ 49 <= c <= 57).
Proof.
  induction fuel as [|f IH]; intros z Hz Hf; [lia|]. cbn [digits_loop]. destruct (Z.ltb_spec z 10) as [L|L].
  - split; [constructor; [unfold digit; lia|constructor]|]. split; [unfold digits_value; cbn [fold_left]; lia|]. split; [intros ->; reflexivity|].
    intros H. exists (48 + z), []. split; [reflexivity|lia].
  - assert (Hd : 0 < z / 10) by (apply Z.div_str_pos; lia).
    assert (Hl : (Z.to_nat (Z.log2 (z / 10)) < f)%nat).
    { assert (Z.log2 (z / 10) < Z.log2 z). 2:{ pose proof (Z.log2_nonneg (z / 10)). lia. }
      assert (z / 10 <= z / 2) by (apply Z.div_le_compat_l; lia). assert (0 < z / 2) by lia.
      assert (Z.log2 (z / 10) <= Z.log2 (z / 2)) by (apply Z.log2_le_mono; lia).
      assert (E : Z.log2 (z / 2) = Z.log2 z - 1). { replace (z / 2) with (Z.shiftr z 1) by (rewrite Z.shiftr_div_pow2 by lia; reflexivity). rewrite Z.log2_shiftr by lia. assert (1 <= Z.log2 z) by (apply Z.log2_le_pow2; lia). lia. }
      lia. }
    destruct (IH (z / 10)) as (A & B & _ & C); [lia|exact Hl|]. split; [|split; [|split]].
    + apply Forall_app. split; [exact A|]. constructor; [|constructor]. unfold digit. pose proof (Z.mod_pos_bound z 10 eq_refl). lia.
    + unfold digits_value in *. rewrite fold_left_app, B. cbn [fold_left]. pose proof (Z.div_mod z 10 ltac:(lia)). lia.
    + lia.
    + intros _. destruct (C Hd) as (c & d & E & Hc). rewrite E. exists c, (d ++ [48 + z mod 10]). split; [reflexivity|exact Hc].
Qed.
Lemma digits_ok z : 0 <= z -> Forall digit (digits z) /\ digits_value (digits z) = z /\
  (z = 0 -> digits z = [48]) /\ (0 < z -> exists c d, digits z = c :: d /\ 49 <= c <= 57).
Proof. intros H. apply digits_loop_ok; [exact H|lia]. Qed.

(** What follows a number. *)
Definition ends (r : text) : Prop := match r with [] => True | c :: _ => is_digit c = false /\ c <> 46 /\ c <> 101 /\ c <> 69 end.
Lemma is_digit_true c : digit c -> is_digit c = true.
Proof. unfold digit, is_digit. intros H. apply andb_true_intro. split; apply Z.leb_le; lia. Qed.
Lemma is_digit_false c : is_digit c = false <-> ~ digit c.
Proof.
  unfold digit, is_digit. rewrite andb_false_iff, !Z.leb_gt. lia.
Qed.
Definition nondigit (r : text) : Prop := match r with [] => True | c :: _ => is_digit c = false end.
Lemma take_digits_ok d r : Forall digit d -> nondigit r -> take_digits (d ++ r) = (d, r).
Proof.
  intros H Hr. induction H as [|c d Hc H IH]; simpl.
  - destruct r as [|c r]; [reflexivity|]. simpl in Hr. simpl. rewrite Hr. reflexivity.
  - rewrite (is_digit_true Hc), IH. reflexivity.
Qed.
Lemma ends_nondigit r : ends r -> nondigit r.
Proof. destruct r; [auto|]. simpl. tauto. Qed.

(** The integer part. *)
Definition integer_text (i : text) : Prop := i = [48] \/ exists c d, i = c :: d /\ 49 <= c <= 57 /\ Forall digit d.
Lemma read_integer_ok sign i r : sign = [] \/ sign = [45] -> integer_text i -> nondigit r ->
  read_integer (sign ++ i ++ r) = Some (sign ++ i, r).
Proof.
  intros Hs Hi Hr. unfold read_integer. destruct Hi as [->|(c & d & -> & Hc & Hd)].
  - destruct Hs as [->| ->]; reflexivity.
  - destruct Hs as [->| ->]; simpl.
    + destruct (Z.eqb_spec c 45); [lia|]. destruct (Z.eqb_spec c 48); [lia|]. rewrite is_digit_true by (unfold digit; lia). rewrite (take_digits_ok Hd Hr). reflexivity.
    + destruct (Z.eqb_spec c 48); [lia|]. rewrite is_digit_true by (unfold digit; lia). rewrite (take_digits_ok Hd Hr). reflexivity.
Qed.
Lemma digits_integer z : 0 <= z -> integer_text (digits z).
Proof.
  intros H. destruct (digits_ok H) as (A & _ & B & C). destruct (Z.eq_dec z 0) as [E|E]; [left; auto|]. right.
  destruct C as (c & d & Ed & Hc); [lia|]. exists c, d. split; [exact Ed|]. split; [exact Hc|]. rewrite Ed in A. inversion A; assumption.
Qed.
Lemma int_repr_parts z : exists sign i, int_repr z = sign ++ i /\ (sign = [] \/ sign = [45]) /\ integer_text i /\ int_value (sign ++ i) = z.
Proof.
  unfold int_repr. destruct (Z.ltb_spec z 0) as [L|L].
  - exists [45], (digits (- z)). split; [reflexivity|]. split; [auto|]. split; [apply digits_integer; lia|]. simpl. destruct (@digits_ok (- z)) as (_ & E & _); [lia|]. rewrite E. lia.
  - exists [], (digits z). split; [reflexivity|]. split; [auto|]. split; [apply digits_integer; lia|]. simpl. destruct (@digits_ok z) as (_ & E & _); [lia|].
    destruct (digits_integer L) as [Ed|(c & d & Ed & Hc & _)]; rewrite Ed in *; [exact E|]. simpl. destruct (Z.eqb_spec c 45); [lia|exact E].
Qed.
Lemma no_fraction r : ends r -> read_fraction r = ([], r).
Proof. destruct r as [|c r]; [reflexivity|]. intros (_ & H & _). simpl. destruct (Z.eqb_spec c 46); [contradiction|reflexivity]. Qed.
Lemma no_exponent r : ends r -> read_exponent r = ([], r).
Proof. destruct r as [|c r]; [reflexivity|]. intros (_ & _ & H & H'). simpl. destruct (Z.eqb_spec c 101); [contradiction|]. destruct (Z.eqb_spec c 69); [contradiction|]. reflexivity. Qed.

Section Json.
Variable F : Type.
Variable frepr : F -> text.
Variable fread : text -> F.
Hypothesis HF : float_ok frepr fread.
Local Notation value := (value F).
Local Notation dumps := (dumps frepr).
Local Notation scan_once := (scan_once fread).

Lemma read_int z r : ends r -> read_number fread (int_repr z ++ r) = Some (VInt F z, r).
Proof.
  intros Hr. destruct (int_repr_parts z) as (sign & i & E & Hs & Hi & Hv). rewrite E, <- app_assoc. unfold read_number.
  rewrite (read_integer_ok Hs Hi (ends_nondigit Hr)), (no_fraction Hr), (no_exponent Hr). simpl. rewrite Hv. reflexivity.
Qed.

Lemma read_float t r : float_text t -> ends r -> read_number fread (t ++ r) = Some (VFloat (Fin (fread t)), r).
Proof.
  intros H Hr. destruct H as [sign i f e Hs Hi Hf He Hne]. unfold read_number.
  replace ((sign ++ i ++ f ++ e) ++ r) with (sign ++ i ++ (f ++ e ++ r)) by (rewrite !app_assoc; reflexivity).
  assert (Hn : nondigit (e ++ r)).
  { destruct He as [->|(c & s & d & -> & Hc & _)]; [apply ends_nondigit; exact Hr|]. simpl. apply is_digit_false. unfold digit. lia. }
  assert (Hn' : nondigit (f ++ e ++ r)). { destruct Hf as [->|(d & -> & _)]; [exact Hn|]. reflexivity. }
  rewrite (read_integer_ok Hs Hi Hn').
  assert (Ef : read_fraction (f ++ e ++ r) = (f, e ++ r)).
  { destruct Hf as [->|(d & -> & Hd & Hdd)].
    - simpl. destruct He as [->|(c & s & d & -> & Hc & _)]; [apply no_fraction; exact Hr|]. simpl. destruct (Z.eqb_spec c 46); [lia|reflexivity].
    - simpl. rewrite (take_digits_ok Hdd Hn). destruct d; [congruence|reflexivity]. }
  rewrite Ef.
  assert (Ee : read_exponent (e ++ r) = (e, r)).
  { destruct He as [->|(c & s & d & -> & Hc & Hs' & Hd & Hdd)]; [apply no_exponent; exact Hr|]. simpl.
    assert (E1 : ((c =? 101) || (c =? 69)) = true) by (destruct Hc as [->| ->]; reflexivity). rewrite E1.
    destruct d as [|x d]; [congruence|]. inversion Hdd as [|x' d' Hx _]; subst. unfold digit in Hx.
    destruct Hs' as [->|[->| ->]]; cbn [app].
    - destruct (Z.eqb_spec x 45); [lia|]. destruct (Z.eqb_spec x 43); [lia|]. cbn [orb]. cbv iota beta.
      change (x :: d ++ r) with ((x :: d) ++ r). rewrite (take_digits_ok Hdd (ends_nondigit Hr)). reflexivity.
    - change (45 =? 45) with true. cbn [orb]. cbv iota beta. change (x :: d ++ r) with ((x :: d) ++ r). rewrite (take_digits_ok Hdd (ends_nondigit Hr)). reflexivity.
    - change (43 =? 45) with false. change (43 =? 43) with true. cbn [orb]. cbv iota beta. change (x :: d ++ r) with ((x :: d) ++ r). rewrite (take_digits_ok Hdd (ends_nondigit Hr)). reflexivity. }
  rewrite Ee. destruct (f ++ e) as [|x l] eqn:E; [congruence|]. rewrite <- E. rewrite <- app_assoc. reflexivity.
Qed.

(** ** Strings *)
Lemma hex_value_digit d : 0 <= d < 16 -> hex_value (hex_digit d) = Some d.
Proof.
  intros H. assert (C : d = 0 \/ d = 1 \/ d = 2 \/ d = 3 \/ d = 4 \/ d = 5 \/ d = 6 \/ d = 7 \/ d = 8 \/ d = 9 \/ d = 10 \/ d = 11 \/ d = 12 \/ d = 13 \/ d = 14 \/ d = 15) by lia.
  repeat (destruct C as [->|C]; [reflexivity|]). subst d. reflexivity.
Qed.
Lemma read4_hex4 n r : 0 <= n < 65536 -> read4 (hex4 n ++ r) = Some (n, r).
Proof.
  intros H. unfold hex4. cbn [app read4].
  rewrite (@hex_value_digit (n / 4096)) by (split; [apply Z.div_pos; lia|apply Z.div_lt_upper_bound; lia]).
  rewrite (@hex_value_digit (n / 256 mod 16)), (@hex_value_digit (n / 16 mod 16)), (@hex_value_digit (n mod 16)) by (apply Z.mod_pos_bound; lia).
  match goal with |- Some (?x, _) = _ => assert (E : x = n); [|rewrite E; reflexivity] end.
  pose proof (Z.div_mod n 16 ltac:(lia)). pose proof (Z.div_mod (n / 16) 16 ltac:(lia)). pose proof (Z.div_mod (n / 256) 16 ltac:(lia)).
  assert (n / 256 = n / 16 / 16) by (rewrite Z.div_div by lia; reflexivity). assert (n / 4096 = n / 256 / 16) by (rewrite Z.div_div by lia; reflexivity). lia.
Qed.

(** The text does not continue with an escaped low surrogate. *)
Definition no_low (r : text) : Prop :=
  match r with
  | b :: e :: r' => b = backslash -> e = 117 -> exists u r'', read4 r' = Some (u, r'') /\ low u = false
  | _ => True
  end.

Inductive esc_case (c : Z) : Prop :=
| esc_short e : escape c = [backslash; e] -> e <> 117 -> unescape e = Some c -> esc_case c
| esc_raw : escape c = [c] -> c <> quote -> c <> backslash -> 32 <= c -> c < 65536 -> esc_case c
| esc_u : escape c = u_escape c -> 0 <= c < 65536 -> esc_case c
| esc_pair h l : escape c = u_escape h ++ u_escape l -> 65536 <= c -> high h = true -> low l = true -> 0 <= h < 65536 -> 0 <= l < 65536 ->
    combine_surrogates h l = c -> esc_case c.
Lemma esc_cases c : 0 <= c < 1114112 -> esc_case c.
Proof.
  intros H. unfold escape, quote, backslash.
  destruct (Z.eqb_spec c 34) as [->|N1]; [eapply esc_short; [reflexivity|discriminate|reflexivity]|].
  destruct (Z.eqb_spec c 92) as [->|N2]; [eapply esc_short; [reflexivity|discriminate|reflexivity]|].
  destruct (Z.eqb_spec c 10) as [->|N3]; [eapply esc_short; [reflexivity|discriminate|reflexivity]|].
  destruct (Z.eqb_spec c 13) as [->|N4]; [eapply esc_short; [reflexivity|discriminate|reflexivity]|].
  destruct (Z.eqb_spec c 9) as [->|N5]; [eapply esc_short; [reflexivity|discriminate|reflexivity]|].
  destruct (Z.eqb_spec c 12) as [->|N6]; [eapply esc_short; [reflexivity|discriminate|reflexivity]|].
  destruct (Z.eqb_spec c 8) as [->|N7]; [eapply esc_short; [reflexivity|discriminate|reflexivity]|].
  assert (E : escape c = if (32 <=? c) && (c <=? 126) then [c] else if c <? 65536 then u_escape c
              else u_escape (55296 + (c - 65536) / 1024) ++ u_escape (56320 + (c - 65536) mod 1024)).
  { unfold escape, quote, backslash. repeat match goal with |- context[c =? ?k] => destruct (Z.eqb_spec c k); [contradiction|] end. reflexivity. }
  destruct ((32 <=? c) && (c <=? 126)) eqn:B.
  { apply andb_prop in B. rewrite !Z.leb_le in B. apply esc_raw; [exact E|unfold quote; lia|unfold backslash; lia|lia|lia]. }
  destruct (Z.ltb_spec c 65536) as [L|L]; [apply esc_u; [exact E|lia]|].
  assert (Hd : 0 <= (c - 65536) / 1024 < 1024) by (split; [apply Z.div_pos; lia|apply Z.div_lt_upper_bound; lia]).
  assert (Hm : 0 <= (c - 65536) mod 1024 < 1024) by (apply Z.mod_pos_bound; lia).
  eapply esc_pair; [exact E|exact L| | |lia|lia|].
  - unfold high. apply andb_true_intro. split; apply Z.leb_le; lia.
  - unfold low. apply andb_true_intro. split; apply Z.leb_le; lia.
  - unfold combine_surrogates. pose proof (Z.div_mod (c - 65536) 1024 ltac:(lia)). lia.
Qed.

Lemma high_spec c : high c = true <-> 55296 <= c <= 56319.
Proof. unfold high. rewrite andb_true_iff, !Z.leb_le. reflexivity. Qed.
Lemma low_spec c : low c = true <-> 56320 <= c <= 57343.
Proof. unfold low. rewrite andb_true_iff, !Z.leb_le. reflexivity. Qed.
Lemma high_not_low c : high c = true -> low c = false.
Proof. intros H. destruct (low c) eqn:L; [|reflexivity]. rewrite high_spec in H. rewrite low_spec in L. lia. Qed.

Lemma no_low_escape d r : 0 <= d < 1114112 -> low d = false -> no_low (escape d ++ r).
Proof.
  intros Hd Hl. destruct (esc_cases Hd) as [e E He _|E Hq Hb _ _|E Hr|h l E _ Hh _ Hr _ _]; rewrite E.
  - simpl. intros _ E'. contradiction.
  - simpl. destruct r; [exact I|]. intros E'. contradiction.
  - simpl. intros _ _. exists d, r. split; [exact (read4_hex4 r Hr)|exact Hl].
  - rewrite <- app_assoc. simpl. intros _ _. exists h, (u_escape l ++ r). split; [exact (read4_hex4 (u_escape l ++ r) Hr)|apply high_not_low; exact Hh].
Qed.

Definition more (f : nat) (c : Z) (s : text) := match scanstring f s with Some (t, r) => Some (c :: t, r) | None => None end.
Lemma scan_u f u r : 0 <= u < 65536 -> (high u = true -> no_low r) -> scanstring (S f) (u_escape u ++ r) = more f u r.
Proof.
  intros Hu Hn. unfold u_escape. cbn [app]. cbn [scanstring]. cbv beta zeta. change (backslash =? quote) with false. change (backslash =? backslash) with true. change (117 =? 117) with true. cbv iota.
  rewrite (read4_hex4 r Hu). destruct (high u) eqn:Eh; [|reflexivity]. specialize (Hn eq_refl).
  destruct r as [|b [|e r']]; [reflexivity|reflexivity|]. destruct ((b =? backslash) && (e =? 117)) eqn:B; [|reflexivity].
  apply andb_prop in B. destruct B as (B1 & B2). apply Z.eqb_eq in B1. apply Z.eqb_eq in B2. simpl in Hn. destruct (Hn B1 B2) as (u' & r'' & E & L). rewrite E, L. reflexivity.
Qed.
Lemma scan_pair f h l r : 0 <= h < 65536 -> 0 <= l < 65536 -> high h = true -> low l = true ->
  scanstring (S f) (u_escape h ++ u_escape l ++ r) = more f (combine_surrogates h l) r.
Proof.
  intros Hh Hl Eh El. unfold u_escape at 1. cbn [app]. cbn [scanstring]. cbv beta zeta. change (backslash =? quote) with false. change (backslash =? backslash) with true. change (117 =? 117) with true. cbv iota.
  rewrite (read4_hex4 (u_escape l ++ r) Hh), Eh. unfold u_escape. cbn [app]. change (backslash =? backslash) with true. change (117 =? 117) with true. cbn [andb].
  rewrite (read4_hex4 r Hl), El. reflexivity.
Qed.
Lemma scan_one f c r : 0 <= c < 1114112 -> (high c = true -> no_low r) -> scanstring (S f) (escape c ++ r) = more f c r.
Proof.
  intros Hc Hn. destruct (esc_cases Hc) as [e E He Hu|E Hq Hb H32 _|E Hr|h l E _ Hh Hl Hr Hr' Ec]; rewrite E.
  - cbn [app]. cbn [scanstring]. cbv beta zeta. change (backslash =? quote) with false. change (backslash =? backslash) with true. cbv iota.
    destruct (Z.eqb_spec e 117); [contradiction|]. rewrite Hu. reflexivity.
  - cbn [app]. cbn [scanstring]. cbv beta zeta. destruct (Z.eqb_spec c quote); [contradiction|]. destruct (Z.eqb_spec c backslash); [contradiction|].
    destruct (Z.ltb_spec c 32); [lia|]. reflexivity.
  - apply scan_u; assumption.
  - rewrite <- app_assoc, (scan_pair f r Hr Hr' Hh Hl), Ec. reflexivity.
Qed.
Lemma escape_bmp c : 0 <= c < 65536 -> high c = true \/ low c = true -> escape c = u_escape c.
Proof.
  intros Hc H. destruct (@esc_cases c) as [e E He Hu|E Hq Hb H32 H64|E Hr|h l E Hb _ _ _ _ _]; [lia| | |exact E|lia].
  - exfalso. assert (Hc' : 55296 <= c) by (destruct H as [H|H]; [rewrite high_spec in H|rewrite low_spec in H]; lia).
    revert Hu. unfold unescape. unfold quote, backslash. repeat match goal with |- context[if ?b then _ else _] => destruct b eqn:? end; intros Hu; try discriminate Hu; injection Hu as <-; try lia.
  - exfalso. revert E. unfold escape. repeat match goal with |- context[if ?b then _ else _] => destruct b eqn:? end; try discriminate.
    intros _. rewrite andb_true_iff, !Z.leb_le in *. destruct H as [H|H]; [rewrite high_spec in H|rewrite low_spec in H]; lia.
Qed.

Lemma scan_string n : forall s r, code_points s -> (length s < n)%nat -> scanstring n (flat_map escape s ++ quote :: r) = Some (merge s, r).
Proof.
  induction n as [n IH] using (well_founded_induction Wf_nat.lt_wf). intros s r Hs Hn. destruct n as [|n]; [lia|].
  destruct s as [|h t]; [reflexivity|]. inversion Hs as [|h' t' Hh Ht]; subst. cbn [flat_map]. rewrite <- app_assoc.
  destruct t as [|l t].
  - rewrite scan_one; [|exact Hh|]. 2:{ intros _. cbn [flat_map app]. unfold no_low. destruct r; [exact I|]. discriminate. }
    unfold more. rewrite IH; [reflexivity|lia|exact Ht|simpl in *; lia].
  - inversion Ht as [|l' t' Hl Ht']; subst. cbn [flat_map]. rewrite <- app_assoc. cbn [merge].
    change ((55296 <=? h) && (h <=? 56319)) with (high h). rewrite <- andb_assoc. change ((56320 <=? l) && (l <=? 57343)) with (low l).
    destruct (high h && low l) eqn:B.
    + apply andb_prop in B. destruct B as (Bh & Bl). pose proof (proj1 (high_spec h) Bh). pose proof (proj1 (low_spec l) Bl).
      rewrite (@escape_bmp h), (@escape_bmp l) by (auto; lia). rewrite scan_pair by (auto; lia). unfold more.
      rewrite IH; [reflexivity|lia|exact Ht'|simpl in *; lia].
    + rewrite scan_one; [|exact Hh|]. 2:{ intros E. rewrite E in B. apply no_low_escape; [exact Hl|exact B]. }
      unfold more. rewrite app_assoc. change (flat_map escape (l :: t)) with (escape l ++ flat_map escape t) in *.
      change (escape l ++ flat_map escape t) with (flat_map escape (l :: t)). rewrite IH; [reflexivity|lia|exact Ht|simpl in *; lia].
Qed.

(** ** Values *)
Lemma val_ind (P : value -> Prop)
  (HN : P (VNone F)) (HB : forall b, P (VBool F b)) (HI : forall z, P (VInt F z)) (HX : forall x, P (VFloat x)) (HS : forall s, P (VStr F s))
  (HL : forall l, Forall P l -> P (VList l)) (HD : forall l, Forall (fun kv => P (snd kv)) l -> P (VDict l)) : forall v, P v.
Proof.
  fix IH 1. intros [|b|z|x|s|l|l]; [apply HN|apply HB|apply HI|apply HX|apply HS| |].
  - apply HL. induction l as [|v l IHl]; constructor; [apply IH|exact IHl].
  - apply HD. induction l as [|v l IHl]; constructor; [apply IH|exact IHl].
Qed.

(** What is read back. *)
Fixpoint norm (v : value) : value :=
  match v with
  | VStr _ s => VStr F (merge s)
  | VList l => VList (map norm l)
  | VDict l => dict_of (map (fun kv => (merge (key_text frepr (fst kv)), norm (snd kv))) l)
  | _ => v
  end.

Lemma float_text_head t : float_text t -> exists c s, t = c :: s /\ (c = 45 \/ digit c).
Proof.
  intros H. destruct H as [sign i f e Hs Hi _ _ _]. destruct Hs as [->| ->]; [|eexists; eexists; split; [reflexivity|auto]].
  destruct Hi as [->|(c & d & -> & Hc & _)]; eexists; eexists; (split; [reflexivity|right; unfold digit; lia]).
Qed.
Lemma int_repr_head z : exists c s, int_repr z = c :: s /\ (c = 45 \/ digit c).
Proof.
  destruct (int_repr_parts z) as (sign & i & -> & Hs & Hi & _). destruct Hs as [->| ->]; [|eexists; eexists; split; [reflexivity|auto]].
  destruct Hi as [->|(c & d & -> & Hc & _)]; eexists; eexists; (split; [reflexivity|right; unfold digit; lia]).
Qed.
Lemma dumps_head v : exists c t, dumps v = c :: t /\ space c = false /\ c <> 93.
Proof.
  assert (N : forall c, c = 45 \/ digit c -> space c = false /\ c <> 93).
  { intros c H. unfold digit in H. split; [|lia]. unfold space. rewrite !orb_false_iff, !Z.eqb_neq. lia. }
  destruct v as [|b|z|x|s|l|l].
  - eexists; eexists; split; [reflexivity|]. split; [reflexivity|discriminate].
  - destruct b; eexists; eexists; (split; [reflexivity|]); (split; [reflexivity|discriminate]).
  - destruct (int_repr_head z) as (c & t & E & H). exists c, t. split; [exact E|apply N; exact H].
  - destruct x as [x| | |]; [|eexists; eexists; split; [reflexivity|]; split; [reflexivity|discriminate]..].
    destruct (float_text_head (proj1 (HF x))) as (c & t & E & H). exists c, t. split; [exact E|apply N; exact H].
  - eexists; eexists; split; [reflexivity|]. split; [reflexivity|discriminate].
  - eexists; eexists; split; [reflexivity|]. split; [reflexivity|discriminate].
  - eexists; eexists; split; [reflexivity|]. split; [reflexivity|discriminate].
Qed.
Lemma dumps_skip v r : skip (dumps v ++ r) = dumps v ++ r.
Proof. destruct (dumps_head v) as (c & t & -> & H & _). simpl. rewrite H. reflexivity. Qed.

Lemma number_scan f s c t x : s = c :: t -> c = 45 \/ digit c -> read_number fread s = Some x -> scan_once (S f) s = Some x.
Proof.
  intros -> Hc E. cbn [M_Json.scan_once]. unfold quote. unfold digit in Hc.
  destruct (Z.eqb_spec c 34); [lia|]. destruct (Z.eqb_spec c 123); [lia|]. destruct (Z.eqb_spec c 91); [lia|].
  cbn [starts t_null t_true t_false]. destruct (Z.eqb_spec 110 c); [lia|]. destruct (Z.eqb_spec 116 c); [lia|]. destruct (Z.eqb_spec 102 c); [lia|].
  rewrite E. reflexivity.
Qed.

Lemma ends_comma r : ends (44 :: r). Proof. simpl. repeat split; discriminate. Qed.
Lemma ends_bracket r : ends (93 :: r). Proof. simpl. repeat split; discriminate. Qed.
Lemma ends_brace r : ends (125 :: r). Proof. simpl. repeat split; discriminate. Qed.

Definition reads (val : text -> option (value * text)) (v : value) : Prop := forall r, ends r -> val (dumps v ++ r) = Some (norm v, r).

Lemma items_ok val l : forall g r, l <> [] -> Forall (reads val) l -> (length l <= g)%nat ->
  items val g (joined (map dumps l) ++ 93 :: r) = Some (map norm l, r).
Proof.
  induction l as [|v l IH]; intros g r Hne H Hg; [congruence|]. inversion H as [|v' l' Hv Hl]; subst. destruct g as [|g]; [simpl in Hg; lia|].
  destruct l as [|w l].
  - cbn [map joined items]. rewrite (Hv (93 :: r) (ends_bracket r)). reflexivity.
  - change (joined (map dumps (v :: w :: l))) with (dumps v ++ 44 :: 32 :: joined (map dumps (w :: l))).
    rewrite <- app_assoc. cbn [app]. cbn [items]. rewrite (Hv _ (ends_comma _)). cbn [skip]. change (space 44) with false. cbv iota.
    change (44 =? 93) with false. change (44 =? 44) with true. cbv iota. cbn [skip]. change (space 32) with true. cbv iota.
    assert (Es : skip (joined (map dumps (w :: l)) ++ 93 :: r) = joined (map dumps (w :: l)) ++ 93 :: r).
    { destruct l as [|w' l]; [apply dumps_skip|]. change (joined (map dumps (w :: w' :: l))) with (dumps w ++ 44 :: 32 :: joined (map dumps (w' :: l))). rewrite <- app_assoc. apply dumps_skip. }
    rewrite Es, IH; [reflexivity|discriminate|exact Hl|simpl in *; lia].
Qed.

Lemma escape_length c : (1 <= length (escape c))%nat.
Proof. unfold escape. repeat match goal with |- context[if ?b then _ else _] => destruct b end; simpl; lia. Qed.
Lemma flat_escape_length s : (length s <= length (flat_map escape s))%nat.
Proof. induction s as [|c s IH]; [reflexivity|]. cbn [flat_map length]. rewrite app_length. pose proof (escape_length c). lia. Qed.

Definition member (kv : key F * value) : text := str_repr (key_text frepr (fst kv)) ++ 58 :: 32 :: dumps (snd kv).
Definition normed (kv : key F * value) : text * value := (merge (key_text frepr (fst kv)), norm (snd kv)).
Lemma str_scan k r : code_points k -> scanstring (length (str_repr k ++ r)) (flat_map escape k ++ quote :: r) = Some (merge k, r).
Proof.
  intros H. apply scan_string; [exact H|]. unfold str_repr. cbn [app length]. rewrite !app_length. pose proof (flat_escape_length k). lia.
Qed.
Lemma str_repr_cons k r : str_repr k ++ r = quote :: flat_map escape k ++ quote :: r.
Proof. unfold str_repr. cbn [app]. rewrite <- app_assoc. reflexivity. Qed.

Lemma members_ok val l : forall g r, l <> [] -> Forall (fun kv => code_points (key_text frepr (fst kv)) /\ reads val (snd kv)) l -> (length l <= g)%nat ->
  members val g (joined (map member l) ++ 125 :: r) = Some (map normed l, r).
Proof.
  induction l as [|v l IH]; intros g r Hne H Hg; [congruence|]. inversion H as [|v' l' (Hk & Hv) Hl]; subst. destruct g as [|g]; [simpl in Hg; lia|].
  assert (step : forall r', ends r' -> members val (S g) (member v ++ r') = match skip r' with
        | c :: r'' => if c =? 125 then Some ([normed v], r'')
                      else if c =? 44 then match members val g (skip r'') with Some (l, r3) => Some (normed v :: l, r3) | None => None end else None
        | [] => None end).
  { intros r' Hr. unfold member. rewrite <- app_assoc. cbn [app members]. rewrite str_repr_cons. cbn [members].
    change (quote =? quote) with true. cbv iota. rewrite <- str_repr_cons. rewrite (str_scan _ Hk). cbn [skip].
    change (space 58) with false. cbv iota. change (58 =? 58) with true. cbv iota. cbn [skip]. change (space 32) with true. cbv iota.
    rewrite dumps_skip, (Hv r' Hr). reflexivity. }
  destruct l as [|w l].
  - cbn [map joined]. rewrite (step _ (ends_brace r)). reflexivity.
  - change (joined (map member (v :: w :: l))) with (member v ++ 44 :: 32 :: joined (map member (w :: l))).
    rewrite <- app_assoc. cbn [app]. rewrite (step _ (ends_comma _)). cbn [skip]. change (space 44) with false. cbv iota.
    change (44 =? 125) with false. change (44 =? 44) with true. cbv iota. cbn [skip]. change (space 32) with true. cbv iota.
    assert (Es : skip (joined (map member (w :: l)) ++ 125 :: r) = joined (map member (w :: l)) ++ 125 :: r) by (destruct l; reflexivity).
    rewrite Es, IH; [reflexivity|discriminate|exact Hl|simpl in *; lia].
Qed.

(** Keys are made of code points. *)
Lemma digit_code l : Forall digit l -> code_points l.
Proof. apply Forall_impl. unfold digit. lia. Qed.
Lemma integer_code i : integer_text i -> code_points i.
Proof.
  intros [->|(c & d & -> & Hc & Hd)]; [constructor; [lia|constructor]|]. constructor; [lia|apply digit_code; exact Hd].
Qed.
Lemma sign_code s : s = [] \/ s = [45] -> code_points s.
Proof. intros [->| ->]; [constructor|constructor; [lia|constructor]]. Qed.
Lemma int_code z : code_points (int_repr z).
Proof. destruct (int_repr_parts z) as (s & i & -> & Hs & Hi & _). apply Forall_app. split; [apply sign_code; exact Hs|apply integer_code; exact Hi]. Qed.
Lemma float_text_code t : float_text t -> code_points t.
Proof.
  intros H. destruct H as [sign i f e Hs Hi Hf He _]. apply Forall_app. split; [apply sign_code; exact Hs|]. apply Forall_app. split; [apply integer_code; exact Hi|]. apply Forall_app. split.
  - destruct Hf as [->|(d & -> & _ & Hd)]; [constructor|]. constructor; [lia|apply digit_code; exact Hd].
  - destruct He as [->|(c & s & d & -> & Hc & Hs' & _ & Hd)]; [constructor|]. constructor; [lia|]. apply Forall_app. split; [|apply digit_code; exact Hd].
    destruct Hs' as [->|[->| ->]]; [constructor|constructor; [lia|constructor]|constructor; [lia|constructor]].
Qed.
Ltac lits := repeat (constructor; [lia|]); constructor.
Lemma key_code k : (forall s, k = KStr F s -> code_points s) -> code_points (key_text frepr k).
Proof.
  intros H. destruct k as [s|z|x|b|]; simpl.
  - apply H. reflexivity.
  - apply int_code.
  - destruct x as [x| | |]; [apply float_text_code, HF|lits|lits|lits].
  - destruct b; lits.
  - lits.
Qed.

Lemma joined_item_length (A : Type) (f : A -> text) l x : In x l -> (length (f x) <= length (joined (map f l)))%nat.
Proof.
  induction l as [|y l IH]; [intros []|]. intros H. destruct l as [|z l].
  - destruct H as [->|[]]. reflexivity.
  - change (joined (map f (y :: z :: l))) with (f y ++ 44 :: 32 :: joined (map f (z :: l))). rewrite app_length. cbn [length].
    destruct H as [->|H]; [lia|]. specialize (IH H). lia.
Qed.
Lemma joined_length (A : Type) (f : A -> text) l : (forall x, f x <> []) -> (length l <= length (joined (map f l)))%nat.
Proof.
  intros Hf. induction l as [|y l IH]; [apply le_n|]. assert (1 <= length (f y))%nat by (specialize (Hf y); destruct (f y); [congruence|simpl; lia]).
  destruct l as [|z l]; [cbn [map joined length]; lia|].
  change (joined (map f (y :: z :: l))) with (f y ++ 44 :: 32 :: joined (map f (z :: l))). rewrite app_length. cbn [length] in *. lia.
Qed.

Lemma scan_dumps v : well_coded v -> forall f, (length (dumps v) <= f)%nat -> reads (scan_once (S f)) v.
Proof.
  induction v as [|b|z|x|s|l IH|l IH] using val_ind; intros Hw f Hf r Hr.
  - reflexivity.
  - destruct b; reflexivity.
  - destruct (int_repr_head z) as (c & t & E & H). eapply (@number_scan f _ c (t ++ r)); [cbn [M_Json.dumps]; rewrite E; reflexivity|exact H|]. apply read_int. exact Hr.
  - destruct x as [x| | |]; [|reflexivity|reflexivity|reflexivity]. destruct (HF x) as (Ht & Ex).
    destruct (float_text_head Ht) as (c & t & E & H). eapply (@number_scan f _ c (t ++ r)); [cbn [M_Json.dumps float_repr]; rewrite E; reflexivity|exact H|].
    cbn [M_Json.dumps float_repr norm]. rewrite (read_float Ht Hr), Ex. reflexivity.
  - inversion Hw; subst. cbn [M_Json.dumps]. rewrite str_repr_cons. cbn [M_Json.scan_once]. change (quote =? quote) with true. cbv iota. rewrite <- str_repr_cons, str_scan by assumption. reflexivity.
  - inversion Hw as [| | | | |l' Hl|]; subst. cbn [M_Json.dumps] in *. rewrite <- app_comm_cons, <- app_assoc. cbn [app M_Json.scan_once].
    change (91 =? quote) with false. change (91 =? 123) with false. change (91 =? 91) with true. cbv iota.
    destruct l as [|v l]; [reflexivity|].
    assert (Es : exists c t, joined (map dumps (v :: l)) ++ 93 :: r = c :: t /\ space c = false /\ c <> 93).
    { destruct (dumps_head v) as (c & t & E & H). exists c. destruct l as [|w l]; [exists (t ++ 93 :: r); cbn [map joined]; rewrite E; auto|].
      change (joined (map dumps (v :: w :: l))) with (dumps v ++ 44 :: 32 :: joined (map dumps (w :: l))). rewrite E. eexists. split; [reflexivity|exact H]. }
    destruct Es as (c & t & Es & Hsp & Hc). rewrite Es. cbn [skip]. rewrite Hsp. destruct (Z.eqb_spec c 93); [contradiction|]. rewrite <- Es. rewrite items_ok; [reflexivity|discriminate| |].
    + cbn [length] in Hf. rewrite app_length in Hf. cbn [length] in Hf. destruct f as [|f]; [lia|]. rewrite Forall_forall in IH, Hl |- *. intros w Hw'. apply IH; [exact Hw'|apply Hl; exact Hw'|].
      pose proof (joined_item_length dumps Hw'). lia.
    + cbn [length]. rewrite app_length. assert (Hd : forall x, dumps x <> []) by (intros x; destruct (dumps_head x) as (? & ? & -> & _); discriminate). pose proof (joined_length (v :: l) Hd). cbn [length] in *. lia.
  - inversion Hw as [| | | | | |l' Hl]; subst. change (dumps (VDict l)) with (123 :: joined (map member l) ++ [125]) in *.
    rewrite <- app_comm_cons, <- app_assoc. cbn [app M_Json.scan_once].
    change (123 =? quote) with false. change (123 =? 123) with true. cbv iota.
    destruct l as [|v l]; [reflexivity|].
    assert (Es : exists t, joined (map member (v :: l)) ++ 125 :: r = quote :: t) by (destruct l; eexists; reflexivity).
    destruct Es as (t & Es). rewrite Es. cbn [skip]. change (space quote) with false. cbv iota. change (quote =? 125) with false. cbv iota. rewrite <- Es. rewrite members_ok; [reflexivity|discriminate| |].
    + cbn [length] in Hf. rewrite app_length in Hf. cbn [length] in Hf. destruct f as [|f]; [lia|]. rewrite Forall_forall in IH, Hl |- *. intros w Hw'. destruct (Hl w Hw') as (Hk & Hww). split; [apply key_code; exact Hk|].
      apply IH; [exact Hw'|exact Hww|]. pose proof (joined_item_length member Hw'). unfold member in H at 1. rewrite app_length in H. cbn [length] in H. lia.
    + cbn [length]. rewrite app_length. assert (Hd : forall x, member x <> []) by (intros x; discriminate). pose proof (joined_length (v :: l) Hd). cbn [length] in *. lia.
Qed.

Lemma loads_norm v : well_coded v -> loads fread (dumps v) = Some (norm v).
Proof.
  intros Hw. unfold loads. pose proof (@scan_dumps v Hw (length (dumps v)) (le_n _) [] I) as E. rewrite app_nil_r in E.
  pose proof (dumps_skip v []) as Es. rewrite app_nil_r in Es. rewrite Es, E. cbn [skip].
  assert (Hc : exists c t, dumps v = c :: t /\ c <> 65279).
  { destruct v as [|b|z|x|s|l|l]; try (eexists; eexists; split; [reflexivity|discriminate]).
    - destruct b; (eexists; eexists; split; [reflexivity|discriminate]).
    - destruct (int_repr_head z) as (c & t & E' & H). exists c, t. split; [exact E'|unfold digit in H; lia].
    - destruct x as [x| | |]; try (eexists; eexists; split; [reflexivity|discriminate]).
      destruct (float_text_head (proj1 (HF x))) as (c & t & E' & H). exists c, t. split; [exact E'|unfold digit in H; lia]. }
  destruct Hc as (c & t & Ec & Hc). rewrite Ec. destruct (Z.eqb_spec c 65279); [contradiction|reflexivity].
Qed.

(** ** Plain values come back unchanged *)
Lemma merge_id s : split_pair s = false -> merge s = s.
Proof.
  assert (G : forall n s, (length s <= n)%nat -> split_pair s = false -> merge s = s).
  { clear s. induction n as [|n IH]; intros s Hn H; [destruct s; [reflexivity|simpl in Hn; lia]|].
    destruct s as [|h [|l t]]; [reflexivity|reflexivity|]. cbn [split_pair] in H. apply orb_false_iff in H. destruct H as (A & B). cbn [merge]. rewrite A.
    change (merge (l :: t)) with (merge (l :: t)). f_equal. apply (IH (l :: t)); [simpl in *; lia|exact B]. }
  intros H. exact (G (length s) s (le_n _) H).
Qed.
Lemma teqb_eq a : forall b, teqb a b = true <-> a = b.
Proof.
  induction a as [|x a IH]; intros [|y b]; simpl; try (split; [discriminate|discriminate]); [split; reflexivity|].
  rewrite andb_true_iff, Z.eqb_eq, IH. split; [intros (-> & ->); reflexivity|intros E; injection E; auto].
Qed.
Lemma put_new (l : list (text * value)) k v : ~ In k (map fst l) -> put l k v = l ++ [(k, v)].
Proof.
  induction l as [|(k', v') l IH]; intros H; [reflexivity|]. simpl in *. destruct (teqb k' k) eqn:E; [apply teqb_eq in E; tauto|]. rewrite IH; tauto.
Qed.
Lemma dict_of_nodup (l : list (text * value)) : NoDup (map fst l) -> dict_of l = VDict (map (fun kv => (KStr F (fst kv), snd kv)) l).
Proof.
  intros H. unfold dict_of. f_equal. f_equal.
  assert (G : forall l d : list (text * value), NoDup (map fst (d ++ l)) -> fold_left (fun d kv => put d (fst kv) (snd kv)) l d = d ++ l).
  { clear l H. induction l as [|(k, v) l IH]; intros d H; simpl; [rewrite app_nil_r; reflexivity|].
    rewrite put_new. 2:{ rewrite map_app in H. simpl in H. apply NoDup_remove_2 in H. intros Hi. apply H. apply in_or_app. auto. }
    rewrite IH; rewrite <- app_assoc; [reflexivity|exact H]. }
  apply (G l []). exact H.
Qed.
Lemma norm_plain v : plain v -> well_coded v /\ norm v = v.
Proof.
  induction v as [|b|z|x|s|l IH|l IH] using val_ind; intros H; try (split; [constructor|reflexivity]).
  - inversion H; subst. split; [constructor; assumption|]. cbn [norm]. rewrite merge_id; auto.
  - inversion H as [| | | | |l' Hl|]; subst. rewrite Forall_forall in IH, Hl. split; [constructor; apply Forall_forall; intros w Hw; apply IH; auto|].
    cbn [norm]. f_equal. transitivity (map (fun x => x) l); [|apply map_id]. apply map_ext_in. intros w Hw. apply IH; auto.
  - inversion H as [| | | | | |l' Hn Hl]; subst. rewrite Forall_forall in IH, Hl. split.
    + constructor. apply Forall_forall. intros w Hw. destruct (Hl w Hw) as ((s & Es & Hs & _) & Hp). split; [intros s' E'; rewrite Es in E'; injection E' as <-; exact Hs|]. apply IH; auto.
    + cbn [norm]. assert (E : map (fun kv => (KStr F (fst kv), snd kv)) (map (fun kv => (merge (key_text frepr (fst kv)), norm (snd kv))) l) = l).
      { rewrite map_map. transitivity (map (fun x => x) l); [|apply map_id]. apply map_ext_in. intros (k, w) Hw. destruct (Hl _ Hw) as ((s & Es & _ & Hs) & Hp). cbn [fst snd] in *. subst k. cbn [key_text]. rewrite merge_id by exact Hs.
        pose proof (proj2 (IH _ Hw Hp)) as E1; cbn [snd] in E1; rewrite E1. reflexivity. }
      rewrite dict_of_nodup; [rewrite E; reflexivity|]. apply (NoDup_map_inv (KStr F)).
      rewrite map_map. cbn [fst]. rewrite <- E in Hn. rewrite !map_map in Hn. cbn [fst] in Hn. rewrite map_map. exact Hn.
Qed.
Lemma round_trip v : plain v -> loads fread (dumps v) = Some v.
Proof. intros H. destruct (norm_plain H) as (Hw & E). rewrite (loads_norm Hw), E. reflexivity. Qed.
End Json.
