From Coq Require Import List Arith NArith Bool Lia Permutation.
Import ListNotations.
From Verif Require Import M_Base M_Path M_PyTree M_OSet M_Tensor M_Symbols S_Symbols P_PyBuild P_Split P_OSet P_Array.
Set Implicit Arguments.
Unset Strict Implicit.
Local Open Scope nat_scope.

Lemma ok_inj (A : Type) (a b : A) : Ok a = Ok b -> a = b.
Proof. congruence. Qed.
Lemma symbol_spec i c : get_symbol i = Ok c -> (i < 26 /\ c = 97 + i \/ 26 <= i < 52 /\ c = 39 + i \/ 52 <= i < 55296 /\ c = i + 140 \/ 55296 <= i < 1112064 /\ c = i + 2048)%N.
Proof.
  unfold get_symbol, letter, chr. destruct (N.ltb_spec i 52); [destruct (N.ltb_spec i 26); intros E; apply ok_inj in E; lia|].
  destruct (N.leb_spec 55296 i).
  - destruct (N.ltb_spec (i + 2048) 1114112); intros E; [apply ok_inj in E; lia|discriminate].
  - destruct (N.ltb_spec (i + 140) 1114112); intros E; [apply ok_inj in E; lia|discriminate].
Qed.
Lemma symbol_total i : (i < 1112064)%N <-> exists c, get_symbol i = Ok c.
Proof.
  split.
  - intros H. unfold get_symbol, chr. destruct (N.ltb_spec i 52); [eauto|]. destruct (N.leb_spec 55296 i).
    + destruct (N.ltb_spec (i + 2048) 1114112); [eauto|lia].
    + destruct (N.ltb_spec (i + 140) 1114112); [eauto|lia].
  - intros (c & E). apply symbol_spec in E. lia.
Qed.
Theorem symbol_injective i j c : get_symbol i = Ok c -> get_symbol j = Ok c -> i = j.
Proof. intros H1 H2. apply symbol_spec in H1, H2. lia. Qed.
Theorem symbol_clean i c : get_symbol i = Ok c -> ~ separator c.
Proof. intros H. apply symbol_spec in H. unfold separator. lia. Qed.
Theorem symbol_surrogate i c : get_symbol i = Ok c -> surrogate c <-> (55156 <= i < 55296)%N.
Proof. intros H. apply symbol_spec in H. unfold surrogate. lia. Qed.

(** ** Subscripts *)
Lemma join_written sym ts out : written sym ts out (join_comma (map (map sym) ts) ++ [dash; gt] ++ map sym out).
Proof.
  induction ts as [|xs ts IH]; [constructor|]. destruct ts as [|ys ts]; [constructor|]. cbn [map join_comma]. rewrite <- app_assoc. cbn [app]. constructor. exact IH.
Qed.
Lemma combine_val (V : Type) (f : nat -> V) (g : nat -> nat) : forall l n k v, (forall i x, nth_error l i = Some x -> g x = n + i) -> In (k, v) (combine l (map f (seq n (length l)))) -> v = f (g k).
Proof.
  induction l as [|x l IH]; intros n k v H; simpl; [tauto|]. intros [E|E].
  - inversion E; subst. rewrite (H 0 k eq_refl), Nat.add_0_r. auto.
  - apply (IH (S n) k v); auto. intros i y Hy. rewrite (H (S i) y Hy). lia.
Qed.
Lemma mapM_ok (A B : Type) (f : A -> res B) (g : A -> B) l : (forall a, In a l -> f a = Ok (g a)) -> mapM f l = Ok (map g l).
Proof. induction l as [|a l IH]; simpl; intros H; auto. rewrite (H a), IH by auto. reflexivity. Qed.
Lemma mapM_err (A B : Type) (f : A -> res B) l a : In a l -> f a = Err Throw -> (forall b, In b l -> (exists c, f b = Ok c) \/ f b = Err Throw) -> mapM f l = Err Throw.
Proof.
  induction l as [|b l IH]; simpl; [tauto|]. intros Hi Ha H. destruct (H b (or_introl eq_refl)) as [(c & E)|E]; rewrite E; cbn [bind]; auto.
  destruct Hi as [->|Hi]; [congruence|]. rewrite IH; auto.
Qed.
Lemma pos_nth l : NoDup l -> forall i x, nth_error l i = Some x -> position l x = i.
Proof.
  intros HN i x H. destruct (position_in (nth_error_In _ _ H)) as [P1 P2]. apply (proj1 (NoDup_nth_error l) HN); [auto|congruence].
Qed.
Lemma combine_fst_eq (V : Type) (l : list nat) : forall (k : list V), length k = length l -> map fst (combine l k) = l.
Proof. induction l as [|x l IH]; intros [|v k] H; simpl in *; auto; try lia. f_equal. auto. Qed.

Definition sym_of (i : nat) : N := match get_symbol (N.of_nat i) with Ok c => c | Err _ => 0%N end.
Lemma sym_of_ok i : (N.of_nat i < 1112064)%N -> get_symbol (N.of_nat i) = Ok (sym_of i).
Proof. intros H. apply symbol_total in H. destruct H as (c & E). unfold sym_of. rewrite E. auto. Qed.

Theorem subscripts_ok ts out : (N.of_nat (length (nodup Nat.eq_dec (concat ts ++ out))) <= 1112064)%N ->
  exists sym s, get_einsum_subscripts ts out = Ok s /\ readable sym (fun x => In x (concat ts) \/ In x out) /\ written sym ts out s.
Proof.
  intros HL. unfold get_einsum_subscripts. cbv zeta. set (all := unique (concat ts ++ out)).
  assert (Na : NoDup all) by apply unique_nodup.
  assert (Ia : forall x, In x all <-> In x (concat ts) \/ In x out) by (intros x; unfold all; rewrite unique_in, in_app_iff; tauto).
  assert (La : (N.of_nat (length all) <= 1112064)%N).
  { assert (P : Permutation all (nodup Nat.eq_dec (concat ts ++ out))). { apply NoDup_Permutation; auto; [apply NoDup_nodup|]. intros x. rewrite nodup_In, Ia, in_app_iff. tauto. }
    rewrite (Permutation_length P). auto. }
  rewrite (mapM_ok (g := sym_of)) by (intros i Hi; apply in_seq in Hi; apply sym_of_ok; lia). cbn [bind].
  set (sym := fun x => sym_of (position all x)).
  assert (Hd : forall x, In x all -> dict_get (dict_of (combine all (map sym_of (seq 0 (length all))))) x = Ok (sym x)).
  { intros x Hx. apply (dict_of_get (val := sym)).
    - intros k v Hk. apply (@combine_val N sym_of (position all) all 0 k v); auto. intros i y Hy. apply pos_nth; auto.
    - rewrite combine_fst_eq; auto. rewrite map_length, seq_length. auto. }
  assert (Hr : forall xs, (forall x, In x xs -> In x all) -> render (dict_of (combine all (map sym_of (seq 0 (length all))))) xs = Ok (map sym xs)).
  { intros xs H. unfold render. apply mapM_ok. intros x Hx. auto. }
  rewrite (mapM_ok (g := map sym)).
  2:{ intros xs Hx. apply Hr. intros x Hi. apply Ia. left. apply in_concat. eauto. }
  cbn [bind]. rewrite Hr by (intros x Hx; apply Ia; auto). cbn [bind].
  exists sym. eexists. split; [reflexivity|]. split; [|apply join_written].
  assert (Hs : forall x, In x all -> get_symbol (N.of_nat (position all x)) = Ok (sym x)).
  { intros x Hx. destruct (position_in Hx) as [_ P]. apply sym_of_ok. lia. }
  split.
  - intros x y Hx Hy. split; [|congruence]. intros E. apply Ia in Hx, Hy. pose proof (Hs x Hx) as E1. pose proof (Hs y Hy) as E2. rewrite E in E1.
    pose proof (symbol_injective E1 E2) as E3. apply Nat2N.inj in E3. destruct (position_in Hx) as [P1 _]. destruct (position_in Hy) as [P2 _]. congruence.
  - intros x Hx. apply Ia in Hx. apply (symbol_clean (Hs x Hx)).
Qed.
Theorem subscripts_raise ts out : (1112064 < N.of_nat (length (nodup Nat.eq_dec (concat ts ++ out))))%N -> get_einsum_subscripts ts out = Err Throw.
Proof.
  intros HL. unfold get_einsum_subscripts. cbv zeta. set (all := unique (concat ts ++ out)).
  assert (La : (1112064 < N.of_nat (length all))%N).
  { assert (P : Permutation all (nodup Nat.eq_dec (concat ts ++ out))). { apply NoDup_Permutation; [apply unique_nodup|apply NoDup_nodup|]. intros x. unfold all. rewrite nodup_In, unique_in. tauto. }
    rewrite (Permutation_length P). auto. }
  assert (Hs : forall i, (exists c, get_symbol i = Ok c) \/ get_symbol i = Err Throw).
  { intros i. unfold get_symbol, chr. destruct (i <? 52)%N; [eauto|]. destruct (55296 <=? i)%N; [destruct (i + 2048 <? 1114112)%N|destruct (i + 140 <? 1114112)%N]; eauto. }
  assert (E : exists big, N.of_nat big = 1112064%N) by (exists (N.to_nat 1112064); apply N2Nat.id). destruct E as (big & E).
  rewrite (mapM_err (a := big)); auto.
  - apply in_seq. lia.
  - rewrite E. reflexivity.
Qed.

(** ** Two tensors *)
Lemma letter_inj i j : (i < 52 -> j < 52 -> letter i = letter j -> i = j)%N.
Proof. unfold letter. destruct (N.ltb_spec i 26), (N.ltb_spec j 26); lia. Qed.
Lemma letter_clean i : (i < 52 -> ~ separator (letter i) /\ (65 <= letter i < 91 \/ 97 <= letter i < 123))%N.
Proof. unfold letter, separator. destruct (N.ltb_spec i 26); lia. Qed.
Lemma combine_firstn (V : Type) (l : list nat) : forall (k : list V), combine l k = combine (firstn (length k) l) k.
Proof. induction l as [|x l IH]; intros [|v k]; simpl; auto. f_equal. auto. Qed.
Lemma combine_map_firstn (f : nat -> N) (l : list nat) : forall n m, combine l (map f (seq n m)) = combine (firstn m l) (map f (seq n (length (firstn m l)))).
Proof. induction l as [|x l IH]; intros n [|m]; simpl; auto. f_equal. apply IH. Qed.
Lemma dict_of_none (V : Type) (l : list (nat * V)) x : ~ In x (map fst l) -> dict_get (dict_of l) x = Err Throw.
Proof.
  unfold dict_of. assert (H : forall d, dict_get d x = Err Throw -> ~ In x (map fst l) -> dict_get (fold_left (fun d e => dict_set d (fst e) (snd e)) l d) x = Err Throw).
  { induction l as [|(k, v) l IH]; intros d Hd Hn; simpl in *; auto. apply IH; [|tauto]. rewrite dict_get_set. destruct (Nat.eqb_spec x k); auto. subst. tauto. }
  apply H. auto.
Qed.
Theorem subscripts2_ok xs ys out : 
  (length (nodup Nat.eq_dec (xs ++ ys ++ out)) <= 52 -> exists sym s, get_einsum_subscripts2 xs ys out = Ok s /\
     readable sym (fun x => In x xs \/ In x ys \/ In x out) /\ written sym [xs; ys] out s /\ forall x, In x xs \/ In x ys \/ In x out -> (65 <= sym x < 91 \/ 97 <= sym x < 123)%N) /\
  (52 < length (nodup Nat.eq_dec (xs ++ ys ++ out)) -> get_einsum_subscripts2 xs ys out = Err Throw).
Proof.
  set (all := unique (xs ++ ys ++ out)).
  assert (Na : NoDup all) by apply unique_nodup.
  assert (Ia : forall x, In x all <-> In x xs \/ In x ys \/ In x out) by (intros x; unfold all; rewrite unique_in, !in_app_iff; tauto).
  assert (La : length (nodup Nat.eq_dec (xs ++ ys ++ out)) = length all).
  { apply Permutation_length. apply NoDup_Permutation; auto; [apply NoDup_nodup|]. intros x. rewrite nodup_In, Ia, !in_app_iff. tauto. }
  rewrite La. unfold get_einsum_subscripts2. cbv zeta. fold all. set (f := fun i => letter (N.of_nat i)). rewrite combine_map_firstn. set (al := firstn 52 all).
  set (d := dict_of _). set (sym := fun x => f (position all x)).
  assert (Hal : forall i x, nth_error al i = Some x -> position all x = 0 + i).
  { intros i x H. apply pos_nth; auto. assert (Li : i < 52). { assert (i < length al) by (apply nth_error_Some; congruence). unfold al in *. rewrite firstn_length in *. lia. }
    unfold al in H. clear -H Li. revert i H Li. generalize 52. induction all as [|y all IH]; intros [|n] [|i] H Li; simpl in *; auto; try discriminate; try lia. apply (IH n); auto. lia. }
  assert (Hd : forall x, In x al -> dict_get d x = Ok (sym x)).
  { intros x Hx. apply (dict_of_get (val := sym)).
    - intros k v Hk. apply (@combine_val N f (position all) al 0 k v); auto.
    - rewrite combine_fst_eq; auto. rewrite map_length, seq_length. auto. }
  assert (Hn : forall x, ~ In x al -> dict_get d x = Err Throw).
  { intros x Hx. apply dict_of_none. rewrite combine_fst_eq; auto. rewrite map_length, seq_length. auto. }
  split.
  - intros L. assert (Eal : al = all) by (apply firstn_all2; auto). rewrite Eal in Hd.
    assert (Hr : forall zs, (forall x, In x zs -> In x all) -> render d zs = Ok (map sym zs)). { intros zs H. unfold render. apply mapM_ok. intros x Hx. auto. }
    rewrite !Hr by (intros x Hx; apply Ia; auto). cbn [bind]. exists sym. eexists. split; [reflexivity|].
    assert (Hp : forall x, In x all -> (N.of_nat (position all x) < 52)%N). { intros x Hx. destruct (position_in Hx) as [_ P]. lia. }
    split; [split|split].
    + intros x y Hx Hy. split; [|congruence]. apply Ia in Hx, Hy. intros E. apply letter_inj in E; auto. apply Nat2N.inj in E.
      destruct (position_in Hx) as [P1 _]. destruct (position_in Hy) as [P2 _]. congruence.
    + intros x Hx. apply Ia in Hx. apply letter_clean. auto.
    + apply w_more. constructor.
    + intros x Hx. apply Ia in Hx. apply letter_clean. auto.
  - intros L. destruct (nth_error all 52) as [x|] eqn:E; [|apply nth_error_None in E; lia]. assert (Hx : In x all) by (eapply nth_error_In; eauto).
    assert (Nx : ~ In x al). { intros H. apply In_nth_error in H. destruct H as (i & H). assert (i < length al) by (apply nth_error_Some; congruence). unfold al in *. rewrite firstn_length in *.
      apply Hal in H. apply pos_nth in E; auto. lia. }
    assert (Hb : forall zs, In x zs -> render d zs = Err Throw). { intros zs Hz. unfold render. apply (mapM_err Hz (Hn x Nx)). intros b _. destruct (in_dec Nat.eq_dec b al); eauto. }
    assert (Hg : forall zs, (exists s, render d zs = Ok s) \/ render d zs = Err Throw).
    { intros zs. unfold render. clear -Hn Hd. induction zs as [|z zs IH]; simpl; [eauto|]. destruct (in_dec Nat.eq_dec z al) as [I|I]; [rewrite (Hd z I)|rewrite (Hn z I)]; cbn [bind]; auto.
      destruct IH as [(s & ->)| ->]; cbn [bind]; eauto. }
    apply Ia in Hx. destruct (Hg xs) as [(s1 & E1)|E1]; rewrite E1; cbn [bind]; auto. destruct Hx as [Hx|Hx]; [rewrite (Hb xs Hx) in E1; discriminate|].
    destruct (Hg ys) as [(s2 & E2)|E2]; rewrite E2; cbn [bind]; auto. destruct Hx as [Hx|Hx]; [rewrite (Hb ys Hx) in E2; discriminate|]. rewrite (Hb out Hx). auto.
Qed.
