(** Lemmas about bitsets. *)
From Coq Require Import Sorted Permutation.
From Verif Require Import M_Base M_Bitset P_Base.
Set Implicit Arguments.
Unset Strict Implicit.

Lemma btest_lt b i : btest b i = true -> i < length b.
Proof.
  intros H. destruct (le_lt_dec (length b) i) as [Hle|]; auto.
  unfold btest in H. rewrite nth_overflow in H by auto. discriminate.
Qed.
Lemma btest_over b i : length b <= i -> btest b i = false.
Proof. apply nth_overflow. Qed.

Lemma bitset_ext a b : length a = length b -> (forall i, btest a i = btest b i) -> a = b.
Proof. intros Hl H. apply nth_ext with (d := false) (d' := false); [auto|intros i _; apply H]. Qed.

Lemma map2_nth f (a b : bitset) i : length a = length b -> f false false = false ->
  btest (map2 f a b) i = f (btest a i) (btest b i).
Proof.
  intros Hl Hf. unfold btest. revert b i Hl. induction a as [|x a IH]; intros [|y b] [|i] Hl; simpl in *;
    try discriminate; auto.
Qed.
Lemma map2_len (f : bool -> bool -> bool) (a b : bitset) : length a = length b -> length (map2 f a b) = length a.
Proof. intros H. rewrite map2_length. lia. Qed.

Lemma band_test a b i : length a = length b -> btest (band a b) i = btest a i && btest b i.
Proof. intros. apply map2_nth; auto. Qed.
Lemma bor_test a b i : length a = length b -> btest (bor a b) i = btest a i || btest b i.
Proof. intros. apply map2_nth; auto. Qed.
Lemma bxor_test a b i : length a = length b -> btest (bxor a b) i = xorb (btest a i) (btest b i).
Proof. intros. apply map2_nth; auto. Qed.
Lemma bdiff_test a b i : length a = length b -> btest (bdiff a b) i = btest a i && negb (btest b i).
Proof. intros. unfold bdiff. rewrite map2_nth; auto. Qed.
Lemma bnot_test a i : i < length a -> btest (bnot a) i = negb (btest a i).
Proof.
  intros H. unfold btest, bnot. rewrite nth_indep with (d' := negb false) by (rewrite map_length; auto).
  apply map_nth.
Qed.
Lemma band_len a b : length a = length b -> length (band a b) = length a.
Proof. apply map2_len. Qed.
Lemma bor_len a b : length a = length b -> length (bor a b) = length a.
Proof. apply map2_len. Qed.
Lemma bxor_len a b : length a = length b -> length (bxor a b) = length a.
Proof. apply map2_len. Qed.
Lemma bdiff_len a b : length a = length b -> length (bdiff a b) = length a.
Proof. apply map2_len. Qed.
Lemma bnot_len a : length (bnot a) = length a.
Proof. apply map_length. Qed.

Lemma bempty_test n i : btest (bempty n) i = false.
Proof. unfold btest, bempty. revert i. induction n; intros [|i]; simpl; auto. Qed.
Lemma bempty_len n : length (bempty n) = n.
Proof. apply repeat_length. Qed.

Lemma upd_test b i x j : btest (upd b i x) j = if (i =? j) && (i <? length b) then x else btest b j.
Proof.
  unfold btest.
  pose proof (upd_nth b i j x) as H.
  assert (G : forall (l : bitset) k, nth k l false = match nth_error l k with Some v => v | None => false end).
  { clear. induction l as [|y l IH]; intros [|k]; simpl; auto. }
  rewrite !G, H. destruct ((i =? j) && (i <? length b)); auto.
Qed.

Lemma bset_test b i j : i < length b -> btest (bset b i) j = (i =? j) || btest b j.
Proof.
  intros H. unfold bset. rewrite upd_test. apply Nat.ltb_lt in H. rewrite H, andb_true_r.
  destruct (i =? j); auto.
Qed.
Lemma breset_test b i j : btest (breset b i) j = negb (i =? j) && btest b j.
Proof.
  unfold breset. rewrite upd_test. destruct (Nat.eqb_spec i j) as [->|]; simpl; auto.
  destruct (Nat.ltb_spec j (length b)); auto. apply btest_over; auto.
Qed.

Lemma bany_spec a : bany a = true <-> exists i, btest a i = true.
Proof.
  unfold bany. rewrite existsb_exists. split.
  - intros (x & Hx & E). apply In_nth_error in Hx. destruct Hx as (i & Hi). exists i.
    unfold btest. erewrite nth_error_nth; eauto. 
  - intros (i & Hi). exists true. split; auto. pose proof (btest_lt Hi). unfold btest in Hi.
    rewrite <- Hi. apply nth_In. auto.
Qed.
Lemma bany_false a : bany a = false <-> forall i, btest a i = false.
Proof.
  rewrite <- not_true_iff_false, bany_spec. split.
  - intros H i. destruct (btest a i) eqn:E; auto. exfalso; eauto.
  - intros H (i & Hi). rewrite H in Hi. discriminate.
Qed.

Lemma bintersects_spec a b : length a = length b ->
  (bintersects a b = true <-> exists i, btest a i = true /\ btest b i = true).
Proof.
  intros Hl. unfold bintersects. rewrite bany_spec. split; intros (i & Hi); exists i.
  - rewrite band_test in Hi by auto. apply andb_prop in Hi. auto.
  - rewrite band_test by auto. destruct Hi as (-> & ->). auto.
Qed.
Lemma bsubset_spec a b : length a = length b ->
  (bsubset a b = true <-> forall i, btest a i = true -> btest b i = true).
Proof.
  intros Hl. unfold bsubset. rewrite negb_true_iff, bany_false. split.
  - intros H i Hi. specialize (H i). rewrite bdiff_test, Hi in H by auto. simpl in H.
    destruct (btest b i); auto; discriminate.
  - intros H i. rewrite bdiff_test by auto. destruct (btest a i) eqn:E; auto. rewrite (H i E). auto.
Qed.
Lemma beqb_spec a b : beqb a b = true <-> a = b.
Proof.
  revert b. induction a as [|x a IH]; intros [|y b]; simpl; split; intros H; try discriminate; auto.
  - apply andb_prop in H. destruct H as (H1 & H2). apply eqb_prop in H1. apply IH in H2. congruence.
  - inversion H; subst. rewrite eqb_reflx. simpl. apply IH. auto.
Qed.
Lemma bproper_spec a b : length a = length b ->
  (bproper a b = true <-> (forall i, btest a i = true -> btest b i = true) /\
                          (exists i, btest b i = true /\ btest a i = false)).
Proof.
  intros Hl. unfold bproper. rewrite andb_true_iff, bsubset_spec, negb_true_iff by auto. split.
  - intros (H & E). split; auto.
    destruct (bany (bdiff b a)) eqn:Ea.
    + apply bany_spec in Ea. destruct Ea as (i & Hi). rewrite bdiff_test in Hi by auto.
      apply andb_prop in Hi. destruct Hi as (H1 & H2). apply negb_true_iff in H2. eauto.
    + exfalso. rewrite bany_false in Ea. rewrite <- not_true_iff_false in E. apply E. apply beqb_spec.
      apply bitset_ext; auto. intros i. specialize (Ea i). rewrite bdiff_test in Ea by auto.
      specialize (H i). destruct (btest a i), (btest b i); simpl in *; intuition congruence.
  - intros (H & i & H1 & H2). split; auto. rewrite <- not_true_iff_false, beqb_spec. intros ->. congruence.
Qed.

Lemma bpositions_in b i : In i (bpositions b) <-> btest b i = true.
Proof.
  unfold bpositions. rewrite filter_In, in_seq. split; [tauto|].
  intros H. split; auto. apply btest_lt in H. lia.
Qed.
Lemma filter_sorted f s n : StronglySorted lt (filter f (seq s n)).
Proof.
  revert s. induction n as [|n IH]; simpl; intros s; [constructor|]. destruct (f s); auto.
  constructor; auto. apply Forall_forall. intros x Hx. apply filter_In in Hx. destruct Hx as (Hx & _).
  apply in_seq in Hx. lia.
Qed.
Lemma bpositions_sorted b : StronglySorted lt (bpositions b).
Proof. apply filter_sorted. Qed.
Lemma ssorted_nodup l : StronglySorted lt l -> NoDup l.
Proof.
  induction 1 as [|x l H IH HF]; constructor; auto. intros Hi. rewrite Forall_forall in HF.
  specialize (HF x Hi). lia.
Qed.
Lemma bpositions_nodup b : NoDup (bpositions b).
Proof. apply ssorted_nodup, bpositions_sorted. Qed.

Lemma filter_shift (b : bitset) x s n :
  length (filter (btest (x :: b)) (seq (S s) n)) = length (filter (btest b) (seq s n)).
Proof.
  revert s. induction n as [|n IH]; simpl; intros s; auto.
  change (btest (x :: b) (S s)) with (btest b s). destruct (btest b s); simpl; auto.
Qed.
Lemma bcount_spec b : bcount b = length (bpositions b).
Proof.
  unfold bcount, bpositions. induction b as [|x b IH]; simpl; auto.
  change (btest (x :: b) 0) with x. destruct x; simpl; rewrite IH, filter_shift; auto.
Qed.

(** ** the visit loop *)
Lemma find_from_spec b i : match find_from b i with
  | Some q => i <= q /\ btest b q = true /\ (forall j, i <= j < q -> btest b j = false)
  | None => forall j, i <= j -> btest b j = false end.
Proof.
  revert i. induction b as [|x b IH]; intros i.
  - simpl. intros j _. destruct j; auto.
  - destruct i as [|i].
    + destruct x; simpl.
      * repeat split; auto; lia.
      * specialize (IH 0). destruct (find_from b 0) as [q|]; simpl.
        -- destruct IH as (H1 & H2 & H3). repeat split; try lia; auto.
           intros [|j] Hj; auto. apply (H3 j). lia.
        -- intros [|j] _; auto. apply (IH j). lia.
    + assert (E : find_from (x :: b) (S i) = option_map S (find_from b i)) by (destruct x; auto).
      rewrite E. specialize (IH i). destruct (find_from b i) as [q|]; simpl.
      * destruct IH as (H1 & H2 & H3). repeat split; try lia; auto.
        intros [|j] Hj; try lia. apply (H3 j). lia.
      * intros [|j] Hj; try lia. apply (IH j). lia.
Qed.

Lemma filter_seq_skip f s n q : s <= q < s + n -> (forall j, s <= j < q -> f j = false) -> f q = true ->
  filter f (seq s n) = q :: filter f (seq (S q) (s + n - S q)).
Proof.
  revert s. induction n as [|n IH]; simpl; intros s H Hf Hq; [lia|].
  destruct (Nat.eq_dec s q) as [->|Hne].
  - rewrite Hq. replace (q + S n - S q) with n by lia. auto.
  - rewrite (Hf s) by lia. rewrite IH; auto; try lia.
    + replace (S s + n - S q) with (s + S n - S q) by lia. auto.
    + intros j Hj. apply Hf. lia.
Qed.
Lemma filter_none (A : Type) (f : A -> bool) l : (forall x, In x l -> f x = false) -> filter f l = [].
Proof. induction l as [|x l IH]; simpl; intros H; auto. rewrite (H x), IH; auto. Qed.

Lemma visit_loop_ok b : forall n i fuel acc, length b - i <= n -> n < fuel ->
  visit_loop fuel b (find_from b i) acc = Ok (acc ++ filter (btest b) (seq i (length b - i))).
Proof.
  induction n as [|n IH]; intros i fuel acc Hn Hf; pose proof (find_from_spec b i) as Hs;
    destruct (find_from b i) as [q|].
  - destruct Hs as (H1 & H2 & H3). apply btest_lt in H2. lia.
  - destruct fuel; simpl; replace (length b - i) with 0 by lia; simpl; rewrite app_nil_r; auto.
  - destruct Hs as (H1 & H2 & H3). pose proof (btest_lt H2) as Hq. destruct fuel as [|fuel]; [lia|].
    simpl. rewrite IH by lia. rewrite (filter_seq_skip (s := i) (q := q)) by (auto; lia).
    rewrite <- app_assoc. simpl. replace (i + (length b - i) - S q) with (length b - S q) by lia. auto.
  - assert (E : filter (btest b) (seq i (length b - i)) = []).
    { apply filter_none. intros x Hx. apply in_seq in Hx. apply Hs. lia. }
    rewrite E, app_nil_r. destruct fuel; auto.
Qed.

Lemma positions_loop_ok b : positions_loop b = Ok (bpositions b).
Proof.
  unfold positions_loop. rewrite (@visit_loop_ok b (length b) 0) by lia.
  rewrite Nat.sub_0_r. reflexivity.
Qed.

(** ** constructors *)
Lemma bset_all_ok b pos : (forall x, In x pos -> x < length b) ->
  exists b', bset_all b pos = Ok b' /\ length b' = length b /\
    forall i, btest b' i = true <-> btest b i = true \/ In i pos.
Proof.
  revert b. induction pos as [|x pos IH]; simpl; intros b H.
  - exists b. repeat split; auto. intros [|[]]; auto.
  - pose proof (H x (or_introl eq_refl)) as Hx.
    rewrite (proj2 (Nat.leb_gt _ _)) by auto.
    destruct (IH (bset b x)) as (b' & E & L & T).
    { intros y Hy. unfold bset. rewrite upd_length. auto. }
    unfold bset in L. rewrite upd_length in L. exists b'. repeat split; auto.
    + intros Hi. apply T in Hi. rewrite bset_test in Hi by auto.
      destruct Hi as [Hi|Hi]; auto. apply orb_prop in Hi. destruct Hi as [Hi|Hi]; auto.
      apply Nat.eqb_eq in Hi. auto.
    + intros Hi. apply T. rewrite bset_test by auto. rewrite orb_true_iff, Nat.eqb_eq. tauto.
Qed.
Lemma bset_all_throw b pos x : In x pos -> length b <= x -> bset_all b pos = Err Throw.
Proof.
  revert b. induction pos as [|y pos IH]; simpl; intros b Hi Hx; [tauto|].
  destruct (Nat.leb_spec (length b) y); auto.
  destruct Hi as [->|Hi]; [lia|]. apply IH; auto. unfold bset. rewrite upd_length. auto.
Qed.

Lemma of_positions_ok pos n : (forall x, In x pos -> x < n) ->
  exists b, of_positions pos n = Ok b /\ length b = n /\ forall i, btest b i = true <-> In i pos.
Proof.
  intros H. destruct (@bset_all_ok (bempty n) pos) as (b & E & L & T).
  - rewrite bempty_len. auto.
  - exists b. rewrite bempty_len in L. repeat split; auto.
    + intros Hi. apply T in Hi. rewrite bempty_test in Hi. destruct Hi; [discriminate|auto].
    + intros Hi. apply T. auto.
Qed.
Lemma of_positions_throw pos n x : In x pos -> n <= x -> of_positions pos n = Err Throw.
Proof. intros. eapply bset_all_throw; eauto. rewrite bempty_len. auto. Qed.

Lemma of_positions_inv pos n b : of_positions pos n = Ok b ->
  length b = n /\ forall i, btest b i = true <-> In i pos.
Proof.
  intros H. destruct (Forall_Exists_dec (fun x => x < n) (fun x => lt_dec x n) pos) as [F|F].
  - rewrite Forall_forall in F. destruct (of_positions_ok F) as (b' & E & L & T). assert (b' = b) by congruence. subst. auto.
  - apply Exists_exists in F. destruct F as (x & Hx & Hn). rewrite (of_positions_throw (x := x)) in H; auto; [discriminate|lia].
Qed.

Lemma of_positions_roundtrip b : of_positions (bpositions b) (length b) = Ok b.
Proof.
  destruct (@of_positions_ok (bpositions b) (length b)) as (b' & E & L & T).
  - intros x Hx. apply bpositions_in in Hx. apply btest_lt; auto.
  - rewrite E. f_equal. apply bitset_ext; auto. intros i. specialize (T i). rewrite bpositions_in in T.
    destruct (btest b i), (btest b' i); intuition congruence.
Qed.

Lemma to_chars_map b : to_chars b = map (fun x : bool => if x then 49 else 48) b.
Proof.
  unfold to_chars. induction b as [|x b IH]; simpl; auto. f_equal. rewrite <- IH.
  rewrite <- seq_shift, map_map. apply map_ext. intros i. reflexivity.
Qed.

Lemma of_chars_roundtrip b : of_chars (to_chars b) = Ok b.
Proof.
  unfold of_chars, boost_of_chars. rewrite rev_involutive.
  rewrite (proj2 (forallb_forall _ _)).
  - f_equal. rewrite to_chars_map, map_map. rewrite <- (map_id b) at 2. apply map_ext. intros [|]; auto.
  - intros c Hc. apply in_rev in Hc. rewrite to_chars_map in Hc. apply in_map_iff in Hc.
    destruct Hc as (x & <- & _). destruct x; auto.
Qed.

Lemma of_chars_spec s b : of_chars s = Ok b -> length b = length s /\ to_chars b = s.
Proof.
  unfold of_chars, boost_of_chars. rewrite rev_involutive.
  destruct (forallb _ (rev s)) eqn:E; [|discriminate]. intros H; inversion H; subst. clear H.
  rewrite map_length. split; auto. rewrite to_chars_map, map_map. rewrite <- (map_id s) at 2.
  apply map_ext_in. intros c Hc. rewrite forallb_forall in E. specialize (E c (proj1 (in_rev _ _) Hc)).
  destruct (Nat.eqb_spec c 49); auto. rewrite orb_false_r in E. apply Nat.eqb_eq in E. auto.
Qed.

Lemma has_dup_spec l : has_dup l = false <-> NoDup l.
Proof.
  induction l as [|x l IH]; simpl; split; intros H; try constructor; auto.
  - apply orb_false_iff in H. destruct H as (H & _). intros Hi.
    assert (existsb (Nat.eqb x) l = true); [|congruence]. apply existsb_exists. exists x. split; auto. apply Nat.eqb_refl.
  - apply IH. apply orb_false_iff in H. tauto.
  - inversion H; subst. apply orb_false_iff. split; [|apply IH; auto].
    apply not_true_iff_false. intros E. apply existsb_exists in E. destruct E as (y & Hy & Ey).
    apply Nat.eqb_eq in Ey. subst. auto.
Qed.

Lemma list_max_in l x : In x l -> x <= list_max l.
Proof. intros H. pose proof (proj1 (list_max_le l (list_max l)) (le_n _)) as F. rewrite Forall_forall in F. auto. Qed.

Lemma py_positions_spec pos n :
  (exists b, py_bitset_positions pos n = Ok b) <->
  (NoDup pos /\ exists m, n = Some (Z.of_nat m) /\ forall x, In x pos -> x < m).
Proof.
  unfold py_bitset_positions. split.
  - intros (b & H). destruct (has_dup pos) eqn:D; [discriminate|]. apply has_dup_spec in D.
    split; auto. destruct n as [n|]; [|discriminate].
    destruct (Z.ltb_spec n 0) as [|Hn]; [discriminate|].
    destruct (negb (length pos =? 0) && (n <? Z.of_nat (list_max pos))%Z); [discriminate|].
    exists (Z.to_nat n). split; [f_equal; lia|].
    intros x Hx. destruct (le_lt_dec (Z.to_nat n) x) as [Hle|]; auto.
    rewrite (of_positions_throw Hx Hle) in H. discriminate.
  - intros (D & m & -> & Hm). apply has_dup_spec in D. rewrite D.
    rewrite (proj2 (Z.ltb_ge _ _)) by lia.
    assert (E : negb (length pos =? 0) && (Z.of_nat m <? Z.of_nat (list_max pos))%Z = false).
    { destruct pos as [|x pos]; auto. cbn [length Nat.eqb negb andb]. apply Z.ltb_ge.
      assert (list_max (x :: pos) <= m); [|lia]. apply list_max_le. apply Forall_forall. intros y Hy.
      specialize (Hm y Hy). lia. }
    rewrite E. rewrite Nat2Z.id. destruct (of_positions_ok Hm) as (b & Hb & _). eauto.
Qed.
