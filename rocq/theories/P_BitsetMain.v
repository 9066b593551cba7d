(** The lemmas behind the property theorems on bitsets, in their final form. *)
From Coq Require Import Sorted.
From Verif Require Import M_Base M_Bitset P_Base P_Bitset.

Lemma bitset_ops_lemma : forall a b : bitset, length a = length b ->
  (length (band a b) = length a /\ length (bor a b) = length a /\ length (bxor a b) = length a /\
   length (bdiff a b) = length a /\ length (bnot a) = length a) /\
  forall i, i < length a ->
    (btest (band a b) i = true <-> btest a i = true /\ btest b i = true) /\
    (btest (bor a b) i = true <-> btest a i = true \/ btest b i = true) /\
    (btest (bxor a b) i = true <-> btest a i <> btest b i) /\
    (btest (bdiff a b) i = true <-> btest a i = true /\ btest b i = false) /\
    (btest (bnot a) i = true <-> btest a i = false).
Proof.
  intros a b Hl. split.
  - rewrite band_len, bor_len, bxor_len, bdiff_len, bnot_len by auto. auto.
  - intros i Hi. rewrite band_test, bor_test, bxor_test, bdiff_test, bnot_test by auto.
    destruct (btest a i), (btest b i); simpl; intuition congruence.
Qed.

Lemma bitset_cmp_lemma : forall a b : bitset, length a = length b ->
  (negb (bintersects a b) = true <-> forall i, ~ (btest a i = true /\ btest b i = true)) /\
  (bsubset a b = true <-> forall i, btest a i = true -> btest b i = true) /\
  (bproper a b = true <-> (forall i, btest a i = true -> btest b i = true) /\
                          (exists i, btest b i = true /\ btest a i = false)) /\
  (beqb a b = true <-> forall i, i < length a -> btest a i = btest b i).
Proof.
  intros a b Hl. split; [|split; [|split]].
  - rewrite negb_true_iff, <- not_true_iff_false, bintersects_spec by auto. firstorder.
  - apply bsubset_spec; auto.
  - apply bproper_spec; auto.
  - rewrite beqb_spec. split; [intros ->; auto|]. intros H. apply bitset_ext; auto.
    intros i. destruct (le_lt_dec (length a) i); auto. rewrite !btest_over by lia. auto.
Qed.

Lemma bitset_positions_lemma : forall b : bitset, exists ps,
  positions_loop b = Ok ps /\ StronglySorted lt ps /\ length ps = bcount b /\
  forall i, In i ps <-> i < length b /\ btest b i = true.
Proof.
  intros b. exists (bpositions b). rewrite positions_loop_ok, bcount_spec.
  repeat split; auto using bpositions_sorted.
  - apply bpositions_in in H. apply btest_lt; auto.
  - apply bpositions_in; auto.
  - intros (_ & H). apply bpositions_in; auto.
Qed.

Lemma bitset_roundtrip_lemma : forall b : bitset,
  (forall ps, positions_loop b = Ok ps -> of_positions ps (length b) = Ok b) /\
  of_chars (to_chars b) = Ok b /\ bunpickle (bpickle b) = Ok b /\
  (forall i, i < length b -> nth i (to_chars b) 0 = if btest b i then 49 else 48).
Proof.
  intros b. split; [|split; [|split]].
  - intros ps E. rewrite positions_loop_ok in E. inversion E; subst. apply of_positions_roundtrip.
  - apply of_chars_roundtrip.
  - apply of_chars_roundtrip.
  - intros i Hi. rewrite to_chars_map. rewrite nth_indep with (d' := (fun x : bool => if x then 49 else 48) false).
    + exact (map_nth (fun x : bool => if x then 49 else 48) b false i).
    + rewrite map_length. auto.
Qed.

Lemma bitset_constructor_lemma : forall pos n,
  ((exists b, py_bitset_positions pos n = Ok b) <->
   (NoDup pos /\ exists m, n = Some (Z.of_nat m) /\ forall x, In x pos -> x < m)) /\
  (forall b, py_bitset_positions pos n = Ok b ->
     n = Some (Z.of_nat (length b)) /\ forall i, btest b i = true <-> In i pos).
Proof.
  intros pos n. split; [apply py_positions_spec|].
  intros b H. assert (Hx : exists b, py_bitset_positions pos n = Ok b) by eauto.
  apply py_positions_spec in Hx. destruct Hx as (_ & m & -> & _).
  unfold py_bitset_positions in H. destruct (has_dup pos); [discriminate|].
  destruct (Z.of_nat m <? 0)%Z; [discriminate|].
  destruct (negb (length pos =? 0) && (Z.of_nat m <? Z.of_nat (list_max pos))%Z); [discriminate|].
  rewrite Nat2Z.id in H. apply of_positions_inv in H. destruct H as (<- & H). auto.
Qed.

Lemma bitset_string_lemma : forall s n b, py_bitset_string s n = Ok b ->
  (n = None \/ n = Some (Z.of_nat (length s))) /\
  length b = length s /\ to_chars b = s.
Proof.
  intros s n b H. unfold py_bitset_string in H. destruct (existsb _ s); [discriminate|].
  destruct n as [n|].
  - destruct (Z.eqb_spec n (Z.of_nat (length s))) as [->|]; [|discriminate].
    apply of_chars_spec in H. tauto.
  - apply of_chars_spec in H. tauto.
Qed.

Lemma bitset_getitem_lemma : forall b i,
  bgetitem b i = if i <? length b then Ok (btest b i) else Err Throw.
Proof.
  intros b i. unfold bgetitem. destruct (Nat.leb_spec (length b) i), (Nat.ltb_spec i (length b)); auto; lia.
Qed.
