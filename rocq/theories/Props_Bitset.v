(** Property C06: Bitset is a faithful finite set. [btest b i] is bit [i]. *)
From Coq Require Import Sorted.
From Verif Require Import M_Base M_Bitset P_BitsetMain.

Theorem C06_bitset_operators : forall a b : bitset, length a = length b ->
  (length (band a b) = length a /\ length (bor a b) = length a /\ length (bxor a b) = length a /\
   length (bdiff a b) = length a /\ length (bnot a) = length a) /\
  forall i, i < length a ->
    (btest (band a b) i = true <-> btest a i = true /\ btest b i = true) /\
    (btest (bor a b) i = true <-> btest a i = true \/ btest b i = true) /\
    (btest (bxor a b) i = true <-> btest a i <> btest b i) /\
    (btest (bdiff a b) i = true <-> btest a i = true /\ btest b i = false) /\
    (btest (bnot a) i = true <-> btest a i = false).
Proof. exact bitset_ops_lemma. Qed.
Print Assumptions C06_bitset_operators.

Theorem C06_bitset_comparisons : forall a b : bitset, length a = length b ->
  (negb (bintersects a b) = true <-> forall i, ~ (btest a i = true /\ btest b i = true)) /\
  (bsubset a b = true <-> forall i, btest a i = true -> btest b i = true) /\
  (bproper a b = true <-> (forall i, btest a i = true -> btest b i = true) /\
                          (exists i, btest b i = true /\ btest a i = false)) /\
  (beqb a b = true <-> forall i, i < length a -> btest a i = btest b i).
Proof. exact bitset_cmp_lemma. Qed.
Print Assumptions C06_bitset_comparisons.

(** positions() terminates and lists exactly the set bits, increasing; count() is
    their number. *)
Theorem C06_bitset_positions : forall b : bitset, exists ps,
  positions_loop b = Ok ps /\ StronglySorted lt ps /\ length ps = bcount b /\
  forall i, In i ps <-> i < length b /\ btest b i = true.
Proof. exact bitset_positions_lemma. Qed.
Print Assumptions C06_bitset_positions.

Theorem C06_bitset_roundtrips : forall b : bitset,
  (forall ps, positions_loop b = Ok ps -> of_positions ps (length b) = Ok b) /\
  of_chars (to_chars b) = Ok b /\ bunpickle (bpickle b) = Ok b /\
  (forall i, i < length b -> nth i (to_chars b) 0 = if btest b i then 49 else 48).
Proof. exact bitset_roundtrip_lemma. Qed.
Print Assumptions C06_bitset_roundtrips.

(** The Python constructor from positions accepts exactly duplicate-free positions
    below a given size, and builds that set. *)
Theorem C06_bitset_constructor : forall pos n,
  ((exists b, py_bitset_positions pos n = Ok b) <->
   (NoDup pos /\ exists m, n = Some (Z.of_nat m) /\ forall x, In x pos -> x < m)) /\
  (forall b, py_bitset_positions pos n = Ok b ->
     n = Some (Z.of_nat (length b)) /\ forall i, btest b i = true <-> In i pos).
Proof. exact bitset_constructor_lemma. Qed.
Print Assumptions C06_bitset_constructor.

Theorem C06_bitset_string_constructor : forall s n b, py_bitset_string s n = Ok b ->
  (n = None \/ n = Some (Z.of_nat (length s))) /\
  length b = length s /\ to_chars b = s.
Proof. exact bitset_string_lemma. Qed.
Print Assumptions C06_bitset_string_constructor.

Theorem C06_bitset_getitem : forall b i,
  bgetitem b i = if i <? length b then Ok (btest b i) else Err Throw.
Proof. exact bitset_getitem_lemma. Qed.
Print Assumptions C06_bitset_getitem.

Example C06_example : exists b, py_bitset_positions [2; 0] (Some 4%Z) = Ok b /\
  positions_loop b = Ok [0; 2] /\ to_chars b = [49; 48; 49; 48].
Proof. eexists. repeat split. Qed.
