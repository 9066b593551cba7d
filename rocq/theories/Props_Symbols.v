(** C29: einsum symbols and subscripts (tnco.utils.tn.get_symbol, get_einsum_subscripts;
    tnco.utils.tensor.get_einsum_subscripts). *)
From Coq Require Import List Arith NArith Lia.
Import ListNotations.
From Verif Require Import M_Base M_Path M_PyTree M_Symbols S_Symbols P_Symbols.

(** C29: different integers get different characters, and none is a separator. There is
    a character for every integer below 1112064, chr raises for the others. *)
Theorem C29_symbols_are_unique i j c : get_symbol i = Ok c -> get_symbol j = Ok c -> i = j.
Proof. exact (@symbol_injective i j c). Qed.
Print Assumptions C29_symbols_are_unique.
Theorem C29_symbols_exist i : (i < 1112064)%N <-> exists c, get_symbol i = Ok c.
Proof. exact (symbol_total i). Qed.
Print Assumptions C29_symbols_exist.
Theorem C29_no_separator i c : get_symbol i = Ok c -> ~ separator c.
Proof. exact (@symbol_clean i c). Qed.
Print Assumptions C29_no_separator.

(** "Never a surrogate" does not hold: exactly the 140 integers from 55156 to 55295 are
    mapped to surrogates (the comparison should be with 55296 - 140). *)
Theorem C29_surrogate_partial i c : get_symbol i = Ok c -> (i < 55156 \/ 55296 <= i)%N -> ~ surrogate c.
Proof. intros H Hi. rewrite (symbol_surrogate H). lia. Qed.
Print Assumptions C29_surrogate_partial.
Theorem C29_surrogate_refuted i : (55156 <= i < 55296)%N -> exists c, get_symbol i = Ok c /\ surrogate c.
Proof. intros Hi. destruct (proj1 (symbol_total i)) as (c & E); [lia|]. exists c. split; auto. apply (symbol_surrogate E). auto. Qed.
Print Assumptions C29_surrogate_refuted.

(** The subscripts string writes every occurrence of an index with one symbol, different
    indices with different symbols, and separators occur nowhere else: the string
    can be read back. There is one for up to 1112064 different indices. *)
Theorem C29_subscripts (ts : list (list nat)) (out : list nat) : (N.of_nat (length (nodup Nat.eq_dec (concat ts ++ out))) <= 1112064)%N ->
  exists sym s, get_einsum_subscripts ts out = Ok s /\ readable sym (fun x => In x (concat ts) \/ In x out) /\ written sym ts out s.
Proof. exact (@subscripts_ok ts out). Qed.
Print Assumptions C29_subscripts.
Theorem C29_subscripts_raise (ts : list (list nat)) (out : list nat) : (1112064 < N.of_nat (length (nodup Nat.eq_dec (concat ts ++ out))))%N ->
  get_einsum_subscripts ts out = Err Throw.
Proof. exact (@subscripts_raise ts out). Qed.
Print Assumptions C29_subscripts_raise.

(** The version for two tensors: letters only, and it raises for more than 52 different
    indices. *)
Theorem C29_subscripts_of_two (xs ys out : list nat) :
  (length (nodup Nat.eq_dec (xs ++ ys ++ out)) <= 52 -> exists sym s, get_einsum_subscripts2 xs ys out = Ok s /\
     readable sym (fun x => In x xs \/ In x ys \/ In x out) /\ written sym [xs; ys] out s /\
     forall x, In x xs \/ In x ys \/ In x out -> (65 <= sym x < 91 \/ 97 <= sym x < 123)%N) /\
  (52 < length (nodup Nat.eq_dec (xs ++ ys ++ out)) -> get_einsum_subscripts2 xs ys out = Err Throw).
Proof. exact (subscripts2_ok xs ys out). Qed.
Print Assumptions C29_subscripts_of_two.

(** "ab,bc,->ac" and "ab,bc->ac" *)
Example C29_applies : get_symbol 51 = Ok 90%N /\ get_symbol 52 = Ok 192%N /\ get_symbol 55296 = Ok 57344%N /\ get_symbol 1112064 = Err Throw /\
  get_einsum_subscripts [[7; 3]; [3; 9]; []] [7; 9] = Ok [97; 98; 44; 98; 99; 44; 45; 62; 97; 99]%N /\
  get_einsum_subscripts2 [7; 3] [3; 9] [7; 9] = Ok [97; 98; 44; 98; 99; 45; 62; 97; 99]%N /\
  get_einsum_subscripts2 (seq 0 30) (seq 20 33) [] = Err Throw.
Proof. repeat split; vm_compute; reflexivity. Qed.
