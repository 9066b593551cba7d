(** C53: the arithmetic of the numbers of fixed precision (float1024). *)
From Coq Require Import QArith Qabs ZArith Bool List Lia.
From Verif Require Import M_Base M_Fixed S_Fixed P_Fixed P_FixedMain P_FixedConv P_FixedProps P_FixedSign.
From Verif Require S_Float.
Import ListNotations.
Local Open Scope Z_scope.

(** Sums, differences, products and quotients of numbers are the exact ones, rounded to
    the nearest number of the precision, ties to even; and again numbers of the
    precision. *)
Theorem C53_results_are_correctly_rounded :
  forall p o x y, 2 <= p -> number p x -> number p y -> finite x = true -> finite y = true ->
    (o = Odiv -> ~ (val y == 0)%Q) ->
    finite (binary p o x y) = true /\ number p (binary p o x y) /\
    nearest (fixed p) (exact o (val x) (val y)) (val (binary p o x y)).
Proof. exact binary_ok. Qed.
Print Assumptions C53_results_are_correctly_rounded.

(** One third, in eight bits; and the hypotheses for 1024 bits. *)
Example C53_results_apply :
  binary 8 Odiv (Num false 1 0) (Num false 3 0) = Num false 171 (-9) /\
  binary 8 Oadd (Num false 255 0) (Num true 1 (-1)) = Num false 127 1 /\
  number 1024 (Num false 1 0) /\ number 1024 (Num false 3 0) /\ ~ (val (Num false 3 0) == 0)%Q.
Proof. repeat split; try reflexivity. intros H. discriminate H. Qed.

(** The nearest number is determined by the exact result, and the rounding never swaps
    two numbers. *)
Theorem C53_rounding_is_unique_and_monotone :
  forall p x x' y y', 1 <= p -> nearest (fixed p) x y -> nearest (fixed p) x' y' ->
    ((x == x')%Q -> (y == y')%Q) /\ ((x <= x')%Q -> (y <= y')%Q).
Proof. exact unique_monotone. Qed.
Print Assumptions C53_rounding_is_unique_and_monotone.

Example C53_rounding_applies : nearest (fixed 8) (511 # 2) 256 /\ nearest (fixed 8) (1 # 3) (171 # 512).
Proof.
  split.
  - destruct (@C53_results_are_correctly_rounded 8 Oadd (Num false 255 0) (Num false 1 (-1))) as (_ & _ & H);
      [lia | split; reflexivity | split; reflexivity | reflexivity | reflexivity | discriminate |].
    eapply nearest_eq; [| |exact H]; reflexivity.
  - destruct (@C53_results_are_correctly_rounded 8 Odiv (Num false 1 0) (Num false 3 0)) as (_ & _ & H);
      [lia | split; reflexivity | split; reflexivity | reflexivity | reflexivity | intros _ E; discriminate E |].
    eapply nearest_eq; [| |exact H]; reflexivity.
Qed.

(** The result is a NaN exactly when there is none, and infinite exactly when an operand
    is (or for a division by zero), with the sign of IEEE 754. No other operation
    overflows. *)
Theorem C53_exceptional_results :
  forall p o x y, 2 <= p ->
    (binary p o x y = NaN <-> undefined o x y) /\
    (~ undefined o x y ->
       (is_inf (binary p o x y) = true <-> infinite o x y) /\
       (infinite o x y -> binary p o x y = Inf (infinite_sign o x y))).
Proof. exact exceptional_ok. Qed.
Print Assumptions C53_exceptional_results.

Example C53_exceptional_applies :
  undefined Osub (Inf false) (Inf false) /\ ~ undefined Odiv (Num true 1 0) (Zero false) /\ infinite Odiv (Num true 1 0) (Zero false) /\
  binary 1024 Odiv (Num true 1 0) (Zero false) = Inf true.
Proof.
  split; [right; right; repeat split|]. split; [intros [H|[H|[[H _]|[H _]]]]; discriminate|]. split; [right; reflexivity|reflexivity].
Qed.

(** A result is zero exactly when the exact result is: nothing underflows. Signs of
    products and quotients multiply, and a sum that is zero is -0 only for -0 + -0. *)
Theorem C53_zeros_and_signs :
  forall p o x y, 2 <= p -> number p x -> number p y -> finite x = true -> finite y = true -> (o = Odiv -> ~ (val y == 0)%Q) ->
    (is_zero (binary p o x y) = true <-> (exact o (val x) (val y) == 0)%Q) /\
    match o with
    | Omul | Odiv => negative (binary p o x y) = xorb (negative x) (negative y)
    | Oadd => (val x + val y == 0)%Q -> negative (binary p o x y) = negative x && negative y
    | Osub => (val x - val y == 0)%Q -> negative (binary p o x y) = negative x && negb (negative y)
    end.
Proof. exact signs_ok. Qed.
Print Assumptions C53_zeros_and_signs.

Theorem C53_division_by_infinity :
  forall p x s, finite x = true -> binary p Odiv x (Inf s) = Zero (xorb (negative x) s).
Proof. exact quotient_inf. Qed.
Print Assumptions C53_division_by_infinity.

Example C53_signs_apply :
  binary 1024 Omul (Num false 1 (-100000)) (Num true 1 (-100000)) = Num true 1 (-200000) /\
  binary 1024 Oadd (Num true 3 7) (Num false 3 7) = Zero false /\ binary 1024 Oadd (Zero true) (Zero true) = Zero true.
Proof. repeat split; vm_compute; reflexivity. Qed.

(** -x and abs(x), for users of the C++ header, are exact. *)
Theorem C53_opposite_and_absolute_value :
  forall p x, 2 <= p -> number p x ->
    number p (neg p x) /\ number p (abs p x) /\
    (x = NaN -> neg p x = NaN /\ abs p x = NaN) /\
    (x <> NaN -> negative (neg p x) = negb (negative x) /\ negative (abs p x) = false /\
       is_inf (neg p x) = is_inf x /\ is_inf (abs p x) = is_inf x /\
       (finite x = true -> finite (neg p x) = true /\ finite (abs p x) = true /\
          (val (neg p x) == - val x)%Q /\ (val (abs p x) == Qabs (val x))%Q)).
Proof. exact neg_abs_ok. Qed.
Print Assumptions C53_opposite_and_absolute_value.

Example C53_opposite_applies : number 8 (Num true 171 (-9)) /\ neg 8 (Num true 171 (-9)) = Num false 171 (-9).
Proof. repeat split. Qed.

(** The six comparisons are those of the numbers, with the infinities, unless one of the
    operands is a NaN. *)
Theorem C53_comparisons_follow_the_numbers :
  forall x y, x <> NaN -> y <> NaN ->
    (related Rlt x y = true <-> less x y) /\ (related Rgt x y = true <-> less y x) /\
    (related Rle x y = true <-> less x y \/ same x y) /\ (related Rge x y = true <-> less y x \/ same x y) /\
    (related Req x y = true <-> same x y) /\ (related Rne x y = true <-> ~ same x y) /\
    (finite x = true -> finite y = true -> (same x y <-> (val x == val y)%Q)).
Proof. exact comparisons_ok. Qed.
Print Assumptions C53_comparisons_follow_the_numbers.

Example C53_comparisons_apply : less (Num true 3 5) (Num false 1 (-9)) /\ same (Zero true) (Zero false) /\ less (Num false 1 5000) (Inf false).
Proof. split; [reflexivity|]. split; [|exact I]. repeat split; try discriminate; intros H; discriminate H. Qed.

(** A float as the other operand stands for its own value: no digit is lost. *)
Theorem C53_floats_are_taken_exactly :
  forall p d, 53 <= p -> is_double d ->
    construct p (Some (OFloat d)) = Ok d /\
    (forall o x, py_binary p o x (OFloat d) = Ok (binary p o x d) /\ py_reflected p o (OFloat d) x = Ok (binary p o d x)) /\
    (forall r x, py_related p r x (OFloat d) = Ok (related r x d)).
Proof. exact floats_ok. Qed.
Print Assumptions C53_floats_are_taken_exactly.

(** 0.1 as a float, and the smallest float. *)
Example C53_floats_apply : is_double (Num false 3602879701896397 (-55)) /\ is_double (Num true 1 (-1074)).
Proof. repeat split; simpl; lia. Qed.

(** An int as the other operand goes through a float: up to 2^53 its value is kept, and
    above it becomes the nearest float, or a TypeError if there is none. *)
Theorem C53_ints_partial :
  forall p z, 53 <= p ->
    (Z.abs z <= 2 ^ 53 -> exists v, argument p (OInt z) = Ok v /\ finite v = true /\ (val v == inject_Z z)%Q) /\
    exists y, nearest double (inject_Z z) y /\
      ((Qabs y < pow2 1024)%Q -> exists v, argument p (OInt z) = Ok v /\ finite v = true /\ (val v == y)%Q) /\
      ((pow2 1024 <= Qabs y)%Q -> argument p (OInt z) = Err Throw).
Proof. exact ints_ok. Qed.
Print Assumptions C53_ints_partial.

Example C53_ints_apply : argument 1024 (OInt 5) = Ok (Num false 5 0) /\ argument 1024 (OInt (-6)) = Ok (Num true 3 1).
Proof. split; vm_compute; reflexivity. Qed.

(** Full statement: ints of at most [p] bits stand for their own value. It is false: *)
Theorem C53_ints_refuted :
  ~ (forall z, Z.abs z < 2 ^ 1024 -> exists v, argument 1024 (OInt z) = Ok v /\ (val v == inject_Z z)%Q).
Proof. exact ints_false. Qed.
Print Assumptions C53_ints_refuted.
(** FixedFloat(2**53 + 1) is 2**53, though 1024 bits hold it; and FixedFloat(2**1023 * 2 - 1)
    is a TypeError. *)
Example C53_ints_witnesses :
  argument 1024 (OInt (2 ^ 53 + 1)) = Ok (Num false 1 53) /\ argument 1024 (OInt (2 ^ 1024 - 1)) = Err Throw.
Proof. split; vm_compute; reflexivity. Qed.

(** x op= other: afterwards x is the result; other names keep their numbers, unless they
    are names of the same object. *)
Theorem C53_inplace_partial :
  forall p o s x other s', py_inplace p o s x other = Ok s' ->
    exists v y, lookup s x = Some v /\ argument p other = Ok y /\ lookup s' x = Some (binary p o v y) /\
      (forall n, n <> x -> bound s n -> vars s n <> vars s x -> lookup s' n = lookup s n) /\
      (forall n, n <> x -> vars s n = vars s x -> lookup s' n = Some (binary p o v y)).
Proof. exact inplace_ok. Qed.
Print Assumptions C53_inplace_partial.

Definition two_names : store := mkS [Num false 1 0; Num false 3 0] (fun n => match n with 2%nat => 1%nat | _ => 0%nat end).
Example C53_inplace_applies :
  match py_inplace 1024 Oadd two_names 0 (OFloat (Num false 1 1)) with
  | Ok s' => lookup s' 0 = Some (Num false 3 0) /\ lookup s' 1 = Some (Num false 3 0) /\ lookup s' 2 = Some (Num false 3 0)
  | Err _ => False
  end.
Proof. vm_compute. auto. Qed.

(** Full statement: no other name changes, as for the numbers of Python. It is false:
    after y = x, x += 2 changes y. *)
Theorem C53_inplace_refuted :
  ~ (forall p o s x other s' n, py_inplace p o s x other = Ok s' -> n <> x -> bound s n -> lookup s' n = lookup s n).
Proof. exact inplace_false. Qed.
Print Assumptions C53_inplace_refuted.

(** A NaN equals every number, also itself; FixedFloat() is one. *)
Theorem C53_nan_refuted :
  ~ (forall y, related Req default y = false) /\ (forall y, related Req default y = true /\ related Rlt default y = false /\ related Rle default y = true).
Proof. exact nan_false. Qed.
Print Assumptions C53_nan_refuted.

(** x == other raises TypeError if other is not a number, where Python's numbers answer
    False. *)
Theorem C53_equality_with_other_objects_refuted :
  ~ (forall p x, py_related p Req x (OOther None) = Ok false) /\ (forall p r x, py_related p r x (OOther None) = Err Throw).
Proof. exact equality_false. Qed.
Print Assumptions C53_equality_with_other_objects_refuted.

(** x.isinf() and x.signbit() answer whether x is a NaN. *)
Theorem C53_predicates_refuted :
  (forall x, py_isnan x = true <-> x = NaN) /\
  ~ (forall x, py_isinf x = is_inf x) /\ ~ (forall x, x <> NaN -> py_signbit x = negative x).
Proof. exact predicates_false. Qed.
Print Assumptions C53_predicates_refuted.

(** Sums, differences and products of whole numbers are those of the cost models of
    finite precision: the whole number nearest to the exact result (see C49). *)
Theorem C53_whole_numbers :
  forall p o x y a b, 2 <= p -> o <> Odiv -> number p x -> number p y -> finite x = true -> finite y = true ->
    (val x == inject_Z a)%Q -> (val y == inject_Z b)%Q ->
    (val (binary p o x y) == inject_Z (S_Float.nearest (Z.to_nat p) (whole_op o a b)))%Q.
Proof. exact whole_ok. Qed.
Print Assumptions C53_whole_numbers.

Example C53_whole_applies : (val (Num false 5 1) == inject_Z 10)%Q /\ binary 4 Omul (Num false 5 1) (Num false 7 0) = Num false 9 3 /\
  S_Float.nearest 4 70 = 72.
Proof. repeat split. Qed.
