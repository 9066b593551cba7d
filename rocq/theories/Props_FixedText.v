(** C54: numbers of fixed precision as texts and as floats. *)
From Coq Require Import QArith Qabs ZArith Bool List Lia.
From Verif Require Import M_Base M_Fixed M_FixedText S_Fixed S_FixedText P_FixedText P_FixedFmt P_FixedTextProps P_FixedSign.
Import ListNotations.
Local Open Scope Z_scope.

(** Pickling and unpickling gives back the number, whatever it is. *)
Theorem C54_pickle_round_trip : forall p x, 2 <= p -> number p x -> load p (dump x) = x.
Proof. exact pickle_ok. Qed.
Print Assumptions C54_pickle_round_trip.

(** -171/512 is written "-0x5.58p-4". *)
Example C54_pickle_applies :
  number 8 (Num true 171 (-9)) /\ dump (Num true 171 (-9)) = [45; 48; 120; 53; 46; 53; 56; 112; 45; 52] /\
  load 8 (dump (Num true 171 (-9))) = Num true 171 (-9).
Proof. split; [split; reflexivity|]. split; vm_compute; reflexivity. Qed.

(** FixedFloat("...") of a decimal number, with or without sign, decimals and exponent,
    is the nearest number of the precision. *)
Theorem C54_strings_are_read_correctly_rounded :
  forall p l, 2 <= p -> is_literal l ->
    let r := of_string p 10 (literal_text l) in
    finite r = true /\ number p r /\ nearest (fixed p) (literal_value l) (val r) /\ negative r = is_minus (l_sign l).
Proof. exact literals_ok. Qed.
Print Assumptions C54_strings_are_read_correctly_rounded.

(** "-12.5e+3" *)
Definition some_literal : literal := mkL (Some true) [49; 50] (Some [53]) (Some (101, Some false, [51])).
Example C54_strings_apply :
  is_literal some_literal /\ literal_text some_literal = [45; 49; 50; 46; 53; 101; 43; 51] /\ (literal_value some_literal == inject_Z (-12500))%Q /\
  (val (of_string 1024 10 (literal_text some_literal)) == inject_Z (-12500))%Q.
Proof.
  split; [|split; [reflexivity|split; [reflexivity|vm_compute; reflexivity]]].
  split; [repeat constructor; unfold digit; lia|]. split; [repeat constructor; unfold digit; lia|]. split; [discriminate|].
  split; [auto|]. split; [discriminate|]. repeat constructor; unfold digit; lia.
Qed.

(** Full statement: other texts are refused. It is false: "abc" is 0, "1.5abc" is 1.5
    and "" is a NaN. *)
Theorem C54_bad_strings_refuted :
  ~ (forall p t, of_string p 10 t <> NaN -> exists l, is_literal l /\ t = literal_text l \/ is_inf (of_string p 10 t) = true) /\
  (forall p, of_string p 10 [97; 98; 99] = Zero false /\ of_string p 10 [] = NaN) /\
  of_string 1024 10 [49; 46; 53; 97; 98; 99] = Num false 3 (-1).
Proof. exact garbage_false. Qed.
Print Assumptions C54_bad_strings_refuted.

(** float(x): no float lies between x and float(x); and float(x) is the nearest float if
    x is a long double. *)
Theorem C54_float_partial :
  forall x, finite x = true -> faithful x (to_float x) /\
    (fits long_double (val x) -> finite (to_float x) = true -> nearest double (val x) (val (to_float x))).
Proof. exact float_ok. Qed.
Print Assumptions C54_float_partial.

Example C54_float_applies :
  fits long_double (val (Num false 12345678901234567891 (-60))) /\
  to_float (Num false 12345678901234567891 (-60)) = Num false 6028163525993441 (-49) /\
  to_float (Num false 1 1024) = Inf false.
Proof.
  split; [|split; vm_compute; reflexivity]. exists 12345678901234567891, (-60). split; [reflexivity|]. split; [unfold low_ok; simpl; lia|]. reflexivity.
Qed.

(** Full statement: float(x) is the nearest float. It is false: the number goes through
    a long double and is rounded twice. *)
Theorem C54_float_refuted :
  ~ (forall x, number 1024 x -> finite x = true -> finite (to_float x) = true -> nearest double (val x) (val (to_float x))).
Proof. exact float_false. Qed.
Print Assumptions C54_float_refuted.

(** float(FixedFloat(d)) is d. *)
Theorem C54_float_round_trip :
  forall p d, 53 <= p -> is_double d -> exists x, construct p (Some (OFloat d)) = Ok x /\ to_float x = d.
Proof. exact float_back. Qed.
Print Assumptions C54_float_round_trip.

Example C54_float_round_trip_applies : is_double (Num false 3602879701896397 (-55)) /\ is_double (Num true 1 (-1074)).
Proof. repeat split; simpl; lia. Qed.

(** str(x) writes x with [digits10] decimals, correctly rounded. *)
Theorem C54_str_is_correctly_rounded :
  forall p other x, 2 <= p -> finite x = true -> exists t N,
    py_str p other x = Ok t /\ writes (negative x) (digits10 p) N t /\
    (Qabs (Qabs (val x) * inject_Z (10 ^ digits10 p) - inject_Z N) <= 1#2)%Q /\
    ((Qabs (Qabs (val x) * inject_Z (10 ^ digits10 p) - inject_Z N) == 1#2)%Q -> Z.even N = true).
Proof. exact str_nearest. Qed.
Print Assumptions C54_str_is_correctly_rounded.

(** For 10 bits there are three decimals: 171/512 is "0.334". *)
Example C54_str_applies : digits10 1024 = 308 /\ digits10 10 = 3 /\ py_str 10 (fun _ _ => []) (Num false 171 (-9)) = Ok [48; 46; 51; 51; 52].
Proof. repeat split; vm_compute; reflexivity. Qed.

(** FixedFloat(str(x)) is x if the decimals suffice to write x: in particular if x is a
    whole number, an infinity or a NaN. *)
Theorem C54_str_round_trip_partial :
  forall p other x, 2 <= p -> number p x -> written_exactly (digits10 p) x ->
    exists t, py_str p other x = Ok t /\ of_string p 10 t = x.
Proof. intros p other x. exact (@str_round_trip p other x). Qed.
Print Assumptions C54_str_round_trip_partial.

Example C54_str_round_trip_applies :
  number 1024 (Num true 12345 100) /\ written_exactly (digits10 1024) (Num true 12345 100) /\ written_exactly (digits10 1024) (Num false 3 (-308)).
Proof. repeat split; vm_compute; discriminate. Qed.

(** Full statement: FixedFloat(str(x)) is x. It is false: 2^-1100 is written as 0. *)
Theorem C54_str_round_trip_refuted :
  ~ (forall x, number 1024 x -> finite x = true -> exists t, py_str 1024 (fun _ _ => []) x = Ok t /\ of_string 1024 10 t = x).
Proof. exact str_false. Qed.
Print Assumptions C54_str_round_trip_refuted.

(** format(x, "[sign][.d]f") writes x with d decimals, correctly rounded. *)
Theorem C54_format_f :
  forall p other x l, is_layout l -> y_align l = None -> y_zero l = false -> y_width l = [] -> y_alt l = false -> y_comma l = false ->
    y_type l = Some 102 -> finite x = true -> exists t N,
    py_format p other x (layout_text l) =
      Ok ((if negative x then [] else match y_sign l with Some 43 => [43] | Some 32 => [32] | _ => [] end) ++ t) /\
    writes (negative x) (decimals l) N t /\
    (Qabs (Qabs (val x) * inject_Z (10 ^ decimals l) - inject_Z N) <= 1#2)%Q /\
    ((Qabs (Qabs (val x) * inject_Z (10 ^ decimals l) - inject_Z N) == 1#2)%Q -> Z.even N = true).
Proof. exact format_f_ok. Qed.
Print Assumptions C54_format_f.

(** "+.2f": 1.125 is "+1.12". *)
Definition two_decimals : layout := mkY None (Some 43) false false [] false (Some [50]) (Some 102).
Lemma two_decimals_ok : is_layout two_decimals.
Proof.
  split; [discriminate|]. split; [intros c E; injection E as <-; simpl; auto|]. split; [constructor|]. split; [discriminate|]. split; [reflexivity|].
  split; [intros d E; injection E as <-; split; [discriminate|repeat constructor; unfold digit; lia]|]. intros c E. injection E as <-. simpl. auto.
Qed.
Example C54_format_f_applies : is_layout two_decimals /\ layout_text two_decimals = [43; 46; 50; 102] /\
  py_format 1024 (fun _ _ => []) (Num false 9 (-3)) (layout_text two_decimals) = Ok [43; 49; 46; 49; 50].
Proof. split; [exact two_decimals_ok|]. split; vm_compute; reflexivity. Qed.

(** format(x, "%") writes 100 x, rounded to the precision, and a percent sign. *)
Theorem C54_format_percent :
  forall p other x l, 7 <= p -> number p x -> finite x = true -> is_layout l -> y_align l = None -> y_zero l = false -> y_width l = [] ->
    y_type l = Some 37 ->
    exists t, py_format p other (binary p Omul x (Num false 25 2)) (layout_text (as_f l)) = Ok t /\
      py_format p other x (layout_text l) = Ok (t ++ [37]).
Proof. exact percent_ok. Qed.
Print Assumptions C54_format_percent.

(** ".1%" *)
Definition one_percent_digit : layout := mkY None None false false [] false (Some [49]) (Some 37).
Example C54_format_percent_applies : is_layout one_percent_digit /\ (val (Num false 25 2) == inject_Z 100)%Q /\
  py_format 1024 (fun _ _ => []) (Num false 9 (-3)) (layout_text one_percent_digit) = Ok [49; 49; 50; 46; 53; 37].
Proof.
  split; [|split; vm_compute; reflexivity].
  split; [discriminate|]. split; [discriminate|]. split; [constructor|]. split; [discriminate|]. split; [reflexivity|].
  split; [intros d E; injection E as <-; split; [discriminate|repeat constructor; unfold digit; lia]|]. intros c E. injection E as <-. simpl. auto 9.
Qed.

(** Width and alignment pad the text of the rest of the format, as in Python. *)
Theorem C54_format_padding_partial :
  forall p other x l, is_layout l -> y_zero l = false -> aligned l <> 61 -> layout_text (bare l) <> [] ->
    exists t, py_format p other x (layout_text (bare l)) = Ok t /\
      py_format p other x (layout_text l) = Ok (python_pad (fill_of l) (aligned l) (decimal (y_width l)) t).
Proof. exact format_ok. Qed.
Print Assumptions C54_format_padding_partial.

(** "*^+10.2f" *)
Definition centred : layout := mkY (Some (Some 42, 94)) (Some 43) false false [49; 48] false (Some [50]) (Some 102).
Example C54_format_padding_applies : is_layout centred /\ aligned centred <> 61 /\ layout_text (bare centred) <> [] /\
  py_format 1024 (fun _ _ => []) (Num false 9 (-3)) (layout_text centred) = Ok [42; 42; 43; 49; 46; 49; 50; 42; 42; 42].
Proof.
  split; [|split; [discriminate|split; [discriminate|vm_compute; reflexivity]]].
  split; [intros f a E; injection E as <- <-; split; [simpl; auto|intros c E; injection E as <-; lia]|].
  split; [intros c E; injection E as <-; simpl; auto|]. split; [repeat constructor; unfold digit; lia|]. split; [discriminate|]. split; [reflexivity|].
  split; [intros d E; injection E as <-; split; [discriminate|repeat constructor; unfold digit; lia]|]. intros c E. injection E as <-. simpl. auto.
Qed.

(** Full statement: also with "0" before the width, and with "=". It is false:
    format(x, "08.2f") of 1.5 is padded with spaces. *)
Theorem C54_format_padding_refuted :
  ~ (forall p other x l t, is_layout l -> layout_text (bare l) <> [] ->
       py_format p other x (layout_text (bare l)) = Ok t ->
       py_format p other x (layout_text l) = Ok (python_pad (fill_of l) (aligned l) (decimal (y_width l)) t)).
Proof. exact format_false. Qed.
Print Assumptions C54_format_padding_refuted.

(** "*=8.2f" of -1.5 is "***-1.50", not "-***1.50". *)
Theorem C54_format_sign_refuted :
  is_layout sign_first /\
  py_format 1024 (fun _ _ => []) (Num true 3 (-1)) (layout_text (bare sign_first)) = Ok [45; 49; 46; 53; 48] /\
  py_format 1024 (fun _ _ => []) (Num true 3 (-1)) (layout_text sign_first) = Ok [42; 42; 42; 45; 49; 46; 53; 48] /\
  python_pad (fill_of sign_first) (aligned sign_first) (decimal (y_width sign_first)) [45; 49; 46; 53; 48] = [45; 42; 42; 42; 49; 46; 53; 48].
Proof. exact format_false_sign. Qed.
Print Assumptions C54_format_sign_refuted.
