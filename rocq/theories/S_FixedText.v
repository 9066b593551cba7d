(** Specification vocabulary for the texts of numbers of fixed precision. *)
From Coq Require Import QArith Qabs ZArith Bool List.
From Verif Require Import M_Base M_Fixed S_Fixed.
From Verif Require M_FixedText.
Import ListNotations.
Set Implicit Arguments.
Local Open Scope Z_scope.

Definition text := list Z.
Definition digit (c : Z) : Prop := 48 <= c <= 57.
(** The number that digits stand for. *)
Fixpoint decimal_from (v : Z) (t : text) : Z :=
  match t with [] => v | c :: t' => decimal_from (10 * v + (c - 48)) t' end.
Definition decimal (t : text) : Z := decimal_from 0 t.

(** A decimal number: sign, digits, and maybe a point with digits and an exponent. *)
Record literal := mkL { l_sign : option bool; l_whole : text; l_fraction : option text; l_exponent : option (Z * option bool * text) }.
Definition sign_of (s : option bool) : text := match s with None => [] | Some true => [45] | Some false => [43] end.
Definition fraction_of (l : literal) : text := match l_fraction l with None => [] | Some f => f end.
Definition literal_text (l : literal) : text :=
  sign_of (l_sign l) ++ l_whole l ++
  match l_fraction l with None => [] | Some f => 46 :: f end ++
  match l_exponent l with None => [] | Some (c, s, x) => c :: sign_of s ++ x end.
Definition is_literal (l : literal) : Prop :=
  Forall digit (l_whole l) /\ Forall digit (fraction_of l) /\ l_whole l ++ fraction_of l <> [] /\
  match l_exponent l with None => True | Some (c, s, x) => (c = 101 \/ c = 69) /\ x <> [] /\ Forall digit x end.
Definition exponent_of (l : literal) : Z :=
  match l_exponent l with None => 0 | Some (_, s, x) => if match s with Some true => true | _ => false end then - decimal x else decimal x end.
Definition is_minus (s : option bool) : bool := match s with Some true => true | _ => false end.
Definition literal_value (l : literal) : Q :=
  (inject_Z (if is_minus (l_sign l) then -1 else 1) * inject_Z (decimal (l_whole l ++ fraction_of l)) *
   Qpower 10 (exponent_of l - Z.of_nat (length (fraction_of l))))%Q.

(** [t] writes the number N 10^-d, with [d] digits after the point and a sign if [neg]. *)
Definition writes (neg : bool) (d N : Z) (t : text) : Prop :=
  exists i f, t = (if neg then [45] else []) ++ i ++ (if d =? 0 then [] else 46 :: f) /\
    Forall digit i /\ Forall digit f /\ i <> [] /\ Z.of_nat (length f) = d /\ decimal (i ++ f) = N.

(** The numbers that [d] decimals can write. *)
Definition written_exactly (d : Z) (x : num) : Prop := match x with Num _ _ e => - d <= e | _ => True end.

(** Formats of Python: [[fill]align][sign][#][0][width][,][.precision][type]. *)
Record layout := mkY { y_align : option (option Z * Z); y_sign : option Z; y_alt : bool; y_zero : bool; y_width : text;
                       y_comma : bool; y_precision : option text; y_type : option Z }.
Definition one (b : bool) (c : Z) : text := if b then [c] else [].
Definition maybe (o : option Z) : text := match o with None => [] | Some c => [c] end.
Definition align_of (l : layout) : text := match y_align l with None => [] | Some (f, a) => maybe f ++ [a] end.
Definition layout_text (l : layout) : text :=
  align_of l ++ maybe (y_sign l) ++ one (y_alt l) 35 ++ one (y_zero l) 48 ++ y_width l ++ one (y_comma l) 44 ++
  match y_precision l with None => [] | Some d => 46 :: d end ++ maybe (y_type l).
Definition is_layout (l : layout) : Prop :=
  (forall f a, y_align l = Some (f, a) -> In a [60; 62; 94; 61] /\ (forall c, f = Some c -> c <> 10 /\ c <> 13)) /\
  (forall c, y_sign l = Some c -> In c [43; 45; 32]) /\
  Forall digit (y_width l) /\ (forall t, y_width l <> 48 :: t) /\ decimal (y_width l) < 2 ^ 31 /\
  (forall d, y_precision l = Some d -> d <> [] /\ Forall digit d) /\
  (forall c, y_type l = Some c -> In c [102; 70; 101; 69; 103; 71; 37]).
(** The format without alignment and width. *)
Definition bare (l : layout) : layout := mkY None (y_sign l) (y_alt l) false [] (y_comma l) (y_precision l) (y_type l).

(** Padding, as the documentation of Python has it; numbers are aligned to the right. *)
Definition python_pad (fill : Z) (align : Z) (width : Z) (t : text) : text :=
  let k := Z.to_nat (width - Z.of_nat (length t)) in
  if align =? 60 then t ++ repeat fill k
  else if align =? 94 then repeat fill (k / 2) ++ t ++ repeat fill (k - k / 2)
  else if align =? 61 then
    match t with
    | c :: t' => if (c =? 45) || (c =? 43) || (c =? 32) then c :: repeat fill k ++ t' else repeat fill k ++ t
    | [] => repeat fill k
    end
  else repeat fill k ++ t.
(** A 0 before the width, without an alignment, is the alignment "=" with fill "0". *)
Definition fill_of (l : layout) : Z := match y_align l with Some (Some c, _) => c | Some (None, _) => if y_zero l then 48 else 32 | None => if y_zero l then 48 else 32 end.
Definition aligned (l : layout) : Z := match y_align l with Some (_, a) => a | None => if y_zero l then 61 else 62 end.
(** The number of decimals; 6 if none is given. *)
Definition decimals (l : layout) : Z := match y_precision l with Some d => decimal d | None => 6 end.
(** The format with "f" instead of its type. *)
Definition as_f (l : layout) : layout :=
  mkY (y_align l) (y_sign l) (y_alt l) (y_zero l) (y_width l) (y_comma l) (Some (match y_precision l with Some d => d | None => [54] end)) (Some 102).
