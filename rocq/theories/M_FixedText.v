(** Model of the texts of include/tnco/fixed_float.hpp: the constructor from a string,
    to_string (__str__, __repr__, __format__) and dump (pickle). A text is a list of
    character codes. mpfr_set_str and mpfr_asprintf are modelled after the manual and
    the sources of MPFR (strtofr.c, vasprintf.c); of the conversions of mpfr_asprintf
    only "f" without the flags "#" and "'" and "a" are modelled, the others are a
    parameter. Simplification: the decimal point is "." and exponents are not bounded. *)
From Coq Require Import ZArith Bool List.
From Verif Require Import M_Base M_Fixed.
Import ListNotations.
Set Implicit Arguments.
Local Open Scope Z_scope.

Definition text := list Z.

(** Digits of a number in a base, the first one first. *)
Definition digit_char (d : Z) : Z := if d <? 10 then 48 + d else 87 + d.
Fixpoint digits_loop (b : Z) (fuel : nat) (z : Z) : text :=
  match fuel with
  | O => []
  | S f => if z <? b then [digit_char z] else digits_loop b f (z / b) ++ [digit_char (z mod b)]
  end.
Definition digits (b z : Z) : text := digits_loop b (S (Z.to_nat (Z.log2 z))) z.

Definition sign_text (s : bool) : text := if s then [45] else [].
Definition t_nan : text := [110; 97; 110].
Definition t_inf : text := [105; 110; 102].

(** * Reading: mpfr_set_str (set_str.c) and mpfr_strtofr (strtofr.c) *)
Definition is_space (c : Z) : bool := (c =? 32) || ((9 <=? c) && (c <=? 13)).
Fixpoint skip_spaces (t : text) : text :=
  match t with c :: t' => if is_space c then skip_spaces t' else t | [] => [] end.
(** strtofr.c digit_value_in_base, for bases up to 36 *)
Definition digit_value (b c : Z) : option Z :=
  let d := if (48 <=? c) && (c <=? 57) then c - 48
           else if (97 <=? c) && (c <=? 122) then c - 87
           else if (65 <=? c) && (c <=? 90) then c - 55 else -1 in
  if (0 <=? d) && (d <? b) then Some d else None.
Definition lower (c : Z) : Z := if (65 <=? c) && (c <=? 90) then c + 32 else c.
(** strtofr.c fast_casecmp: [t] begins with [w], which is in lower case *)
Fixpoint begins (w t : text) : bool :=
  match w, t with
  | [], _ => true
  | a :: w', c :: t' => (lower c =? a) && begins w' t'
  | _ :: _, [] => false
  end.
(** The digits of the mantissa: their value, their number, the number of them after
    the point, and the rest of the text. *)
Fixpoint mantissa (b : Z) (t : text) (point : bool) (v n fr : Z) : Z * Z * Z * text :=
  match t with
  | [] => (v, n, fr, [])
  | c :: t' =>
      if c =? 46 then if point then (v, n, fr, t) else mantissa b t' true v n fr
      else match digit_value b c with
           | Some d => mantissa b t' point (v * b + d) (n + 1) (if point then fr + 1 else fr)
           | None => (v, n, fr, t)
           end
  end.
(** strtol(str, &end, 10), where str does not begin with a space; 0 if there is no
    number *)
Fixpoint take_int (t : text) (v : Z) : Z :=
  match t with c :: t' => match digit_value 10 c with Some d => take_int t' (v * 10 + d) | None => v end | [] => v end.
Definition strtol (t : text) : Z :=
  match t with
  | c :: t' => if c =? 45 then - take_int t' 0 else if c =? 43 then take_int t' 0 else take_int t 0
  | [] => 0
  end.
Definition starts_space (t : text) : bool := match t with c :: _ => is_space c | [] => false end.

Section Read.
Variable p : Z.

(** (-1)^s v b^x 2^y, rounded *)
Definition scaled_value (s : bool) (b v x y : Z) : num :=
  match v with
  | Zpos m => match b ^ Z.max 0 x, b ^ Z.max 0 (- x) with
              | Zpos u, Zpos w => round (fixed p) s (m * u) w y
              | _, _ => Zero s
              end
  | _ => Zero s
  end.

(** What follows the mantissa: an exponent of the base or, for bases 2 and 16, of 2 *)
Definition exponents (b : Z) (t : text) : Z * Z :=
  match t with
  | c :: t' =>
      if ((c =? 64) || ((b <=? 10) && (lower c =? 101))) && negb (starts_space t') then (strtol t', 0)
      else if ((b =? 2) || (b =? 16)) && (lower c =? 112) && negb (starts_space t') then (0, strtol t')
      else (0, 0)
  | [] => (0, 0)
  end.

Definition read_base (s : bool) (b : Z) (t : text) : option num :=
  let '(v, n, fr, rest) := mantissa b t false 0 0 0 in
  if n =? 0 then None else
  let '(x, y) := exponents b rest in
  Some (scaled_value s b v (x - fr) y).

(** mpfr_strtofr: base 0 or 10; a text that is no number gives +0 *)
Definition strtofr (base : Z) (t : text) : num :=
  let t := skip_spaces t in
  let s := match t with c :: _ => c =? 45 | [] => false end in
  let t := match t with c :: t' => if (c =? 45) || (c =? 43) then t' else t | [] => [] end in
  if begins [64; 110; 97; 110; 64] t || begins t_nan t then NaN
  else if begins [64; 105; 110; 102; 64] t || begins t_inf t then Inf s
  else
    let plain b := match read_base s b t with Some x => x | None => Zero false end in
    match t with
    | c0 :: c1 :: t' =>
        if (base =? 0) && (c0 =? 48) && (lower c1 =? 120) then
          match read_base s 16 t' with Some x => x | None => plain 10 end
        else if (base =? 0) && (c0 =? 48) && (lower c1 =? 98) then
          match read_base s 2 t' with Some x => x | None => plain 10 end
        else plain 10
    | _ => plain 10
    end.

(** std::string::data(): the text up to the first NUL *)
Fixpoint c_string (t : text) : text :=
  match t with c :: t' => if c =? 0 then [] else c :: c_string t' | [] => [] end.

(** fixed_float.hpp:51-53 the constructor from a string: an empty string leaves the NaN
    of mpfr_init2; the result of mpfr_set_str is not looked at *)
Definition of_string (base : Z) (t : text) : num :=
  match c_string t with [] => NaN | t' => strtofr base t' end.

(** * Pickle: fixed_float.hpp:392-399 dump, "%Ra": hexadecimal digits, the first of them
    before the point, and an exponent of 2 *)
Definition exponent_text (x : Z) : text := if x <? 0 then 45 :: digits 10 (- x) else 43 :: digits 10 x.
Definition pointed (t : text) : text := match t with [] => [] | [d] => [d] | d :: t' => d :: 46 :: t' end.
Definition dump (x : num) : text :=
  match x with
  | NaN => t_nan
  | Inf s => sign_text s ++ t_inf
  | Zero s => sign_text s ++ [48; 120; 48; 112; 43; 48]
  | Num s m e =>
      let ds := digits 16 (Zpos m * 2 ^ (e mod 4)) in
      sign_text s ++ [48; 120] ++ pointed ds ++ 112 :: exponent_text (4 * (e / 4) + 4 * (Z.of_nat (length ds) - 1))
  end.
(** fixed_float.hpp:577-581 py::pickle: __setstate__ reads with base 0 *)
Definition load (t : text) : num := of_string 0 t.

(** * Printing: fixed_float.hpp:245-377 to_string *)
(** fixed_float.hpp:63-66 digits10 *)
Definition digits10 : Z := 30102999566 * p / 100000000000.

(** "%.dRNf" without its sign *)
Fixpoint zeros (n : nat) : text := match n with O => [] | S k => 48 :: zeros k end.
Definition fixed_digits (d N : Z) : text :=
  let ds := digits 10 N in
  let ds := zeros (Z.to_nat (d + 1) - length ds) ++ ds in
  let k := (length ds - Z.to_nat d)%nat in
  if d =? 0 then ds else firstn k ds ++ 46 :: skipn k ds.
Definition scaled_int (d : Z) (m : positive) (e : Z) : Z :=
  div_even (Zpos m * 2 ^ Z.max 0 e * 10 ^ d) (2 ^ Z.max 0 (- e)).
Definition fixed_text (d : Z) (x : num) : text :=
  match x with
  | NaN => t_nan
  | Inf _ => t_inf
  | Zero _ => fixed_digits d 0
  | Num _ m e => fixed_digits d (scaled_int d m e)
  end.

(** A conversion of mpfr_asprintf: sign flag, "#", "0", "'", precision, type. *)
Record conversion := mkC { c_sign : option Z; c_alt : bool; c_zero : bool; c_thousands : bool; c_prec : option Z; c_type : Z }.
Variable other : conversion -> num -> text.
(** The flag "0" does nothing: there is no width. The default precision is 6. *)
Definition printf (c : conversion) (x : num) : text :=
  if (c_type c =? 102) && negb (c_alt c) && negb (c_thousands c) then
    (if sign x then [45] else match c_sign c with Some 43 => [43] | Some 32 => [32] | _ => [] end) ++
    fixed_text (match c_prec c with Some d => d | None => 6 end) x
  else other c x.

(** A Python format, split by the regular expression of lines 257-275. *)
Record pyformat := mkP { fill : Z; align : option Z; sgn : option Z; alt : bool; zero_pad : bool; width : Z;
                         thousands : bool; precision : option Z; type : option Z }.
Definition is_align (c : Z) : bool := (c =? 60) || (c =? 62) || (c =? 94) || (c =? 61).
Definition is_digit (c : Z) : bool := (48 <=? c) && (c <=? 57).
Definition opt (f : Z -> bool) (t : text) : option Z * text :=
  match t with c :: t' => if f c then (Some c, t') else (None, t) | [] => (None, []) end.
Fixpoint take_digits (t : text) : text * text :=
  match t with c :: t' => if is_digit c then let '(a, b) := take_digits t' in (c :: a, b) else ([], t) | [] => ([], []) end.
Definition line_end (c : Z) : bool := (c =? 10) || (c =? 13).
Definition parse_format (t : text) : option pyformat :=
  let '(fl, al, t) :=
    match t with
    | c0 :: c1 :: t' => if is_align c1 && negb (line_end c0) then (c0, Some c1, t')
                        else if is_align c0 then (32, Some c0, c1 :: t') else (32, None, t)
    | [c0] => if is_align c0 then (32, Some c0, []) else (32, None, t)
    | [] => (32, None, [])
    end in
  let '(sg, t) := opt (fun c => (c =? 43) || (c =? 45) || (c =? 32)) t in
  let '(ah, t) := opt (fun c => c =? 35) t in
  let '(z, t) := opt (fun c => c =? 48) t in
  let '(w, t) := take_digits t in
  let '(th, t) := opt (fun c => c =? 44) t in
  let '(pr, t) := match t with
                  | c :: t' => if c =? 46 then match take_digits t' with ([], _) => (None, t) | (ds, t'') => (Some (take_int ds 0), t'') end else (None, t)
                  | [] => (None, [])
                  end in
  let '(ty, t) := opt (fun c => existsb (Z.eqb c) [102; 70; 101; 69; 103; 71; 37]) t in
  match t with
  | [] => Some (mkP fl al sg (match ah with Some _ => true | None => false end) (match z with Some _ => true | None => false end)
                    (take_int w 0) (match th with Some _ => true | None => false end) pr ty)
  | _ => None
  end.

(** Line 336-343: for "%" the number is multiplied by 100 *)
Definition percent (x : num) : num :=
  match x with Num s m e => round (fixed p) s (m * 100) 1 e | _ => x end.

(** Lines 289-358 *)
Definition number_text (f : pyformat) (x : num) : text :=
  let ty := match type f with Some c => c | None => 103 end in
  let pct := ty =? 37 in
  let pr := if pct then match precision f with None => Some 6 | d => d end else precision f in
  let al := match align f with Some c => c | None => 62 end in
  let zp := zero_pad f || (al =? 61) in
  let c := mkC (sgn f) (alt f) (zp && negb (al =? 60) && negb (al =? 94)) (thousands f) pr (if pct then 102 else ty) in
  if pct then printf c (percent x) ++ [37] else printf c x.

(** Lines 360-377 *)
Definition padded (f : pyformat) (t : text) : text :=
  let n := Z.of_nat (length t) in
  if width f <=? n then t else
  let k := Z.to_nat (width f - n) in
  let al := match align f with Some c => c | None => 62 end in
  if al =? 60 then t ++ repeat (fill f) k
  else if al =? 94 then repeat (fill f) (k / 2) ++ t ++ repeat (fill f) (k - k / 2)
  else repeat (fill f) k ++ t.

(** std::stoi throws for widths of 2^31 and more *)
Definition to_string_format (x : num) (t : text) : res text :=
  match parse_format t with
  | None => Err Throw
  | Some f => if 2 ^ 31 <=? width f then Err Throw else Ok (padded f (number_text f x))
  end.
(** Lines 248-252: the default format "1.<digits10>f" *)
Definition default_format : text := [49; 46] ++ digits 10 digits10 ++ [102].
Definition to_string (x : num) (t : text) : res text :=
  match t with [] => to_string_format x default_format | _ => to_string_format x t end.
(** fixed_float.hpp:422-430 __format__, __repr__ and __str__ *)
Definition py_format (x : num) (t : text) : res text := to_string x t.
Definition py_str (x : num) : res text := to_string x [].

End Read.
