(** Model of include/tnco/fixed_float.hpp: the numbers FixedFloat<prec> (float1024 is
    FixedFloat<1024>, globals.hpp:43), their operators in C++ and in Python. A number
    is the content of its mpfr_t. The functions of MPFR that the file calls are
    modelled after the manual of MPFR: mpfr_add, mpfr_sub, mpfr_mul, mpfr_div, mpfr_neg,
    mpfr_abs, mpfr_set, mpfr_cmp, mpfr_set_ld and mpfr_get_ld with MPFR_RNDN.
    Simplifications: the exponents of MPFR (63 bits) are not bounded; the sign of a NaN
    and the flags of MPFR are not kept; log, log2 and pow are not modelled. *)
From Coq Require Import ZArith Bool List.
From Verif Require Import M_Base.
Set Implicit Arguments.
Local Open Scope Z_scope.

(** [Num neg m e] is (-1)^neg m 2^e, where [m] is odd. *)
Inductive num := NaN | Inf (neg : bool) | Zero (neg : bool) | Num (neg : bool) (m : positive) (e : Z).

(** Formats: [prec] bits; for the types of C, the exponent of the smallest number and
    the exponent from which on numbers overflow. *)
Record format := mkF { prec : Z; bounds : option (Z * Z) }.
Definition fixed (p : Z) : format := mkF p None.
Definition double : format := mkF 53 (Some (-1074, 1024)).
(** long double of x86-64 *)
Definition long_double : format := mkF 64 (Some (-16445, 16384)).

Fixpoint strip (m : positive) (e : Z) : positive * Z :=
  match m with xO m' => strip m' (e + 1) | _ => (m, e) end.
Definition make (neg : bool) (m e : Z) : num :=
  match m with Zpos k => let '(k', e') := strip k e in Num neg k' e' | _ => Zero neg end.

(** n / d to the nearest integer, ties to the even one *)
Definition div_even (n d : Z) : Z :=
  let q := n / d in let r := n mod d in
  if 2 * r <? d then q else if d <? 2 * r then q + 1 else if Z.even q then q else q + 1.

(** (-1)^neg n/d 2^e rounded to the nearest number of the format, ties to even
    (MPFR_RNDN, fixed_float.hpp:39; and the conversions of C). *)
Definition round (f : format) (neg : bool) (n d : positive) (e : Z) : num :=
  let k := Z.log2 (Zpos n) - Z.log2 (Zpos d) in
  let E := if Zpos d * 2 ^ Z.max 0 k <=? Zpos n * 2 ^ Z.max 0 (- k) then k else k - 1 in
  let t := match bounds f with
           | None => E + 1 - prec f
           | Some (lo, _) => Z.max (E + 1 - prec f) (lo - e)
           end in
  let q := div_even (Zpos n * 2 ^ Z.max 0 (- t)) (Zpos d * 2 ^ Z.max 0 t) in
  match bounds f with
  | Some (_, hi) => if hi <=? Z.log2 q + t + e then Inf neg else make neg q (t + e)
  | None => make neg q (t + e)
  end.

(** mpfr_set, and the conversions between formats *)
Definition convert (f : format) (x : num) : num :=
  match x with Num neg m e => round f neg m 1 e | _ => x end.

Section Arithmetic.
Variable p : Z.                  (* the template parameter Precision *)

(** fixed_float.hpp:85-89 operator-() and 251-255 abs *)
Definition neg (x : num) : num :=
  match x with
  | NaN => NaN | Inf s => Inf (negb s) | Zero s => Zero (negb s)
  | Num s m e => convert (fixed p) (Num (negb s) m e)
  end.
Definition abs (x : num) : num :=
  match x with NaN => NaN | Inf _ => Inf false | Zero _ => Zero false | Num _ m e => convert (fixed p) (Num false m e) end.

Definition signed (s : bool) (m : Z) : Z := if s then - m else m.

(** fixed_float.hpp:91-94, 111-115 operator+= and operator+ : mpfr_add *)
Definition add (x y : num) : num :=
  match x, y with
  | NaN, _ | _, NaN => NaN
  | Inf s, Inf s' => if Bool.eqb s s' then Inf s else NaN
  | Inf s, _ => Inf s
  | _, Inf s => Inf s
  | Zero s, Zero s' => if Bool.eqb s s' then Zero s else Zero false
  | Zero _, _ => convert (fixed p) y
  | _, Zero _ => convert (fixed p) x
  | Num s m e, Num s' m' e' =>
      let g := Z.min e e' in
      match signed s (Zpos m * 2 ^ (e - g)) + signed s' (Zpos m' * 2 ^ (e' - g)) with
      | Z0 => Zero false
      | Zpos k => round (fixed p) false k 1 g
      | Zneg k => round (fixed p) true k 1 g
      end
  end.

(** fixed_float.hpp:96-99, 117-121 operator-= and operator- : mpfr_sub *)
Definition opposite (x : num) : num :=
  match x with NaN => NaN | Inf s => Inf (negb s) | Zero s => Zero (negb s) | Num s m e => Num (negb s) m e end.
Definition sub (x y : num) : num := add x (opposite y).

Definition sign (x : num) : bool :=
  match x with NaN => false | Inf s | Zero s | Num s _ _ => s end.

(** fixed_float.hpp:101-104, 123-127 operator*= and operator* : mpfr_mul *)
Definition mul (x y : num) : num :=
  let s := xorb (sign x) (sign y) in
  match x, y with
  | NaN, _ | _, NaN => NaN
  | Inf _, Zero _ | Zero _, Inf _ => NaN
  | Inf _, _ | _, Inf _ => Inf s
  | Zero _, _ | _, Zero _ => Zero s
  | Num _ m e, Num _ m' e' => round (fixed p) s (m * m') 1 (e + e')
  end.

(** fixed_float.hpp:106-109, 129-133 operator/= and operator/ : mpfr_div *)
Definition div (x y : num) : num :=
  let s := xorb (sign x) (sign y) in
  match x, y with
  | NaN, _ | _, NaN => NaN
  | Inf _, Inf _ | Zero _, Zero _ => NaN
  | Inf _, _ | _, Zero _ => Inf s
  | Zero _, _ | _, Inf _ => Zero s
  | Num _ m e, Num _ m' e' => round (fixed p) s m m' (e - e')
  end.

(** mpfr_cmp: 0 if one of the numbers is a NaN *)
Definition cmp (x y : num) : comparison :=
  match x, y with
  | NaN, _ | _, NaN => Eq
  | Inf true, Inf true | Inf false, Inf false => Eq
  | Inf true, _ | _, Inf false => Lt
  | Inf false, _ | _, Inf true => Gt
  | Zero _, Zero _ => Eq
  | Zero _, Num s _ _ => if s then Gt else Lt
  | Num s _ _, Zero _ => if s then Lt else Gt
  | Num s m e, Num s' m' e' =>
      let g := Z.min e e' in
      signed s (Zpos m * 2 ^ (e - g)) ?= signed s' (Zpos m' * 2 ^ (e' - g))
  end.

(** fixed_float.hpp:135-157 *)
Inductive relop := Req | Rne | Rlt | Rle | Rgt | Rge.
Definition related (r : relop) (x y : num) : bool :=
  match r, cmp x y with
  | Req, Eq | Rne, Lt | Rne, Gt | Rlt, Lt | Rle, Lt | Rle, Eq | Rgt, Gt | Rge, Gt | Rge, Eq => true
  | _, _ => false
  end.

Inductive binop := Oadd | Osub | Omul | Odiv.
Definition binary (o : binop) : num -> num -> num :=
  match o with Oadd => add | Osub => sub | Omul => mul | Odiv => div end.

(** fixed_float.hpp:49 the constructor from a long double, and 46-47 the default
    constructor: mpfr_init2 sets a NaN *)
Definition of_double (d : num) : num := convert (fixed p) (convert long_double d).
Definition default : num := NaN.

(** * Python: fixed_float.hpp:407-583 init.
    Objects of Python: a FixedFloat, a float, an int, and others, among which some
    define __float__ (the value given here). *)
Inductive object := OFixed (x : num) | OFloat (d : num) | OInt (z : Z) | OOther (f : option num).

(** fixed_float.hpp:425-426 __float__: to long double, and from there to the double
    of a Python float *)
Definition to_float (x : num) : num := convert double (convert long_double x).

(** float(z): OverflowError if it is too large *)
Definition float_of_int (z : Z) : option num :=
  match (match z with Z0 => Zero false | Zpos m => round double false m 1 0 | Zneg m => round double true m 1 0 end) with
  | Inf _ => None
  | d => Some d
  end.

(** The cast of pybind11 to long double: PyFloat_AsDouble *)
Definition as_double (o : object) : option num :=
  match o with
  | OFixed x => Some (to_float x)
  | OFloat d => Some d
  | OInt z => float_of_int z
  | OOther f => f
  end.

(** The argument of a method that is overloaded for FixedFloat and long double (lines
    431-580); no overload fits: TypeError *)
Definition argument (o : object) : res num :=
  match o with
  | OFixed x => Ok x
  | _ => match as_double o with Some d => Ok (of_double d) | None => Err Throw end
  end.

(** fixed_float.hpp:411-414 the constructors: those from strings are in M_FixedText *)
Definition construct (o : option object) : res num :=
  match o with None => Ok default | Some o => argument o end.

(** self op other: __add__, __sub__, __mul__, __truediv__ ... *)
Definition py_binary (o : binop) (x : num) (other : object) : res num :=
  let! y := argument other in Ok (binary o x y).
(** ... and other op self, where other is no FixedFloat: __radd__, __rsub__ ...
    (long double only) *)
Definition py_reflected (o : binop) (other : object) (x : num) : res num :=
  match as_double other with Some d => Ok (binary o (of_double d) x) | None => Err Throw end.
(** self < other ... *)
Definition py_related (r : relop) (x : num) (other : object) : res bool :=
  let! y := argument other in Ok (related r x y).

(** fixed_float.hpp:574-576 the methods isinf, isnan and signbit *)
Definition is_nan (x : num) : bool := match x with NaN => true | _ => false end.
Definition py_isinf (x : num) : bool := is_nan x.
Definition py_isnan (x : num) : bool := is_nan x.
Definition py_signbit (x : num) : bool := is_nan x.

(** x += other and the like (lines 439-448, 461-470, 483-492, 505-514): the object is
    changed, a copy of it is returned and bound to the name. [objs] are the FixedFloat
    objects, [vars] the object of each name. *)
Record store := mkS { objs : list num; vars : nat -> nat }.
Definition lookup (s : store) (x : nat) : option num := nth_error (objs s) (vars s x).
Fixpoint put (l : list num) (i : nat) (v : num) : list num :=
  match l, i with
  | nil, _ => nil
  | _ :: l', O => v :: l'
  | a :: l', S j => a :: put l' j v
  end.
Definition py_inplace (o : binop) (s : store) (x : nat) (other : object) : res store :=
  match lookup s x with
  | None => Err Throw
  | Some v =>
      let! y := argument other in
      let w := binary o v y in
      Ok (mkS (put (objs s) (vars s x) w ++ w :: nil) (fun n => if Nat.eqb n x then length (objs s) else vars s n))
  end.

End Arithmetic.
