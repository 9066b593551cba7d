(** Specification vocabulary for the numbers of fixed precision. *)
From Coq Require Import QArith Qabs ZArith Bool List.
From Verif Require Import M_Base M_Fixed.
Set Implicit Arguments.
Local Open Scope Z_scope.

Definition pow2 (e : Z) : Q := Qpower 2 e.

(** The number that a finite value stands for. *)
Definition finite (x : num) : bool := match x with Zero _ | Num _ _ _ => true | _ => false end.
Definition val (x : num) : Q :=
  match x with Num s m e => inject_Z (if s then Zneg m else Zpos m) * pow2 e | _ => 0 end%Q.

(** What the objects hold: numbers of at most [p] bits, in the only way the model
    writes them. *)
Definition number (p : Z) (x : num) : Prop :=
  match x with Num _ m _ => Z.odd (Zpos m) = true /\ Zpos m < 2 ^ p | _ => True end.

(** [x] is a number of the format: at most [prec f] significant bits, and no bit below
    the smallest number of the format. *)
Definition low_ok (f : format) (e : Z) : Prop :=
  match bounds f with None => True | Some (lo, _) => lo <= e end.
Definition fits (f : format) (x : Q) : Prop :=
  exists m e, Z.abs m < 2 ^ prec f /\ low_ok f e /\ (x == inject_Z m * pow2 e)%Q.
(** ... and its last bit is 0. *)
Definition half (f : format) : format :=
  mkF (prec f - 1) (match bounds f with None => None | Some (lo, hi) => Some (lo + 1, hi) end).
Definition even (f : format) (x : Q) : Prop := fits (half f) x.

(** [y] is the number of the format that is nearest to [x]; if two numbers are equally
    near, the even one. *)
Definition nearest (f : format) (x y : Q) : Prop :=
  fits f y /\
  (forall z, fits f z -> (Qabs (x - y) <= Qabs (x - z))%Q) /\
  (forall z, fits f z -> (Qabs (x - y) == Qabs (x - z))%Q -> (z == y)%Q \/ even f y).

(** The results without rounding. *)
Definition exact (o : binop) : Q -> Q -> Q :=
  match o with Oadd => Qplus | Osub => Qminus | Omul => Qmult | Odiv => Qdiv end.

(** The order of the numbers, with the infinities. *)
Definition less (x y : num) : Prop :=
  match x, y with
  | NaN, _ | _, NaN => False
  | Inf true, Inf true => False
  | Inf true, _ => True
  | _, Inf true => False
  | Inf false, _ => False
  | _, Inf false => True
  | _, _ => (val x < val y)%Q
  end.
Definition same (x y : num) : Prop := x <> NaN /\ y <> NaN /\ ~ less x y /\ ~ less y x.

(** Operations whose result is given by convention (IEEE 754). *)
Definition is_zero (x : num) : bool := match x with Zero _ => true | _ => false end.
Definition is_inf (x : num) : bool := match x with Inf _ => true | _ => false end.
Definition negative (x : num) : bool := match x with Inf true | Zero true | Num true _ _ => true | _ => false end.
(** No result: *)
Definition undefined (o : binop) (x y : num) : Prop :=
  x = NaN \/ y = NaN \/
  match o with
  | Oadd => is_inf x = true /\ is_inf y = true /\ negative x <> negative y
  | Osub => is_inf x = true /\ is_inf y = true /\ negative x = negative y
  | Omul => is_inf x = true /\ is_zero y = true \/ is_zero x = true /\ is_inf y = true
  | Odiv => is_inf x = true /\ is_inf y = true \/ is_zero x = true /\ is_zero y = true
  end.
(** An infinite result: *)
Definition infinite (o : binop) (x y : num) : Prop :=
  match o with
  | Oadd | Osub | Omul => is_inf x = true \/ is_inf y = true
  | Odiv => is_inf x = true \/ is_zero y = true
  end.
Definition infinite_sign (o : binop) (x y : num) : bool :=
  match o with
  | Oadd => if is_inf x then negative x else negative y
  | Osub => if is_inf x then negative x else negb (negative y)
  | Omul | Odiv => xorb (negative x) (negative y)
  end.

(** A Python float: a number of the format double. *)
Definition is_double (d : num) : Prop :=
  match d with Num _ m e => Z.odd (Zpos m) = true /\ Zpos m < 2 ^ 53 /\ -1074 <= e /\ Z.log2 (Zpos m) + e < 1024 | _ => True end.

(** The numbers a Python float can hold, and the results of a conversion to float that
    no float lies between the number and its conversion. *)
Definition double_value (z : Q) : Prop := fits double z /\ (Qabs z < pow2 1024)%Q.
Definition faithful (x r : num) : Prop :=
  match r with
  | NaN => False
  | Inf false => forall z, double_value z -> (z <= val x)%Q
  | Inf true => forall z, double_value z -> (val x <= z)%Q
  | _ => double_value (val r) /\ forall z, double_value z -> ~ (val x < z < val r)%Q /\ ~ (val r < z < val x)%Q
  end.

(** Names bound to objects. *)
Definition bound (s : store) (x : nat) : Prop := (vars s x < length (objs s))%nat.
