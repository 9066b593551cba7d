(** Specification vocabulary for JSON texts. *)
From Coq Require Import List ZArith Bool.
Import ListNotations.
From Verif Require Import M_Json.
Set Implicit Arguments.
Local Open Scope Z_scope.

(** Code points. *)
Definition code_points (s : text) : Prop := Forall (fun c => 0 <= c < 1114112) s.
Definition printable (s : text) : Prop := Forall (fun c => 32 <= c <= 126) s.

(** Decimal notation with a fraction or an exponent, as repr writes floats:
    an optional sign, 0 or digits that start with another one, then a point with digits,
    an exponent, or both. *)
Definition digit (c : Z) : Prop := 48 <= c <= 57.
Definition some_digits (s : text) : Prop := s <> [] /\ Forall digit s.
Inductive float_text : text -> Prop :=
| float_text_ sign i f e :
    sign = [] \/ sign = [45] ->
    i = [48] \/ (exists c d, i = c :: d /\ 49 <= c <= 57 /\ Forall digit d) ->
    f = [] \/ (exists d, f = 46 :: d /\ some_digits d) ->
    e = [] \/ (exists c s d, e = c :: s ++ d /\ (c = 101 \/ c = 69) /\ (s = [] \/ s = [45] \/ s = [43]) /\ some_digits d) ->
    f ++ e <> [] ->
    float_text (sign ++ i ++ f ++ e).
(** repr writes a float in this way, and float reads it back. *)
Definition float_ok {F : Type} (frepr : F -> text) (fread : text -> F) : Prop :=
  forall x, float_text (frepr x) /\ fread (frepr x) = x.

(** A high surrogate and a low surrogate next to each other. *)
Fixpoint split_pair (s : text) : bool :=
  match s with
  | h :: ((l :: _) as t) => (55296 <=? h) && (h <=? 56319) && (56320 <=? l) && (l <=? 57343) || split_pair t
  | _ => false
  end.
(** Such a pair is read as the character that it stands for in UTF-16. *)
Fixpoint merge (s : text) : text :=
  match s with
  | h :: t =>
      match t with
      | l :: r => if (55296 <=? h) && (h <=? 56319) && (56320 <=? l) && (l <=? 57343)
                  then 65536 + (h - 55296) * 1024 + (l - 56320) :: merge r
                  else h :: merge t
      | [] => [h]
      end
  | [] => []
  end.

Section Spec.
Variable F : Type.
Local Notation value := (value F).

(** Values made of code points. *)
Inductive well_coded : value -> Prop :=
| wc_none : well_coded (VNone F)
| wc_bool b : well_coded (VBool F b)
| wc_int z : well_coded (VInt F z)
| wc_float x : well_coded (VFloat x)
| wc_str s : code_points s -> well_coded (VStr F s)
| wc_list l : Forall well_coded l -> well_coded (VList l)
| wc_dict l : Forall (fun kv => (forall s, fst kv = KStr F s -> code_points s) /\ well_coded (snd kv)) l -> well_coded (VDict l).

(** Values that JSON can hold without change: strings have no pairs of surrogates, the
    keys of a dict are strings, and different. *)
Inductive plain : value -> Prop :=
| pl_none : plain (VNone F)
| pl_bool b : plain (VBool F b)
| pl_int z : plain (VInt F z)
| pl_float x : plain (VFloat x)
| pl_str s : code_points s -> split_pair s = false -> plain (VStr F s)
| pl_list l : Forall plain l -> plain (VList l)
| pl_dict l :
    NoDup (map fst l) ->
    Forall (fun kv => (exists s, fst kv = KStr F s /\ code_points s /\ split_pair s = false) /\ plain (snd kv)) l ->
    plain (VDict l).
End Spec.
