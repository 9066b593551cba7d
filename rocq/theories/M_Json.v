(** Model of Python's json.dumps and json.loads with their default options, as
    tnco/app/tn.py:173, 361, app.py:87, 130 and the encoders of sa.py use them
    (CPython Lib/json/encoder.py, decoder.py, scanner.py). A string is a list of code
    points. Floating-point numbers are a type with their repr and float(); the limit on
    the number of digits of an int and the limit on the depth of recursion are not
    modelled. *)
From Coq Require Import List ZArith Bool.
Import ListNotations.
Set Implicit Arguments.
Local Open Scope Z_scope.

Definition text := list Z.

Section Json.
Variable F : Type.                 (* finite floats *)
Variable frepr : F -> text.        (* float.__repr__ *)
Variable fread : text -> F.        (* float *)

Inductive float := Fin (x : F) | Inf | NInf | NaN.
(** What json.dumps encodes: lists and tuples alike; the keys of a dict are strings,
    ints, floats, bools or None. *)
Inductive key := KStr (s : text) | KInt (z : Z) | KFloat (x : float) | KBool (b : bool) | KNone.
Inductive value :=
| VNone | VBool (b : bool) | VInt (z : Z) | VFloat (x : float) | VStr (s : text)
| VList (l : list value) | VDict (l : list (key * value)).

(** * json.dumps *)
Definition ch (l : list Z) : text := l.
Definition quote := 34. Definition backslash := 92.
Definition t_null : text := [110; 117; 108; 108].
Definition t_true : text := [116; 114; 117; 101].
Definition t_false : text := [102; 97; 108; 115; 101].
Definition t_nan : text := [78; 97; 78].
Definition t_inf : text := [73; 110; 102; 105; 110; 105; 116; 121].
Definition t_ninf : text := 45 :: t_inf.

(** int.__repr__ *)
Fixpoint digits_loop (fuel : nat) (z : Z) : text :=
  match fuel with
  | O => []
  | S f => if z <? 10 then [48 + z] else digits_loop f (z / 10) ++ [48 + z mod 10]
  end.
Definition digits (z : Z) : text := digits_loop (S (Z.to_nat (Z.log2 z))) z.
Definition int_repr (z : Z) : text := if z <? 0 then 45 :: digits (- z) else digits z.

(** floatstr (encoder.py:224-242) *)
Definition float_repr (x : float) : text :=
  match x with Fin y => frepr y | Inf => t_inf | NInf => t_ninf | NaN => t_nan end.

(** py_encode_basestring_ascii (encoder.py:54-73); '{:04x}'.format *)
Definition hex_digit (d : Z) : Z := if d <? 10 then 48 + d else 87 + d.
Definition hex4 (n : Z) : text :=
  [hex_digit (n / 4096); hex_digit (n / 256 mod 16); hex_digit (n / 16 mod 16); hex_digit (n mod 16)].
Definition u_escape (n : Z) : text := backslash :: 117 :: hex4 n.
Definition escape (c : Z) : text :=
  if c =? quote then [backslash; quote]
  else if c =? backslash then [backslash; backslash]
  else if c =? 10 then [backslash; 110]
  else if c =? 13 then [backslash; 114]
  else if c =? 9 then [backslash; 116]
  else if c =? 12 then [backslash; 102]
  else if c =? 8 then [backslash; 98]
  else if (32 <=? c) && (c <=? 126) then [c]
  else if c <? 65536 then u_escape c
  else u_escape (55296 + (c - 65536) / 1024) ++ u_escape (56320 + (c - 65536) mod 1024).
Definition str_repr (s : text) : text := quote :: flat_map escape s ++ [quote].

(** Keys of other types are converted to strings (encoder.py:346-368). *)
Definition key_text (k : key) : text :=
  match k with
  | KStr s => s
  | KInt z => int_repr z
  | KFloat x => float_repr x
  | KBool b => if b then t_true else t_false
  | KNone => t_null
  end.

(** _make_iterencode (encoder.py:256-442), separators ', ' and ': ' *)
Fixpoint joined (l : list text) : text :=
  match l with [] => [] | [x] => x | x :: l' => x ++ 44 :: 32 :: joined l' end.
Fixpoint dumps (v : value) : text :=
  match v with
  | VNone => t_null
  | VBool b => if b then t_true else t_false
  | VInt z => int_repr z
  | VFloat x => float_repr x
  | VStr s => str_repr s
  | VList l => 91 :: joined (map dumps l) ++ [93]
  | VDict l => 123 :: joined (map (fun kv => str_repr (key_text (fst kv)) ++ 58 :: 32 :: dumps (snd kv)) l) ++ [125]
  end.

(** * json.loads *)
(** [None] is a JSONDecodeError. *)
Definition space (c : Z) : bool := (c =? 32) || (c =? 9) || (c =? 10) || (c =? 13).
Fixpoint skip (s : text) : text :=
  match s with c :: s' => if space c then skip s' else s | [] => [] end.

Definition hex_value (c : Z) : option Z :=
  if (48 <=? c) && (c <=? 57) then Some (c - 48)
  else if (97 <=? c) && (c <=? 102) then Some (c - 87)
  else if (65 <=? c) && (c <=? 70) then Some (c - 55)
  else None.
(** Four hexadecimal digits (_json.c scanstring_unicode) *)
Definition read4 (s : text) : option (Z * text) :=
  match s with
  | a :: b :: c :: d :: s' =>
      match hex_value a, hex_value b, hex_value c, hex_value d with
      | Some a, Some b, Some c, Some d => Some (((a * 16 + b) * 16 + c) * 16 + d, s')
      | _, _, _, _ => None
      end
  | _ => None
  end.
Definition high (c : Z) : bool := (55296 <=? c) && (c <=? 56319).
Definition low (c : Z) : bool := (56320 <=? c) && (c <=? 57343).
Definition combine_surrogates (h l : Z) : Z := 65536 + (h - 55296) * 1024 + (l - 56320).

Definition unescape (c : Z) : option Z :=
  if (c =? quote) || (c =? backslash) || (c =? 47) then Some c
  else if c =? 98 then Some 8 else if c =? 102 then Some 12 else if c =? 110 then Some 10
  else if c =? 114 then Some 13 else if c =? 116 then Some 9 else None.

(** After the opening quote (decoder.py:67-129) *)
Fixpoint scanstring (fuel : nat) (s : text) : option (text * text) :=
  match fuel with
  | O => None
  | S f =>
      let more (c : Z) (s : text) := match scanstring f s with Some (t, r) => Some (c :: t, r) | None => None end in
      match s with
      | [] => None
      | c :: s' =>
          if c =? quote then Some ([], s')
          else if c =? backslash then
            match s' with
            | [] => None
            | e :: s'' =>
                if e =? 117 then
                  match read4 s'' with
                  | None => None
                  | Some (u, r) =>
                      if high u then
                        match r with
                        | b :: e' :: r' =>
                            if (b =? backslash) && (e' =? 117) then
                              match read4 r' with
                              | None => None
                              | Some (u', r'') => if low u' then more (combine_surrogates u u') r'' else more u r
                              end
                            else more u r
                        | _ => more u r
                        end
                      else more u r
                  end
                else match unescape e with Some c' => more c' s'' | None => None end
            end
          else if c <? 32 then None
          else more c s'
      end
  end.

(** NUMBER_RE (scanner.py:13-15) *)
Definition is_digit (c : Z) : bool := (48 <=? c) && (c <=? 57).
Fixpoint take_digits (s : text) : text * text :=
  match s with
  | c :: s' => if is_digit c then let (d, r) := take_digits s' in (c :: d, r) else ([], s)
  | [] => ([], [])
  end.
(** -?(0|[1-9]\d* ) *)
Definition read_integer (s : text) : option (text * text) :=
  let (sign, s0) := match s with c :: s' => if c =? 45 then ([c], s') else ([], s) | [] => ([], []) end in
  match s0 with
  | c :: s' =>
      if c =? 48 then Some (sign ++ [c], s')
      else if is_digit c then let (d, r) := take_digits s' in Some (sign ++ c :: d, r)
      else None
  | [] => None
  end.
(** (\.\d+)? *)
Definition read_fraction (s : text) : text * text :=
  match s with
  | c :: s' => if c =? 46 then match take_digits s' with ([], _) => ([], s) | (d, r) => (c :: d, r) end else ([], s)
  | [] => ([], [])
  end.
(** ([eE][-+]?\d+)? *)
Definition read_exponent (s : text) : text * text :=
  match s with
  | c :: s' =>
      if (c =? 101) || (c =? 69) then
        let (sign, s0) := match s' with d :: s'' => if (d =? 45) || (d =? 43) then ([d], s'') else ([], s') | [] => ([], []) end in
        match take_digits s0 with ([], _) => ([], s) | (d, r) => (c :: sign ++ d, r) end
      else ([], s)
  | [] => ([], [])
  end.
(** int of decimal digits *)
Definition digits_value (l : text) : Z := fold_left (fun n c => 10 * n + (c - 48)) l 0.
Definition int_value (l : text) : Z :=
  match l with c :: l' => if c =? 45 then - digits_value l' else digits_value l | [] => 0 end.
Definition read_number (s : text) : option (value * text) :=
  match read_integer s with
  | None => None
  | Some (i, r) =>
      let (fr, r1) := read_fraction r in
      let (ex, r2) := read_exponent r1 in
      match fr ++ ex with
      | [] => Some (VInt (int_value i), r)
      | _ => Some (VFloat (Fin (fread (i ++ fr ++ ex))), r2)
      end
  end.

Fixpoint starts (p s : text) : option text :=
  match p, s with
  | [], _ => Some s
  | a :: p', b :: s' => if a =? b then starts p' s' else None
  | _, [] => None
  end.

(** dict(pairs): the last value of a key, at the place of the first. *)
Fixpoint teqb (a b : text) : bool :=
  match a, b with
  | [], [] => true
  | x :: a', y :: b' => (x =? y) && teqb a' b'
  | _, _ => false
  end.
Fixpoint put (l : list (text * value)) (k : text) (v : value) : list (text * value) :=
  match l with
  | [] => [(k, v)]
  | (k', v') :: l' => if teqb k' k then (k, v) :: l' else (k', v') :: put l' k v
  end.
Definition dict_of (l : list (text * value)) : value :=
  VDict (map (fun kv => (KStr (fst kv), snd kv)) (fold_left (fun d kv => put d (fst kv) (snd kv)) l [])).

(** JSONArray and JSONObject after the first bracket and white space
    (decoder.py:138-224, 226-255); [val] is scan_once. *)
Fixpoint items (val : text -> option (value * text)) (fuel : nat) (s : text) : option (list value * text) :=
  match fuel with
  | O => None
  | S f =>
      match val s with
      | None => None
      | Some (v, r) =>
          match skip r with
          | c :: r' =>
              if c =? 93 then Some ([v], r')
              else if c =? 44 then match items val f (skip r') with Some (l, r'') => Some (v :: l, r'') | None => None end
              else None
          | [] => None
          end
      end
  end.
Fixpoint members (val : text -> option (value * text)) (fuel : nat) (s : text) : option (list (text * value) * text) :=
  match fuel with
  | O => None
  | S f =>
      match s with
      | q :: s' =>
          if q =? quote then
            match scanstring (length s) s' with
            | None => None
            | Some (k, r0) =>
                match skip r0 with
                | c :: r1 =>
                    if c =? 58 then
                      match val (skip r1) with
                      | None => None
                      | Some (v, r) =>
                          match skip r with
                          | c :: r' =>
                              if c =? 125 then Some ([(k, v)], r')
                              else if c =? 44 then match members val f (skip r') with Some (l, r'') => Some ((k, v) :: l, r'') | None => None end
                              else None
                          | [] => None
                          end
                      end
                    else None
                | [] => None
                end
            end
          else None
      | [] => None
      end
  end.

(** py_make_scanner (scanner.py:17-64) *)
Fixpoint scan_once (fuel : nat) (s : text) : option (value * text) :=
  match fuel with
  | O => None
  | S f =>
      match s with
      | [] => None
      | c :: s' =>
          if c =? quote then match scanstring (length s) s' with Some (t, r) => Some (VStr t, r) | None => None end
          else if c =? 123 then
            match skip s' with
            | d :: r => if d =? 125 then Some (VDict [], r)
                        else match members (scan_once f) (length s) (d :: r) with Some (l, r') => Some (dict_of l, r') | None => None end
            | [] => None
            end
          else if c =? 91 then
            match skip s' with
            | d :: r => if d =? 93 then Some (VList [], r)
                        else match items (scan_once f) (length s) (d :: r) with Some (l, r') => Some (VList l, r') | None => None end
            | [] => None
            end
          else match starts t_null s with Some r => Some (VNone, r) | None =>
          match starts t_true s with Some r => Some (VBool true, r) | None =>
          match starts t_false s with Some r => Some (VBool false, r) | None =>
          match read_number s with Some x => Some x | None =>
          match starts t_nan s with Some r => Some (VFloat NaN, r) | None =>
          match starts t_inf s with Some r => Some (VFloat Inf, r) | None =>
          match starts t_ninf s with Some r => Some (VFloat NInf, r) | None => None
          end end end end end end end
      end
  end.

(** json.loads of a string (json/__init__.py:339-346), JSONDecoder.decode
    (decoder.py:338-347): a byte order mark is an error. *)
Definition loads (s : text) : option value :=
  match s with
  | c :: _ =>
      if c =? 65279 then None else
      match scan_once (S (length s)) (skip s) with
      | Some (v, r) => match skip r with [] => Some v | _ => None end
      | None => None
      end
  | [] => None
  end.
End Json.
