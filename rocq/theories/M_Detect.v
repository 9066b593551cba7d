(** Model of how load_tn finds out what it is given (tnco/app/app.py:253-309, 419-475, 488-490
    and 564), up to the call of the reader of the format that it found. The readers are
    modelled in M_LoadTn (TensorNetwork), M_TnApp (lists of indices) and M_Circuit (gates).
    Python objects are those that load_tn looks into; circuits of cirq and qiskit
    (510-561) are not modelled. bool is a kind of int. *)
From Coq Require Import List Arith ZArith Bool.
Import ListNotations.
From Verif Require Import M_Base M_Text.
From Verif Require M_Json.
Set Implicit Arguments.

(** What a Python call does: it returns or raises. [Raised] is any other exception. *)
Inductive exc := TypeError | ValueError | IndexError | KeyError | OverflowError | NotImplementedError | RecursionError | Raised.
Inductive out (X : Type) := Val (x : X) | Raise (e : exc).
Arguments Val {X} x. Arguments Raise {X} e.
Definition andb_ (a : out bool) (b : out bool) : out bool := match a with Val true => b | _ => a end.
(** all(map(f, l)) *)
Fixpoint all_ (X : Type) (f : X -> out bool) (l : list X) : out bool :=
  match l with [] => Val true | x :: l' => andb_ (f x) (all_ f l') end.
Fixpoint same_text (a b : list nat) : bool :=
  match a, b with [], [] => true | x :: a', y :: b' => (x =? y) && same_text a' b' | _, _ => false end.

(** 'stdin' and 'cirq_type' *)
Definition stdin_word := [115; 116; 100; 105; 110].
Definition cirq_type := [99; 105; 114; 113; 95; 116; 121; 112; 101].

Section Detect.
(** Unicode, as in M_Text *)
Variable space : nat -> bool.
Variable digit : nat -> option nat.
Variable newline : nat -> bool.
Variable upper : nat -> list nat.
Variable limit : option nat.
(** TensorNetworks; arrays (a number of numpy is an array without dimensions): their
    shape, a[i], and int(a) == a for an array with one entry *)
Variable N : Type.
Variable A : Type.
Variable shape : A -> list nat.
Variable row : A -> nat -> A.
Variable whole : A -> out bool.
(** floats, as in M_Json; the integer that a finite float is equal to *)
Variable F : Type.
Variable fread : M_Json.text -> F.
Variable fint : F -> option Z.

Inductive obj :=
| ONone | OInt (z : Z) | OFloat (x : M_Json.float F) | OStr (s : list nat)
| OSeq (l : list obj)                 (* a list or a tuple *)
| OSet (l : list obj) | ODict (l : list (obj * obj)) | OArr (a : A) | ONet (n : N)
| OIter.                              (* an Iterator *)

(** The world: the input, whether a string is a valid path, whether it exists, and what
    load_file finds. *)
Record world := mkWorld { w_stdin : list nat; w_valid : list nat -> bool; w_exists : list nat -> out bool; w_file : list nat -> out obj }.

(** len(x); None: TypeError. A TensorNetwork inside another object is not modelled. *)
Definition len (x : obj) : option nat :=
  match x with
  | OStr s => Some (length s) | OSeq l => Some (length l) | OSet l => Some (length l) | ODict l => Some (length l)
  | OArr a => match shape a with [] => None | n :: _ => Some n end
  | _ => None
  end.
Definition key_is (k : nat) (x : obj) : bool :=
  match x with
  | OInt z => (z =? Z.of_nat k)%Z
  | OFloat (M_Json.Fin y) => match fint y with Some z => (z =? Z.of_nat k)%Z | None => false end
  | _ => false
  end.
(** x[k] *)
Definition item (x : obj) (k : nat) : out obj :=
  match x with
  | OStr s => match nth_error s k with Some c => Val (OStr [c]) | None => Raise IndexError end
  | OSeq l => match nth_error l k with Some y => Val y | None => Raise IndexError end
  | ODict l => match find (fun e => key_is k (fst e)) l with Some e => Val (snd e) | None => Raise KeyError end
  | OArr a => match shape a with [] => Raise TypeError | n :: _ => if k <? n then Val (OArr (row a k)) else Raise IndexError end
  | _ => Raise TypeError
  end.

(** is_int (263-268): int(x) == x. int of a string is a number or a ValueError. *)
Definition is_int (x : obj) : out bool :=
  match x with
  | OInt _ => Val true
  | OFloat (M_Json.Fin y) => Val (match fint y with Some _ => true | None => false end)
  | OFloat (M_Json.NaN _) => Val false
  | OFloat _ => Raise OverflowError
  | OArr a => if fold_right Nat.mul 1 (shape a) =? 1 then whole a else Val false
  | _ => Val false
  end.
(** is_random_access (279-287); is_iterator(x) looks at obj, which is no iterator here. *)
Definition is_random_access (x : obj) : out bool :=
  match len x with
  | None => Val false
  | Some _ => match item x 0 with Val _ => Val true | Raise TypeError => Val false | Raise e => Raise e end
  end.
(** is_array, is_matrix (294-301) *)
Definition is_matrix (x : obj) : out bool :=
  andb_ (is_random_access x) (Val match x with OArr a => match shape a with [r; c] => r =? c | _ => false end | _ => false end).
Definition len_is (p : nat -> bool) (x : obj) : out bool := match len x with Some n => Val (p n) | None => Raise TypeError end.
Definition with_item (x : obj) (k : nat) (f : obj -> out bool) : out bool := match item x k with Val y => f y | Raise e => Raise e end.
(** is_gate (303-306) *)
Definition rows (x : obj) : nat := match x with OArr a => match shape a with r :: _ => r | [] => 0 end | _ => 0 end.
Definition is_gate (x : obj) : out bool :=
  andb_ (is_random_access x) (andb_ (len_is (Nat.eqb 2) x) (andb_ (with_item x 0 is_matrix)
    (andb_ (with_item x 1 is_random_access) (with_item x 0 (fun m => with_item x 1 (len_is (fun k => 2 ^ k =? rows m))))))).
(** 473 *)
Definition is_entry (x : obj) : out bool :=
  andb_ (is_random_access x) (andb_ (len_is (Nat.ltb 1) x) (with_item x 0 is_int)).

(** for x in obj *)
Definition elements (x : obj) : out (list obj) :=
  match x with
  | OStr s => Val (map (fun c => OStr [c]) s) | OSeq l => Val l | OSet l => Val l | ODict l => Val (map fst l)
  | OArr a => match shape a with [] => Raise TypeError | n :: _ => Val (map (fun i => OArr (row a i)) (seq 0 n)) end
  | _ => Raise TypeError
  end.

(** The reader that is called, and what it is given. *)
Inductive reader := RNet (n : N) | RInds (l : list obj) | RGates (l : list obj) | RQasm (s : list nat) | RCirq (o : obj).

(** 471-475, 488-490, 564 *)
Definition finish (o : obj) : out reader :=
  match elements o with
  | Raise e => Raise e
  | Val l =>
      match all_ is_entry l with
      | Raise e => Raise e
      | Val true => Val (RInds l)
      | Val false => match all_ is_gate l with Raise e => Raise e | Val true => Val (RGates l) | Val false => Raise TypeError end
      end
  end.

(** (int(d), *x) (443-446) *)
Definition tuple_of (e : Z * list (list nat)) : obj := OSeq (OInt (fst e) :: map OStr (snd e)).
(** json.loads: lists, dicts, strings, numbers *)
Fixpoint of_json (v : M_Json.value F) : obj :=
  match v with
  | M_Json.VNone _ => ONone
  | M_Json.VBool _ b => OInt (if b then 1 else 0)
  | M_Json.VInt _ z => OInt z
  | M_Json.VFloat x => OFloat x
  | M_Json.VStr _ s => OStr (map Z.to_nat s)
  | M_Json.VList l => OSeq (map of_json l)
  | M_Json.VDict l => ODict (map (fun e => match e with (k, w) =>
      (match k with M_Json.KStr _ s => OStr (map Z.to_nat s) | M_Json.KInt _ z => OInt z | M_Json.KFloat x => OFloat x
                  | M_Json.KBool _ b => OInt (if b then 1 else 0) | M_Json.KNone _ => ONone end, of_json w) end) l)
  end.

Variable W : world.
(** load_tn; [fuel] is the number of nested calls that Python allows. *)
Fixpoint detect (fuel : nat) (o : obj) : out reader :=
  match fuel with
  | 0 => Raise RecursionError
  | S f =>
      match o with
      | OIter => Raise NotImplementedError                                                  (* 290-291 *)
      | ONet n => Val (RNet n)                                                              (* 308 *)
      | OStr s =>
          if same_text s stdin_word then detect f (OStr (strip space (w_stdin W))) else     (* 422-423 *)
          match read_text space digit newline upper limit s with                            (* 425-447 *)
          | Err _ => Raise ValueError
          | Ok Qasm => Val (RQasm s)
          | Ok (Inds es) => detect f (OSeq (map tuple_of es))
          | Ok Other =>
              match (if w_valid W s then w_exists W s else Val false) with                  (* 449-455 *)
              | Raise e => Raise e
              | Val true => match w_file W s with Val x => detect f x | Raise e => Raise e end
              | Val false =>
                  match M_Json.loads fread (map Z.of_nat s) with                            (* 457-461 *)
                  | Some v => detect f (of_json v)
                  | None => finish o
                  end
              end
          end
      | ODict l => if existsb (fun e => match fst e with OStr k => same_text k cirq_type | _ => false end) l
                   then Val (RCirq o) else finish o                                         (* 464-469 *)
      | _ => finish o
      end
  end.
End Detect.
Arguments ONone {N A F}. Arguments OIter {N A F}. Arguments OInt {N A F} z. Arguments OStr {N A F} s. Arguments OArr {N A F} a. Arguments ONet {N A F} n. Arguments OFloat {N A F} x.
