(** Model of the JSON form of tensor networks and results (tnco/app/tn.py:32-69, 164-173,
    360-361, app.py:45-55, 86-87, 663-667, infinite_memory/sa.py:37-57, 77-85,
    finite_width/sa.py:40-68). Tuples and lists are the same [VList]; an index is any
    value that JSON can hold; a frozenset comes as the list of its elements in the order
    of iteration. *)
From Coq Require Import List ZArith Bool String Ascii.
Import ListNotations.
From Verif Require Import M_Json.
Set Implicit Arguments.
Local Open Scope Z_scope.

(** A Python string literal. *)
Definition str (s : string) : text := map (fun a => Z.of_nat (nat_of_ascii a)) (list_ascii_of_string s).

Section Encode.
Variable F : Type.
Variable frepr : F -> text.
Local Notation value := (value F).
Local Notation float := (float F).

(** array.tolist(): numbers in nested lists *)
Inductive entries :=
| EBool (b : bool) | EInt (z : Z) | EFloat (x : float) | EComplex (re im : float) | EList (l : list entries).

(** format(x, '') of a float *)
Definition float_str (x : float) : text :=
  match x with Fin y => frepr y | Inf _ => str "inf" | NInf _ => str "-inf" | NaN _ => str "nan" end.
(** tn.py:50-51 *)
Definition complex_text (re im : float) : text := float_str re ++ str " + " ++ float_str im ++ str "j".
Fixpoint enc_entries (e : entries) : value :=
  match e with
  | EBool b => VBool F b
  | EInt z => VInt F z
  | EFloat x => VFloat x
  | EComplex re im => VStr F (complex_text re im)
  | EList l => VList (map enc_entries l)
  end.

(** Tensor and TensorNetwork; the tags of the network are not written. *)
Record tensor := mk_tensor { t_inds : list value; t_dims : list Z; t_array : option entries; t_tags : list (key F * value) }.
Record network := mk_network { n_tensors : list tensor; n_output : list value; n_sparse : list value }.
Definition dict (l : list (string * value)) : value := VDict (map (fun kv => (KStr F (str (fst kv)), snd kv)) l).
Definition ints (l : list Z) : value := VList (map (VInt F) l).
(** tn.py:54-58 *)
Definition enc_tensor (t : tensor) : value :=
  dict [("inds", VList (t_inds t)); ("dims", ints (t_dims t));
        ("array", match t_array t with None => VNone F | Some a => enc_entries a end); ("tags", VDict (t_tags t))]%string.
(** tn.py:59-62 *)
Definition enc_network (n : network) : value :=
  dict [("tensors", VList (map enc_tensor (n_tensors n))); ("output_inds", VList (n_output n)); ("sparse_inds", VList (n_sparse n))]%string.

(** Results: the cost is a Decimal, written as str(cost) ([r_cost]); the costs of the
    disconnected paths are not written. [r_sliced] holds the slices and disconnected
    slices of the results with finite width. *)
Record results := mk_results { r_cost : text; r_runtime : float; r_path : list (list Z); r_paths : list (list (list Z)); r_sliced : option (list value * list (list value)) }.
Definition enc_path (p : list (list Z)) : value := VList (map ints p).
(** app.py:45-55, infinite_memory/sa.py:51-53, finite_width/sa.py:56-60 *)
Definition enc_results (r : results) : value :=
  dict ([("cost", VStr F (r_cost r)); ("runtime_s", VFloat (r_runtime r)); ("path", enc_path (r_path r));
         ("disconnected_paths", VList (map enc_path (r_paths r)))]%string ++
        match r_sliced r with
        | None => []
        | Some (s, ds) => [("disconnected_slices", VList (map (@VList F) ds)); ("slices", VList s)]%string
        end).

(** app.py:664-667 *)
Definition json_output (n : network) (l : list results) : text :=
  str "{""tn"" : " ++ dumps frepr (enc_network n) ++ str ", ""res"" : " ++
  (str "[" ++ joined (map (fun r => dumps frepr (enc_results r)) l) ++ str "]") ++ str "}".
End Encode.
