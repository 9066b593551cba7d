(** Model of get_symbol and get_einsum_subscripts (tnco/utils/tn.py:251-306) and of
    get_einsum_subscripts of tensors (tnco/utils/tensor.py:145-172).

    A character is its code point, a string the list of its characters. Indices are
    naturals (in Python: any hashable). *)
From Coq Require Import NArith.
From Verif Require Import M_Base M_Path M_PyTree M_OSet M_Tensor.
Set Implicit Arguments.
Local Open Scope N_scope.

(** chr: raises from 0x110000 on. *)
Definition chr (k : N) : res N := if k <? 1114112 then Ok k else Err Throw.
(** The letter number [i] of "a...zA...Z" (tn.py:264). *)
Definition letter (i : N) : N := if i <? 26 then 97 + i else 65 + (i - 26).

(** tn.py:251-275 *)
Definition get_symbol (i : N) : res N :=
  if i <? 52 then Ok (letter i)                                                   (* 263 *)
  else if 55296 <=? i then chr (i + 2048)                                         (* 269 *)
  else chr (i + 140).                                                             (* 275 *)

Definition comma : N := 44.
Definition dash : N := 45.
Definition gt : N := 62.
(** ','.join *)
Fixpoint join_comma (l : list (list N)) : list N :=
  match l with
  | [] => []
  | [s] => s
  | s :: l' => s ++ comma :: join_comma l'
  end.
(** ''.join(map(d.get, xs)): raises on None. *)
Definition render (d : list (nat * N)) (xs : list nat) : res (list N) := mapM (dict_get d) xs.

(** tn.py:278-306 *)
Definition get_einsum_subscripts (ts : list (list nat)) (out : list nat) : res (list N) :=
  let all := unique (concat ts ++ out) in
  let! syms := mapM (fun i => get_symbol (N.of_nat i)) (seq 0 (length all)) in
  let d := dict_of (combine all syms) in                                          (* 296-301 *)
  let! parts := mapM (render d) ts in
  let! o := render d out in
  Ok (join_comma parts ++ [dash; gt] ++ o).                                       (* 304 *)

(** tensor.py:145-172: only 52 letters; zip stops at the shorter one. *)
Definition get_einsum_subscripts2 (xs ys out : list nat) : res (list N) :=
  let d := dict_of (combine (unique (xs ++ ys ++ out)) (map (fun i => letter (N.of_nat i)) (seq 0 52))) in   (* 166 *)
  let! sx := render d xs in
  let! sy := render d ys in
  let! so := render d out in
  Ok (sx ++ comma :: sy ++ [dash; gt] ++ so).                                     (* 171 *)
