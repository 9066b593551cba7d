(** Model of svd (tnco/utils/tensor.py:259-359). The factorisation itself,
    numpy.linalg.svd, is a parameter; so are the test of a singular value against
    the threshold and the random names. *)
From Verif Require Import M_Base M_Path M_PyTree M_OSet M_Tensor.
Set Implicit Arguments.

Section Svd.
Variable K : Type.
Variable A : alg K.
(** numpy.linalg.svd(M, full_matrices=False): U, s, Vh. *)
Variable linalg_svd : nda K -> nda K * list K * nda K.
(** s >= atol *)
Variable large : K -> bool.
(** The k-th name ''.join(Random(seed).choices(..)). With a seed given, a new
    generator is made of the same seed every time, so that they are all equal. *)
Variable names : nat -> nat.

(** a.reshape(pre + (-1,) + post): the missing size is the quotient; numpy raises if
    it is not determined or not whole. *)
Definition reshape_infer (a : nda K) (pre post : list nat) : res (nda K) :=
  let p := prod pre * prod post in
  if (p =? 0) || negb (length (data a) mod p =? 0) then Err Throw else
  Ok (mkA (pre ++ [length (data a) / p] ++ post) (data a)).

(** pos = (s >= atol): the kept positions. *)
Definition kept (s : list K) : list nat := filter (fun r => large (nth r s (zero A))) (seq 0 (length s)).
(** U[:, pos] and Vh[pos] of matrices. *)
Definition columns (a : nda K) (ps : list nat) : nda K :=
  let sh := [nth 0 (shape a) 0; length ps] in
  mkA sh (map (fun ix => entry A a [nth 0 ix 0; nth (nth 1 ix 0) ps 0]) (indices sh)).
Definition rows (a : nda K) (ps : list nat) : nda K :=
  let sh := [length ps; nth 1 (shape a) 0] in
  mkA sh (map (fun ix => entry A a [nth (nth 0 ix 0) ps 0; nth 1 ix 0]) (indices sh)).

(** 316-319: draw names until one is not in use. *)
Fixpoint new_name (fuel k : nat) (inds : list nat) : res nat :=
  match fuel with
  | O => Err Fuel
  | S f => if memb (names k) inds then new_name f (S k) inds else Ok (names k)
  end.

(** 259-359 *)
Definition svd (fuel : nat) (array : nda K) (inds left_inds : list nat) (svd_index_name : option nat)
  : res (list (nda K * list nat)) :=
  if negb (length (shape array) =? length inds) then Err Throw else               (* 308 *)
  if negb (forallb (fun x => memb x inds) left_inds) then Err Throw else          (* 310 *)
  if match svd_index_name with Some x => memb x inds | None => false end then Err Throw else
  let! name := match svd_index_name with Some x => Ok x | None => new_name fuel 0 inds end in
  if (length left_inds =? 0) || (length left_inds =? length (shape array)) then   (* 322-324 *)
    let l := if length left_inds =? 0 then inds else left_inds in
    let! p := mapM (fun x => index Nat.eqb x inds) l in
    let! t := transpose A array p in
    Ok [(t, l)]
  else
  let dims := dict_of (combine inds (shape array)) in                             (* 327 *)
  let right_inds := filter (fun x => negb (memb x left_inds)) inds in             (* 330 *)
  let! dl := sizes dims left_inds in
  let! dr := sizes dims right_inds in
  let! p := mapM (fun x => index Nat.eqb x inds) (left_inds ++ right_inds) in
  let! t := transpose A array p in
  let! m := reshape_infer t [prod dl] [] in                                       (* 337-340 *)
  let '(u, s, vh) := linalg_svd m in                                              (* 343 *)
  let ps := kept s in                                                             (* 347-350 *)
  let! ul := reshape_infer (columns u ps) dl [] in                                (* 353-354 *)
  let! vr := reshape_infer (rows vh ps) [] dr in
  Ok [(ul, left_inds ++ [name]);
      (mkA [length ps] (map (fun r => nth r s (zero A)) ps), [name]);
      (vr, name :: right_inds)].
End Svd.
