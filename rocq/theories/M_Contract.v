(** Model of contract (tnco/utils/tn.py:859-1025).

    Arrays as in [M_Tensor]; indices are naturals. Positions of the path are naturals:
    Python would also accept negative ones, counted from the end; they are not
    modelled. The dict hyper_count is a function: every key that is looked up
    occurs in the tensors. [arr] gives the order in which a frozenset is
    iterated (hyper_inds, line 996), any permutation. The options backend and
    verbose are dropped. *)
From Verif Require Import M_Base M_Path M_PyTree M_OSet M_Tensor.
Set Implicit Arguments.

Fixpoint list_eqb (l k : list nat) : bool :=
  match l, k with
  | [], [] => true
  | x :: l', y :: k' => (x =? y) && list_eqb l' k'
  | _, _ => false
  end.

(** 908-943: the dimensions; raises unless they are consistent. *)
Definition array_dims {K} (arrays : list (nda K)) (ts : list (list nat)) : list (nat * nat) :=
  dict_of (concat (map2 (fun a xs => combine xs (shape a)) arrays ts)).            (* 931-932 *)
Definition check_dims {K} (ts : list (list nat)) (arrays : option (list (nda K))) (dims : option pydims) : res unit :=
  match arrays, dims with
  | None, None => Err Throw                                                       (* 909 *)
  | None, Some d => let! _ := dims_of d (concat ts) in Ok tt                      (* 928 *)
  | Some l, _ =>
      let ds := array_dims l ts in
      let fits a xs := match sizes ds xs with Ok k => list_eqb (shape a) k | Err _ => false end in
      if negb ((length l =? length ts) && forallb id (map2 fits l ts)) then Err Throw else   (* 933-936 *)
      match dims with
      | None => Ok tt
      | Some d =>
          let! ks := dims_of d (map fst ds) in                                    (* KeyError in 942 *)
          if forallb id (map2 (fun k e => (k =? N.of_nat (snd e))%N) ks ds) then Ok tt else Err Throw   (* 942 *)
      end
  end.

Section Contract.
Variable K : Type.
Variable A : alg K.
Variable arr : list nat -> list nat.
Variable out : list nat.

(** 970-1018: the loop over the path. *)
Fixpoint contract_loop (p : path) (ts : list (list nat)) (arrays : option (list (nda K))) (h : nat -> nat)
  : res (list (list nat) * option (list (nda K))) :=
  match p with
  | [] => Ok (ts, arrays)
  | (a, b) :: p' =>
      let '(x, y) := sort2 a b in                                                 (* 970 *)
      if x =? y then Err Throw else                                               (* 975 *)
      let! (ys, ts1) := pop ts y in                                               (* 979 *)
      let! (xs, ts2) := pop ts1 x in                                              (* 980 *)
      let shared := filter (fun s => memb s ys) (unique xs) in                    (* 988 *)
      if existsb (fun s => h s =? 0) shared then Err Throw else                   (* 991 *)
      let hyper := filter (fun s => (1 <? h s) || memb s out) shared in           (* 996-1000 *)
      let h' := fun s => h s - (if memb s shared then 1 else 0) in                (* 1003 *)
      match arrays with
      | None =>
          let! zs := tensordot_inds xs ys (arr hyper) in                          (* 1008 *)
          contract_loop p' (ts2 ++ [zs]) None h'
      | Some l =>
          let! (ay, l1) := pop l y in                                             (* 984 *)
          let! (ax, l2) := pop l1 x in                                            (* 985 *)
          let! (az, zs) := tensordot A ax xs ay ys (arr hyper) in                 (* 1013 *)
          contract_loop p' (ts2 ++ [zs]) (Some (l2 ++ [az])) h'
      end
  end.
End Contract.

(** 859-1025: the indices of the remaining tensors, the output indices, and the
    remaining arrays. *)
Definition contract {K} (A : alg K) (arr : list nat -> list nat) (p : path) (ts : list (list nat)) (output : option (list nat))
  (arrays : option (list (nda K))) (dims : option pydims) : res (list (list nat) * list nat * option (list (nda K))) :=
  let! _ := check_dims ts arrays dims in
  let occ := concat ts in
  let all := unique occ in
  let h := fun x => count x occ - 1 in                                            (* 946 *)
  let! out := match output with
              | None => if existsb (fun x => 1 <? h x) all then Err Throw         (* 953 *)
                        else Ok (filter (fun x => h x =? 0) all)                  (* 959 *)
              | Some o => Ok (unique o)
              end in
  if negb (forallb (fun x => memb x occ) out) then Err Throw else                 (* 966 *)
  let! (ts', arrays') := contract_loop A arr out p ts arrays h in
  Ok (ts', filter (fun x => memb x (concat ts')) out, arrays').                   (* 1021 *)
