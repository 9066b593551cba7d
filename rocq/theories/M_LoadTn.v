(** Model of load_tn for a TensorNetwork (tnco/app/app.py:308-417).

    Options: [dec] is decompose_hyper_inds and [width] is fuse, None standing for both
    None and False. The conversion of arrays to a type and backend (app.py:312-314) is
    not modelled; entries are compared exactly (atol = 0). Tags of tensors are
    dictionaries: the empty one, one given by the user, here a number, or the pair of
    two others. Of the tags of the network only the two that load_tn sets are modelled. *)
From Verif Require Import M_Base M_Path M_PyTree M_Random M_Fuse M_Tensor M_Contract M_Decompose M_TnApp.
Set Implicit Arguments.

Inductive tag := Empty | Given (n : nat) | Pair (x y : tag).
(** dict(x=tags_x_, y=tags_y_) unless one of them is None (app.py:395-402) *)
Definition pair_tags (x y : option tag) : option tag :=
  match x, y with
  | None, None => None
  | None, Some b => Some b
  | Some a, None => Some a
  | Some a, Some b => Some (Pair a b)
  end.
(** 389-402 *)
Fixpoint fuse_tags (p : path) (l : list (option tag)) : res (list (option tag)) :=
  match p with
  | [] => Ok l
  | (a, b) :: p' =>
      let '(x, y) := sort2 a b in
      let! (ty, l1) := pop l y in
      let! (tx, l2) := pop l1 x in
      fuse_tags p' (l2 ++ [pair_tags tx ty])
  end.

Section LoadTn.
Variable K : Type.
Variable A : alg K.
Variable eqb : K -> K -> bool.

(** A TensorNetwork: [o_net] is modelled in M_TnApp; [o_tags] are the tags of its
    tensors; [o_hyper] and [o_path] are its tags 'hyper_inds_map' and 'fuse_path'. *)
Record object := mkO { o_net : tnet K; o_tags : list tag; o_hyper : option (list (nat * nat)); o_path : option path }.

Definition provided (l : list (option (nda K))) : list (nda K) :=
  flat_map (fun a => match a with Some b => [b] | None => [] end) l.
(** obj.dims, as utils.tn takes it *)
Definition py_dims (d : list (nat * Z)) : pydims := PyDict (map (fun e => (fst e, Z.to_N (snd e))) d).
(** map(lambda xs, a, tags: Tensor(xs, dims=map(dims.get, xs), array=a, tags=tags),
    ts_inds, arrays, ts_tags) (app.py:411-414), which ends with the shortest list *)
Fixpoint remake (dims : list (nat * Z)) (ts : list (list nat)) (arrays : list (option (nda K))) (tags : list (option tag))
  : res (list (tensor K) * list tag) :=
  match ts, arrays, tags with
  | xs :: ts', a :: arrays', t :: tags' =>
      let! ds := mapM (dict_get dims) xs in
      let! T := make_tensor xs (DMany ds) a in
      let! (Ts, gs) := remake dims ts' arrays' tags' in
      Ok (T :: Ts, (match t with Some g => g | None => Empty end) :: gs)
  | _, _, _ => Ok ([], [])
  end.

Variable R : Type.
Variable g : prng R.
Variable lg : N -> Z.
Variable arr : list nat -> list nat.

Definition load_tn (o : object) (dec : bool) (width : option Z) (r : R) : res object :=
  let n := o_net o in
  let ts := map (@t_inds K) (n_list n) in                                           (* 310 *)
  let arrays := map (@t_array K) (n_list n) in                                      (* 312-314 *)
  let np := length (provided arrays) in                                             (* 321 *)
  let sparse := negb (length (n_sparse n) =? 0) in
  let dec := dec && negb sparse && negb (np <? length arrays) in                    (* 325-337 *)
  let width := if sparse || negb ((np =? 0) || (np =? length arrays)) then None else width in   (* 329, 341-342 *)
  let! (u, hyper) :=
    if dec then
      let! (d, m) := decompose_network A eqb (provided arrays) ts in                (* 352 *)
      let! out := mapM (dict_get m) (n_out n) in                                    (* 354 *)
      match o_hyper o with
      | Some _ => Err Throw                                                         (* 361-363 *)
      | None => Ok (map Some (fst d), snd d, unique out, map (fun _ => None) (fst d), Some m)   (* 358, 364 *)
      end
    else Ok (arrays, ts, n_out n, map Some (o_tags o), o_hyper o) in
  let '(arrays, ts, out, tags) := u in
  let! (u, fp) :=
    match width with
    | Some w =>
        if (0 <? w)%Z then                                                          (* 367 *)
          let! (p, _) := fuse g lg ts (py_dims (n_dims n)) w (Some out) [] r in     (* 369-374 *)
          let! (c, ar) := contract A arr p ts (Some out) (if np =? 0 then None else Some (provided arrays))
                            (Some (py_dims (n_dims n))) in                          (* 377-384 *)
          let! tags' := fuse_tags p tags in                                         (* 389-402 *)
          match o_path o with
          | Some _ => Err Throw                                                     (* 405-407 *)
          | None => Ok (match ar with Some l => map Some l | None => arrays end, fst c, snd c, tags', Some p)   (* 385-386, 408 *)
          end
        else Ok (arrays, ts, out, tags, o_path o)
    | None => Ok (arrays, ts, out, tags, o_path o)
    end in
  let '(arrays, ts, out, tags) := u in
  let! (Ts, gs) := remake (n_dims n) ts arrays tags in
  let! n' := make_network Ts (Some out) (Some (n_sparse n)) in                      (* 411-417 *)
  Ok (mkO n' gs hyper fp).
End LoadTn.
