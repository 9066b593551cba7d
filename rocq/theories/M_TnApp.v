(** Model of read_inds (tnco/utils/tn.py:497-547), of Tensor and TensorNetwork
    (tnco/app/tn.py:98-137, 203-264) and of loading a list of indices
    (tnco/app/app.py:471-486, up to the recursive call that fuses it).

    Indices and tensor names are naturals, so are the two tokens; dictionaries are
    association lists in insertion order and frozensets are lists without repetition.
    Dimensions are integers: values that are not integers (or are integral floats) are
    not modelled. Tags are not modelled, except for the name of a loaded tensor, which
    is the key of the tensor map. *)
From Verif Require Import M_Base M_Path M_PyTree M_Tensor.
Set Implicit Arguments.

(** An item [i: (d, *ts)] of inds_map (utils/tn.py:533). *)
Definition item := (nat * (Z * list nat))%type.

(** tensor_map[t].append(i), tensor_map being a defaultdict(list) (utils/tn.py:536) *)
Definition append_to (tm : list (nat * list nat)) (t i : nat) : list (nat * list nat) :=
  dict_set tm t ((match dict_get tm t with Ok xs => xs | Err _ => [] end) ++ [i]).
(** utils/tn.py:535-536 *)
Definition read_item (tm : list (nat * list nat)) (e : item) : list (nat * list nat) :=
  fold_left (fun tm t => append_to tm t (fst e)) (snd (snd e)) tm.
(** tensor_map.pop(t, ()) (utils/tn.py:539, 542) *)
Definition pop_list (tm : list (nat * list nat)) (t : nat) : list nat * list (nat * list nat) :=
  match dict_pop tm t with Ok r => r | Err _ => ([], tm) end.

Record read := mkR { r_map : list (nat * list nat); r_dims : list (nat * Z); r_out : list nat; r_sparse : list nat }.

(** utils/tn.py:524-547. The loop fills two dictionaries that do not depend on each
    other, here one after the other. *)
Definition read_inds (m : list item) (out_token sparse_token : nat) : res read :=
  if out_token =? sparse_token then Err Throw else                                  (* 524-526 *)
  let dims := dict_of (map (fun e => (fst e, fst (snd e))) m) in                    (* 534 *)
  let tm := fold_left read_item m [] in                                             (* 533-536 *)
  let (out, tm) := pop_list tm out_token in                                         (* 539 *)
  let (sparse, tm) := pop_list tm sparse_token in                                   (* 542 *)
  Ok (mkR tm dims (unique out) (unique sparse)).

Section Network.
Variable K : Type.

(** The argument [dims] of Tensor: missing, one integer, or a sequence. *)
Inductive dims_arg := DNone | DOne (d : Z) | DMany (ds : list Z).

Record tensor := mkT { t_inds : list nat; t_dims : list Z; t_array : option (nda K) }.

Fixpoint eqb_dims (l k : list Z) : bool :=
  match l, k with
  | [], [] => true
  | x :: l', y :: k' => (x =? y)%Z && eqb_dims l' k'
  | _, _ => false
  end.

(** Tensor.__post_init__ (app/tn.py:98-137) *)
Definition make_tensor (inds : list nat) (dims : dims_arg) (array : option (nda K)) : res tensor :=
  let! ds := match dims, array with
    | DNone, None => Err Throw                                                      (* 107-108 *)
    | DNone, Some a => Ok (map Z.of_nat (shape a))                                  (* 115 *)
    | DMany ds, _ => Ok ds                                                          (* 120 *)
    | DOne d, _ => if (d <? 1)%Z then Err Throw else Ok (repeat d (length inds))    (* 122-125 *)
    end in
  if existsb (fun d => (d <? 1)%Z) ds then Err Throw else                           (* 130-131 *)
  if negb (length ds =? length inds) then Err Throw else                            (* 132-133 *)
  match array with
  | Some a => if eqb_dims (map Z.of_nat (shape a)) ds then Ok (mkT inds ds array) else Err Throw   (* 136-137 *)
  | None => Ok (mkT inds ds array)
  end.

Record tnet := mkN { n_list : list tensor; n_inds : list nat; n_dims : list (nat * Z); n_out : list nat; n_sparse : list nat }.

(** self.ts_inds flattened *)
Definition all_inds (ts : list tensor) : list nat := flat_map t_inds ts.
(** hyper_count[x] + 1 (app/tn.py:236-238) *)
Definition occurrences (ts : list tensor) (x : nat) : nat := length (filter (Nat.eqb x) (all_inds ts)).
(** t.dims == tuple(map(self.dims.get, t.inds)) (app/tn.py:231) *)
Definition same_dims (dims : list (nat * Z)) (t : tensor) : bool :=
  match mapM (dict_get dims) (t_inds t) with Ok ds => eqb_dims (t_dims t) ds | Err _ => false end.
Definition subset (l k : list nat) : bool := forallb (fun x => memb x k) l.

(** TensorNetwork.__post_init__ (app/tn.py:203-264); that the items are tensors (213)
    is their type here. Lines 257-258 are subsumed by 261-262. *)
Definition make_network (ts : list tensor) (out sparse : option (list nat)) : res tnet :=
  let sp := unique (match sparse with Some s => s | None => [] end) in              (* 208-210 *)
  let inds := unique (all_inds ts) in                                               (* 217-219 *)
  let dims := dict_of (flat_map (fun t => combine (t_inds t) (t_dims t)) ts) in     (* 222-227 *)
  if negb (forallb (same_dims dims) ts) then Err Throw else                         (* 230-233 *)
  let! o := match out with
    | Some o => Ok (unique o)                                                       (* 207 *)
    | None => if existsb (fun x => 1 <? occurrences ts x - 1) inds then Err Throw   (* 243-245 *)
              else Ok (filter (fun x => occurrences ts x - 1 =? 0) inds)            (* 248-251 *)
    end in
  if negb (subset o inds) then Err Throw else                                       (* 257-262 *)
  if negb (subset sp inds) then Err Throw else                                      (* 263-264 *)
  Ok (mkN ts inds dims o sp).

(** Loading a list of indices (app/app.py:471-486): [obj] lists (dimension, names).
    An item without names is not recognised and ends in the TypeError at the end of
    load_tn. *)
Definition load_inds (obj : list (Z * list nat)) (out_token sparse_token : nat) : res (list nat * tnet) :=
  if existsb (fun e => match snd e with [] => true | _ => false end) obj then Err Throw else
  let! r := read_inds (combine (seq 0 (length obj)) obj) out_token sparse_token in
  let! ts := mapM (fun e => let! ds := mapM (dict_get (r_dims r)) (snd e) in make_tensor (snd e) (DMany ds) None) (r_map r) in
  let! n := make_network ts (Some (r_out r)) (Some (r_sparse r)) in
  Ok (map fst (r_map r), n).
End Network.
Arguments make_network {K}. Arguments make_tensor {K}.
