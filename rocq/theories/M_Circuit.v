(** Model of tnco/utils/circuit.py: commute, same and load (22-519).

    A gate is a matrix and its qubits; qubits are naturals (in Python: any hashable).
    The tuples (qubit, 'i'), (qubit, 'f'), (qubit, 'shared') and (qubit, t) that
    serve as indices are numbered by [ix], any function: the theorems
    assume that different tuples have different numbers. numpy's allclose and
    the comparisons of absolute values with atol are exact comparisons of entries.
    dtype, backend, verbose and the tracking of progress are dropped. The loaders
    that convert cirq and qiskit circuits (522-607) are in M_Convert. *)
From Verif Require Import M_Base M_Path M_PyTree M_OSet M_Tensor M_Contract M_Random M_Fuse M_Decompose.
Set Implicit Arguments.

(** The arithmetic of the entries: sums and products, equality, division, complex
    conjugation, 1/sqrt(2), -1/sqrt(2), and the test that a vector has norm one. *)
Record nums (K : Type) := mkNums {
  n_alg : alg K; n_eqb : K -> K -> bool; n_div : K -> K -> K; n_conj : K -> K;
  n_root : K; n_mroot : K; n_unit : nda K -> bool }.

(** The second component of an index. *)
Inductive mark := Ini | Fin | Shared | At (t : nat).

(** The states '0', '1', '+', '-', or another string. *)
Inductive token := T0 | T1 | TPlus | TMinus | TOther.
Inductive state_value (K : Type) := Tok (t : token) | Vec (a : nda K).
(** The argument initial_state or final_state: None, a string, a dict, or something
    else. *)
Inductive state_arg (K : Type) := SNone | SStr (t : token) | SDict (l : list (nat * state_value K)) | SOther.
Arguments Tok {K}. Arguments Vec {K}.
Arguments SNone {K}. Arguments SStr {K}. Arguments SDict {K}. Arguments SOther {K}.

Section Circuit.
Variable K : Type.
Variable F : nums K.
Variable ix : nat -> mark -> nat.
Let A := n_alg F.

Definition gate := (nda K * list nat)%type.

(** 68-72, 156-160 *)
Definition valid_gate (g : gate) : bool :=
  let '(a, qs) := g in
  (0 <? length qs) &&
  match shape a with [n; m] => (n =? m) && (n =? 2 ^ length qs) | _ => false end &&
  (length (unique qs) =? length qs).

(** (2,) * 2 * len(qubits) *)
Definition twos (qs : list nat) : list nat := repeat 2 (2 * length qs).

(** 101-119 *)
Definition gate_product (all shared : list nat) (a : nda K) (qa : list nat) (b : nda K) (qb : list nat) : res (nda K) :=
  let xa := map (fun q => ix q Ini) qa ++ map (fun q => ix q (if memb q shared then Shared else Fin)) qa in
  let xb := map (fun q => ix q (if memb q shared then Shared else Ini)) qb ++ map (fun q => ix q Fin) qb in
  let xab := map (fun q => ix q Ini) all ++ map (fun q => ix q Fin) all in
  let! (c, xc) := tensordot A a xa b xb [] in                                     (* 116 *)
  let! axes := mapM (fun x => index Nat.eqb x xc) xab in
  transpose A c axes.                                                             (* 119 *)

(** numpy.allclose of two arrays of the same shape (numpy would broadcast others). *)
Definition allclose (a b : nda K) : bool :=
  list_eqb (shape a) (shape b) && forallb id (map2 (n_eqb F) (data a) (data b)).

(** 38-130 *)
Definition commute (use_matrix : bool) (g h : gate) : res bool :=
  if negb (valid_gate g) then Err Throw else                                      (* 81 *)
  if negb (valid_gate h) then Err Throw else                                      (* 83 *)
  let '(a, qa) := g in
  let '(b, qb) := h in
  let all := unique (qa ++ qb) in                                                 (* 87 *)
  let shared := filter (fun q => memb q qb) qa in                                 (* 90 *)
  if length shared =? 0 then Ok true else                                         (* 93 *)
  if negb use_matrix then Ok false else                                           (* 97 *)
  let! a' := reshape a (twos qa) in                                               (* 122 *)
  let! b' := reshape b (twos qb) in                                               (* 123 *)
  let! ab := gate_product all shared a' qa b' qb in                               (* 126 *)
  let! ba := gate_product all shared b' qb a' qa in                               (* 127 *)
  Ok (allclose ab ba).                                                            (* 130 *)

(** 133-199 *)
Definition is_zero (x : K) : bool := n_eqb F x (zero A).
Definition same (g h : gate) : res bool :=
  if negb (valid_gate g) then Err Throw else                                      (* 172 *)
  if negb (valid_gate h) then Err Throw else                                      (* 174 *)
  let '(a, qa) := g in
  let '(b, qb) := h in
  if negb (length qa =? length qb) || existsb (fun q => negb (memb q qa)) qb then Ok false else   (* 178 *)
  let! order := mapM (fun q => index Nat.eqb q qb) qa in                          (* 183 *)
  let! b1 := reshape b (twos qb) in
  let! b2 := transpose A b1 (order ++ map (fun x => x + length qa) order) in      (* 184-186 *)
  let! b3 := reshape b2 [2 ^ length qb; 2 ^ length qb] in                         (* 187 *)
  if negb (forallb id (map2 (fun x y => Bool.eqb (is_zero x) (is_zero y)) (data a) (data b3))) then Ok false else   (* 190-195 *)
  let w := map2 (n_div F) (filter (fun x => negb (is_zero x)) (data a))
                          (filter (fun x => negb (is_zero x)) (data b3)) in        (* 198 *)
  match w with
  | [] => Err Oob                                                                 (* 199: W[0] *)
  | w0 :: _ => Ok (forallb (fun x => n_eqb F x w0) w)                             (* 199 *)
  end.

(** 363: the matrix conjugated and transposed. *)
Definition adjoint (g : gate) : res gate :=
  let '(a, qs) := g in
  let! b := transpose A (mkA (shape a) (map (n_conj F) (data a))) (rev (seq 0 (length (shape a)))) in
  Ok (b, qs).

(** 366-373: the position of the gate to remove, from the end; [l] is reversed(all_gates). *)
Fixpoint find_gate (um : bool) (g adj : gate) (l : list gate) (i : nat) : res (option nat) :=
  match l with
  | [] => Ok None
  | h :: l' =>
      let! s := same h adj in
      if s then Ok (Some i) else
      let! c := commute um h g in
      if negb c then Ok None else find_gate um g adj l' (S i)
  end.

(** 356-382: one pass; [kept] is all_gates. *)
Fixpoint simplify_pass (um : bool) (circuit kept : list gate) (changes : bool) : res (list gate * bool) :=
  match circuit with
  | [] => Ok (kept, changes)
  | g :: circuit' =>
      let! adj := adjoint g in
      let! p := find_gate um g adj (rev kept) 0 in
      match p with
      | Some i =>
          let! (_, kept') := pop kept (length kept - i - 1) in                    (* 377 *)
          simplify_pass um circuit' kept' true
      | None => simplify_pass um circuit' (kept ++ [g]) changes                   (* 382 *)
      end
  end.

(** 347-398: passes until nothing changes. Every pass that changes something removes
    gates: [fuel]. The number of passes is counted for the seed (396). *)
Fixpoint simplify_loop (fuel : nat) (um : bool) (circuit : list gate) (passes : nat) : res (list gate * nat) :=
  match fuel with
  | 0 => Err Fuel
  | S fuel' =>
      let! (kept, changes) := simplify_pass um circuit [] false in
      if changes then simplify_loop fuel' um kept (S passes) else Ok (kept, passes)
  end.

(** 339 *)
Definition qubits_of (circuit : list gate) : list nat := unique (concat (map snd circuit)).

(** 407 *)
Definition eye : nda K := mkA [2; 2] [one A; zero A; zero A; one A].

(** 346-408: the gates that are loaded, and the number of passes. *)
Definition final_gates (simplify um : bool) (circuit : list gate) : res (list gate * nat) :=
  let qubits := qubits_of circuit in
  let! (gs, n) := if simplify then simplify_loop (S (length circuit)) um circuit 0 else Ok (circuit, 0) in
  Ok (gs ++ map (fun q => (eye, [q])) (filter (fun q => negb (memb q (concat (map snd gs)))) qubits), n).   (* 405-408 *)

(** qubit_map[q] *)
Definition wire (cur : list (nat * nat)) (q : nat) : nat := match dict_get cur q with Ok t => t | Err _ => 0 end.
(** 411-424: the arrays, their indices, and qubit_map. *)
Fixpoint build (gs : list gate) (cur : list (nat * nat)) : res (list (nda K) * list (list nat) * list (nat * nat)) :=
  match gs with
  | [] => Ok ([], [], cur)
  | (a, qs) :: gs' =>
      let! b := reshape a (twos qs) in                                            (* 419 *)
      let xs := map (fun q => ix q (At (S (wire cur q)))) qs ++ map (fun q => ix q (At (wire cur q))) qs in   (* 416, 420 *)
      let cur' := fold_left (fun d q => dict_set d q (S (wire d q))) qs cur in    (* 423-424 *)
      let! (r, last) := build gs' cur' in
      let (bs, ts) := r in
      Ok (b :: bs, xs :: ts, last)
  end.

(** d.get(x, x) *)
Definition get_or (d : list (nat * nat)) (x : nat) : nat := match dict_get d x with Ok y => y | Err _ => x end.

(** 427-434 *)
Definition boundary_map (last : list (nat * nat)) (qubits : list nat) : list (nat * nat) :=
  dict_of (map (fun e => (ix (fst e) (At (snd e)), ix (fst e) (if snd e =? 0 then Ini else Fin)))
               (last ++ map (fun q => (q, 0)) qubits)).

(** 266-279 *)
Definition token_vec (t : token) : option (nda K) :=
  match t with
  | T0 => Some (mkA [2] [one A; zero A])
  | T1 => Some (mkA [2] [zero A; one A])
  | TPlus => Some (mkA [2] [n_root F; n_root F])
  | TMinus => Some (mkA [2] [n_root F; n_mroot F])
  | TOther => None
  end.

(** 282-314; the keys of the result are qubits. *)
Definition get_state (qubits : list nat) (s : state_arg K) : res (list (nat * nda K)) :=
  match s with
  | SNone => Ok []
  | SStr t => match token_vec t with
              | Some a => Ok (map (fun q => (q, a)) qubits)                       (* 286 *)
              | None => Err Throw
              end
  | SDict l =>
      let! vs := mapM (fun e => match snd e with
                                | Tok t => match token_vec t with Some a => Ok (fst e, a) | None => Err Throw end   (* 294 *)
                                | Vec a => Ok (fst e, a)
                                end) l in
      let d := filter (fun e => memb (fst e) qubits) vs in                        (* 300-304 *)
      if forallb (fun e => list_eqb (shape (snd e)) [2] && n_unit F (snd e)) d then Ok d else Err Throw   (* 307 *)
  | SOther => Err Throw                                                           (* 314 *)
  end.

(** a.conj() *)
Definition conj_array (a : nda K) : nda K := mkA (shape a) (map (n_conj F) (data a)).

(** 317-324; n is at least 2. *)
Definition get_delta (n : nat) : nda K :=
  mkA (repeat 2 n) (one A :: repeat (zero A) (2 ^ n - 2) ++ [one A]).

(** 481: mit.map_reduce with the first component as key. *)
Definition group_by (l : list (nat * nat)) : list (nat * list nat) :=
  fold_left (fun d e => dict_set d (fst e) ((match dict_get d (fst e) with Ok s => s | Err _ => [] end) ++ [snd e])) l [].

(** 459-491; [m] is hyper_inds_map, [os] is open_qubits. *)
Definition kronecker (arrays : list (nda K)) (ts : list (list nat)) (m : list (nat * nat)) (os : list nat)
  : list (nda K) * list (list nat) :=
  let inner e := memb (fst e) os && negb (memb (snd e) os) in
  let yes := filter inner m in                                                    (* 466-468 *)
  let no := filter (fun e => negb (inner e)) m in
  let remap := dict_of (map (fun e => (snd e, fst e)) yes) in                     (* 471 *)
  let items := match m with e :: _ => if inner e then yes ++ no else no ++ yes | [] => [] end in   (* mit.flatten(.values()) *)
  let m' := dict_of (map (fun e => (fst e, get_or remap (snd e))) items) in       (* 472 *)
  let ts' := map (map (get_or remap)) ts in                                       (* 476 *)
  let deltas := map (fun e => fst e :: snd e)
                    (group_by (map (fun e => (snd e, fst e))
                       (filter (fun e => memb (fst e) os && memb (snd e) os && negb (fst e =? snd e)) m'))) in   (* 481-485 *)
  (arrays ++ map (fun xs => get_delta (length xs)) deltas, ts' ++ deltas).        (* 488-491 *)

(** 410-456: the network before hyper-indices are decomposed, and open_qubits. *)
Definition network_of (gs : list gate) (qubits : list nat) (initial final : state_arg K)
  : res (list (nda K) * list (list nat) * list nat) :=
  let! (r, last) := build gs [] in
  let (arrays, ts0) := r in
  let om := boundary_map last qubits in
  let ts := map (map (get_or om)) ts0 in                                          (* 436 *)
  let! i := get_state qubits initial in                                           (* 440 *)
  let! f := get_state qubits final in                                             (* 443 *)
  let is := map (fun e => (ix (fst e) Ini, snd e)) i in
  let fs := map (fun e => (ix (fst e) Fin, conj_array (snd e))) f in              (* 441 *)
  let closed := map fst is ++ map fst fs in                                       (* 453 *)
  let os := iter (difference (ofs (concat (map (fun q => [ix q Ini; ix q Fin]) qubits))) (OSet (ofs closed))) in   (* 454 *)
  Ok (arrays ++ map snd is ++ map snd fs, ts ++ map (fun x => [x]) closed, os).   (* 447-449 *)

(** 202-519: the arrays, their indices, and the output indices. [fuse] is None unless
    fuse is a positive number. [r] is the state of the generator that the seed
    gives after the given number of passes. *)
Definition load {R : Type} (g : prng R) (lg : N -> Z) (arr : list nat -> list nat) (r : nat -> R)
  (circuit : list gate) (initial final : state_arg K) (simplify um dec : bool) (fuse_width : option Z)
  : res (list (nda K) * list (list nat) * list nat) :=
  let! (gs, n) := final_gates simplify um circuit in
  let! (net, os) := network_of gs (qubits_of circuit) initial final in
  let (arrays0, ts0) := net in
  let! (arrays, ts) := if dec
    then (let! (d, m) := decompose_network A (n_eqb F) arrays0 ts0 in
          let (bs, us) := d in
          Ok (kronecker bs us m os))
    else Ok (arrays0, ts0) in
  match fuse_width with
  | None => Ok (arrays, ts, os)                                                   (* 519 *)
  | Some w =>
      let! (p, _) := fuse g lg ts (PyInt 2) w (Some os) [] (r n) in               (* 499 *)
      let! (c, ar) := contract A arr p ts (Some os) (Some arrays) None in         (* 507 *)
      let (ts', os') := c in
      match ar with
      | Some l => Ok (l, ts', os')
      | None => Err Throw
      end
  end.
End Circuit.
