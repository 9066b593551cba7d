(** Model of the optimization of a tensor network: core_ and optimize of
    tnco/app/infinite_memory/sa.py (136-252) and tnco/app/finite_width/sa.py (154-284),
    with the cost models' __init__ and __get_core__
    (tnco/optimize/infinite_memory/cost_model.py:78-92, 186-207; the same in
    finite_width/cost_model.py).

    The network is the list [ts] of the indices of its tensors, the dimensions, the
    output and the sparse indices (see M_TnApp for loading it). The inverse
    temperatures are a list of any type [B]; [rule beta] is the random generator
    together with the acceptance rule at that temperature. [np] is n_projs. Run times,
    the status buffers and the expansion of a pair of temperatures into a range
    (142-152, float arithmetic) are not modelled: any list of temperatures is allowed. *)
From Verif Require Import M_Base M_Bitset M_Tree M_CTree M_Cost M_Opt M_InfMem M_FinWidth M_Path M_PyTree M_PyNodes M_Random.
Set Implicit Arguments.

(** infinite_memory/cost_model.py:78-87; sparse_inds is a set here, never None. *)
Definition check_model (sparse : list nat) (np : option Z) : res unit :=
  match np with
  | Some k => if (k <? 1)%Z then Err Throw else Ok tt                               (* 79-80 *)
  | None => match sparse with [] => Ok tt | _ => Err Throw end                       (* 85-87 *)
  end.

(** infinite_memory/cost_model.py:186-207 __get_core__ *)
Definition get_core (sparse : list nat) (np : option Z) (order : list nat) : res cmodel :=
  match sparse, np with
  | [], _ => Ok Simple                                                               (* 201-203 *)
  | _, None => Err Throw
  | _, Some k =>
      if negb (forallb (fun x => memb x order) sparse) then Err Throw else           (* 192-194 *)
      let! ps := rank_all order sparse in
      let! b := of_positions ps (length order) in                                    (* 197-198 *)
      Ok (Sparse b k)
  end.

(** sa.py:194-197: the temperatures at which an update is made: at most [n_steps] of
    them, and only the first [stop] ones if the flag stop[idx] is seen raised then. *)
Definition performed {B} (betas : list B) (n_steps : option nat) (stop : nat) : list B :=
  firstn stop (match n_steps with Some k => firstn k betas | None => betas end).

Definition zsum (l : list Z) : Z := fold_right Z.add 0%Z l.

(** Calls [f] with the number of the component and its path. *)
Fixpoint each {A} (f : nat -> path -> res A) (k : nat) (ps : list path) : res (list A) :=
  match ps with
  | [] => Ok []
  | p :: ps' => let! x := f k p in let! xs := each f (S k) ps' in Ok (x :: xs)
  end.

(** sorted(results): stable, comparing the costs (app.py:76-80 __lt__). *)
Fixpoint insert_by {A} (cost : A -> Z) (x : A) (l : list A) : list A :=
  match l with
  | [] => [x]
  | y :: l' => if (cost y <? cost x)%Z then y :: insert_by cost x l' else x :: l
  end.
Definition sorted_by {A} (cost : A -> Z) (l : list A) : list A := fold_right (insert_by cost) [] l.

(** sa.py:136-140 *)
Definition check_steps (n_steps : option Z) : res (option nat) :=
  match n_steps with
  | None => Ok None
  | Some k => if (k <=? 0)%Z then Err Throw else Ok (Some (Z.to_nat k))
  end.

Section App.
Variables (ts : list (list nat)) (d : pydims) (out sparse : list nat) (np : option Z).
(** The Python generator, the order of sets; the C++ generator. *)
Variables (P R B : Type) (g : prng P) (pick : list nat -> nat).

(** * Infinite memory *)
Record im_result := mkImR { ir_cost : Z; ir_path : path; ir_costs : list Z; ir_paths : list path }.

(** One component (infinite_memory/sa.py:173-212). [r0] is the state of the C++
    generator after seeding, [stop] the number of updates before the flag is seen. *)
Definition im_component (rule : B -> rand R) (betas : list B) (n_steps : option nat) (r0 : R) (stop : nat) (p : path)
  : res (Z * path) :=
  if length p =? 0 then Ok (0%Z, []) else                                            (* 174-178 *)
  let! t := pytree_make p ts d (Some out) true in                                    (* 181-185 *)
  let! m := get_core sparse np (inds_order t) in
  let! s0 := im_make (core t) m r0 false None in                                     (* 188 *)
  let! s := im_run (map rule (performed betas n_steps stop)) s0 in                   (* 194-200 *)
  let! t' := get_ctree t (im_min_ct s) in
  let! q := py_path t' in
  Ok (im_min s, q).                                                                  (* 210-211 *)

(** core_ (162-229): [r] and [r0] are the two generators after seeding. *)
Definition im_core (rule : B -> rand R) (betas : list B) (n_steps : option nat) (r : P) (r0 : R) (stop : nat -> nat)
  : res im_result :=
  let! ps := random_paths g pick ts r in                                             (* 169-171 *)
  let! xs := each (fun k => im_component rule betas n_steps r0 (stop k)) 0 ps in
  let costs := map fst xs in
  let paths := match xs with [] => repeat [] (length ts) | _ => map snd xs end in    (* 221-222 *)
  let! p := merge_paths (length ts) paths true in                                    (* 225-226 *)
  Ok (mkImR (zsum costs) p costs paths).

(** optimize (136-252): one run for each seed. That the results come in the order of
    the runs, under every schedule, is what M_Parallel is about; the number of runs is
    at least 1 (a buffer of size 0 raises). *)
Definition im_optimize (rule : B -> rand R) (betas : list B) (n_steps : option Z) (runs : list (P * R * (nat -> nat)))
  : res (list im_result) :=
  let! n := check_steps n_steps in
  let! _ := check_model sparse np in                                                 (* 155-157 *)
  if length runs =? 0 then Err Throw else
  let! rs := mapM (fun x => let '(r, r0, stop) := x in im_core rule betas n r r0 stop) runs in
  Ok (sorted_by ir_cost rs).                                                         (* 252 *)

(** * Finite width *)
Record fw_result := mkFwR { fr_cost : Z; fr_path : path; fr_costs : list Z; fr_paths : list path;
                            fr_dslices : list (list nat); fr_slices : list nat }.

(** The updates: whether the slices are recomputed depends on n % update_slices
    (finite_width/sa.py:217-223). *)
Fixpoint numbered_steps (rule : B -> frand R) (u : nat) (n : nat) (bs : list B) : list (frand R * bool) :=
  match bs with
  | [] => []
  | b :: bs' => (rule b, n mod u =? 0) :: numbered_steps rule u (S n) bs'
  end.

(** optimizer.py:278-290 min_slices: positions turned into names. *)
Definition slice_names (order : list nat) (b : bitset) : res (list nat) := names_of order b.

(** One component (195-236); skip_slices and max_number_new_slices have their default
    values. [fr0] is the generator used by the constructor. *)
Definition fw_component (lg : N -> Z) (mx : Z) (fr0 : frand R) (rule : B -> frand R) (betas : list B) (n_steps : option nat)
  (u : nat) (r0 : R) (stop : nat) (p : path) : res (Z * path * list nat) :=
  if length p =? 0 then Ok (0%Z, [], []) else                                        (* 196-201 *)
  let! t := pytree_make p ts d (Some out) true in                                    (* 204-208 *)
  let! m := get_core sparse np (inds_order t) in
  let! fm := fmodel_make m mx in
  let! s0 := py_fw_make lg fr0 (core t) fm 0 r0 false (bempty (n_inds (core t))) None None None in   (* 211 *)
  let bs := performed betas n_steps stop in
  let! s := (match bs, u with
             | _ :: _, O => Err Crash                                                (* 223: division by zero *)
             | _, _ => fw_run lg (numbered_steps rule u 0 bs) s0
             end) in                                                                 (* 217-223 *)
  let! t' := get_ctree t (fw_min_ct s) in
  let! q := py_path t' in
  let! sl := slice_names (inds_order t) (fw_min_sl s) in
  Ok (fw_min s, q, sl).                                                              (* 233-235 *)

(** fts.reduce(op.or_, sets) (257-258) *)
Definition reduce_or (ls : list (list nat)) : res (list nat) :=
  match ls with [] => Err Throw | l :: ls' => Ok (fold_left (fun a b => unique (a ++ b)) ls' l) end.

(** core_ (182-261) *)
Definition fw_core (lg : N -> Z) (mx : Z) (fr0 : frand R) (rule : B -> frand R) (betas : list B) (n_steps : option nat)
  (u : nat) (r : P) (r0 : R) (stop : nat -> nat) : res fw_result :=
  let! ps := random_paths g pick ts r in
  let! xs := each (fun k => fw_component lg mx fr0 rule betas n_steps u r0 (stop k)) 0 ps in
  let costs := map (fun x => fst (fst x)) xs in
  let paths := match xs with [] => repeat [] (length ts) | _ => map (fun x => snd (fst x)) xs end in   (* 245-246 *)
  let slices := match xs with [] => repeat [] (length ts) | _ => map snd xs end in   (* 249-250 *)
  let! p := merge_paths (length ts) paths true in                                    (* 253-254 *)
  let! sl := reduce_or slices in
  Ok (mkFwR (zsum costs) p costs paths slices sl).

(** optimize (154-284); max_width must not be negative (cost_model.py:86-87). *)
Definition fw_optimize (lg : N -> Z) (mx : Z) (fr0 : frand R) (rule : B -> frand R) (betas : list B) (n_steps : option Z)
  (u : nat) (runs : list (P * R * (nat -> nat))) : res (list fw_result) :=
  let! n := check_steps n_steps in
  if (mx <? 0)%Z then Err Throw else
  let! _ := check_model sparse np in                                                 (* 173-177 *)
  if length runs =? 0 then Err Throw else
  let! rs := mapM (fun x => let '(r, r0, stop) := x in fw_core lg mx fr0 rule betas n u r r0 stop) runs in
  Ok (sorted_by fr_cost rs).                                                         (* 284 *)
End App.
