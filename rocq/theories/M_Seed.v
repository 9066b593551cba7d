(** Model of how an optimizer uses its seed: the generator that it keeps (tnco/app/app.py:781-786,
    tnco/app/infinite_memory/sa.py:131-134, 232 and finite_width/sa.py:149-152, 264),
    and core_ as a process that Parallel runs next to others
    (infinite_memory/sa.py:162-229, finite_width/sa.py:182-261). *)
From Verif Require Import M_Base M_Bitset M_Tree M_CTree M_Cost M_Opt M_InfMem M_FinWidth M_Path M_PyTree M_PyNodes M_Random
  M_App M_Parallel M_Tensor M_TnApp M_LoadTn.
Set Implicit Arguments.

(** * core_ as a process

    One component after the other: a path is turned into an optimizer ([build]),
    which is updated until the temperatures are used up or the stop flag is seen
    ([update n beta]), and asked for its result ([finish]). A component without
    contractions gives [skip]; [wrap] makes the result of the run of those of the components.
    A step of the process ends where the flag is read. An exception ends the
    process; it is a result here, which the caller raises. *)
Section Process.
Variables (B C X Y : Type) (paths : nat -> res (list path)) (skip : X) (build : nat -> path -> res C)
  (update : nat -> B -> C -> res C) (finish : C -> res X) (wrap : list X -> res Y).
(** The temperatures, cut to n_steps (196: n == n_steps). *)
Variable temps : list B.

Inductive work_state :=
| Begin (seed : nat)
| Next (seed : nat) (todo : list path) (done : list X)
| Busy (seed : nat) (todo : list path) (done : list X) (n : nat) (rest : list B) (c : C).

(** The step written as a function that may raise. *)
Definition core_try (s : work_state) (stop : bool) : res ((work_state * option Z) + Y) :=
  match s with
  | Begin seed => let! ps := paths seed in Ok (inl (Next seed ps [], None))                    (* 169-171 *)
  | Next seed [] done => let! y := wrap done in Ok (inr y)                                     (* 215-229 *)
  | Next seed (p :: todo) done =>
      if length p =? 0 then Ok (inl (Next seed todo (done ++ [skip]), None))                   (* 174-178 *)
      else let! c := build seed p in Ok (inl (Busy seed todo done 0 temps c, None))            (* 181-188 *)
  | Busy seed todo done n rest c =>
      match rest, stop with
      | b :: rest', false =>
          let! c' := update n b c in
          Ok (inl (Busy seed todo done (S n) rest' c', Some (Z.of_nat n)))                     (* 199-204 *)
      | _, _ => let! x := finish c in Ok (inl (Next seed todo (done ++ [x]), None))            (* 196-197, 210-212 *)
      end
  end.
Definition core_step (s : work_state) (stop : bool) : (work_state * option Z) + res Y :=
  match core_try s stop with
  | Ok (inl x) => inl x
  | Ok (inr y) => inr (Ok y)
  | Err e => inr (Err e)
  end.
(** core_(seed, idx=..., ...): the seed is the only argument; 0 is the name 'seed'. *)
Definition core_init (a : list nat) (kw : list (nat * nat)) (idx : nat) : work_state :=
  Begin (match kw with (_, s) :: _ => s | [] => 0 end).
(** Parallel(core_, seed=seeds, ...) (238-247), under the schedule [es]. *)
Definition run_all (seeds : list nat) (es : list event) : res (list Y) :=
  let! rs := parallel core_init core_step [] [(0, seeds)] es in mapM (fun x => x) rs.
End Process.

(** * The optimizers *)
Section Seed.
(** The generator of Python, that of C++, and what they are after seeding. [next32] is
    one number of rng.choices(range(2**32), k=...): floor(random() * 2**32). *)
Variables (P R B : Type) (g : prng P) (next32 : P -> nat * P) (py_seed : nat -> P) (cpp_seed : nat -> R).

(** random.Random.choices without weights: one number after the other. *)
Fixpoint choices (k : nat) (r : P) : list nat * P :=
  match k with
  | O => ([], r)
  | S k' => let '(x, r1) := next32 r in let '(xs, r2) := choices k' r1 in (x :: xs, r2)
  end.

(** enumerate(betas) with the break at n_steps. *)
Definition temperatures (betas : list B) (n_steps : option nat) : list B :=
  match n_steps with Some k => firstn k betas | None => betas end.

Section Run.
Variables (ts : list (list nat)) (d : pydims) (out sparse : list nat) (np : option Z) (pick : list nat -> nat).

Definition im_build (seed : nat) (p : path) : res (pytree * im_state R) :=
  let! t := pytree_make p ts d (Some out) true in
  let! m := get_core sparse np (inds_order t) in
  let! s := im_make (core t) m (cpp_seed seed) false None in Ok (t, s).
Definition im_finish (x : pytree * im_state R) : res (Z * path) :=
  let! t' := get_ctree (fst x) (im_min_ct (snd x)) in
  let! q := py_path t' in Ok (im_min (snd x), q).
Definition im_wrap (xs : list (Z * path)) : res im_result :=
  let costs := map fst xs in
  let paths := match xs with [] => repeat [] (length ts) | _ => map snd xs end in
  let! p := merge_paths (length ts) paths true in
  Ok (mkImR (zsum costs) p costs paths).
(** optimize from the checks on (infinite_memory/sa.py:136-252), with these seeds. *)
Definition im_parallel (rule : B -> rand R) (betas : list B) (n_steps : option Z) (seeds : list nat) (es : list event)
  : res (list im_result) :=
  let! n := check_steps n_steps in
  let! _ := check_model sparse np in
  let! rs := run_all (fun s => random_paths g pick ts (py_seed s)) (0%Z, []) im_build
               (fun _ b x => let! s := im_update (rule b) (snd x) in Ok (fst x, s)) im_finish im_wrap
               (temperatures betas n) seeds es in
  Ok (sorted_by ir_cost rs).

Definition fw_build (lg : N -> Z) (mx : Z) (fr0 : frand R) (seed : nat) (p : path) : res (pytree * fw_state R) :=
  let! t := pytree_make p ts d (Some out) true in
  let! m := get_core sparse np (inds_order t) in
  let! fm := fmodel_make m mx in
  let! s := py_fw_make lg fr0 (core t) fm 0 (cpp_seed seed) false (bempty (M_CTree.n_inds (core t))) None None None in Ok (t, s).
Definition fw_finish (x : pytree * fw_state R) : res (Z * path * list nat) :=
  let! t' := get_ctree (fst x) (fw_min_ct (snd x)) in
  let! q := py_path t' in
  let! sl := slice_names (inds_order (fst x)) (fw_min_sl (snd x)) in Ok (fw_min (snd x), q, sl).
Definition fw_wrap (xs : list (Z * path * list nat)) : res fw_result :=
  let costs := map (fun x => fst (fst x)) xs in
  let paths := match xs with [] => repeat [] (length ts) | _ => map (fun x => snd (fst x)) xs end in
  let slices := match xs with [] => repeat [] (length ts) | _ => map snd xs end in
  let! p := merge_paths (length ts) paths true in
  let! sl := reduce_or slices in
  Ok (mkFwR (zsum costs) p costs paths slices sl).
(** finite_width/sa.py:154-284; n % update_slices raises if that is 0 (223). *)
Definition fw_parallel (lg : N -> Z) (mx : Z) (fr0 : frand R) (rule : B -> frand R) (betas : list B) (n_steps : option Z) (u : nat)
  (seeds : list nat) (es : list event) : res (list fw_result) :=
  let! n := check_steps n_steps in
  if (mx <? 0)%Z then Err Throw else
  let! _ := check_model sparse np in
  let! rs := run_all (fun s => random_paths g pick ts (py_seed s)) (0%Z, [], []) (fw_build lg mx fr0)
               (fun n b x => if u =? 0 then Err Crash else
                  let! s := fw_update lg (rule b) (n mod u =? 0) (snd x) in Ok (fst x, s)) fw_finish fw_wrap
               (temperatures betas n) seeds es in
  Ok (sorted_by fr_cost rs).
End Run.

(** * The object that the user holds

    Optimizer(seed=...): the seed and the generator (app.py:781-783). *)
Record optimizer := mkOptimizer { op_seed : nat; op_rng : P }.
Definition new_optimizer (seed : nat) : optimizer := mkOptimizer seed (py_seed seed).

(** The arguments of a call of optimize, with those that load_tn gets. A temperature
    is any value. *)
Record call (K : Type) := mkCall {
  ca_tn : object K; ca_dec : bool; ca_fuse : option Z;
  ca_betas : list B; ca_steps : option Z; ca_runs : nat; ca_projs : option Z }.

(** optimize: the network is loaded with the seed, and the seeds of the runs are drawn
    from the generator (134, 232), after the arguments have been checked. *)
Definition im_call {K} (A : alg K) (eqb : K -> K -> bool) (lg : N -> Z) (rule : B -> rand R)
  (arr : list nat -> list nat) (pick : list nat -> nat) (es : list event) (o : optimizer) (c : call K)
  : res (object K * list im_result) * optimizer :=
  match load_tn A eqb g lg arr (ca_tn c) (ca_dec c) (ca_fuse c) (py_seed (op_seed o)) with      (* 131 *)
  | Err e => (Err e, o)
  | Ok tn =>
      let n := o_net tn in
      match (let! _ := check_steps (ca_steps c) in check_model (n_sparse n) (ca_projs c)) with
      | Err e => (Err e, o)
      | Ok _ =>
          let '(seeds, r) := choices (ca_runs c) (op_rng o) in
          ((let! rs := im_parallel (map (@t_inds K) (n_list n)) (py_dims (n_dims n)) (n_out n) (n_sparse n) (ca_projs c) pick
                         rule (ca_betas c) (ca_steps c) seeds es in Ok (tn, rs)),
           mkOptimizer (op_seed o) r)
      end
  end.
(** The same with a maximal width. *)
Definition fw_call {K} (A : alg K) (eqb : K -> K -> bool) (lg : N -> Z) (mx : Z) (fr0 : frand R) (rule : B -> frand R) (u : nat)
  (arr : list nat -> list nat) (pick : list nat -> nat) (es : list event) (o : optimizer) (c : call K)
  : res (object K * list fw_result) * optimizer :=
  match load_tn A eqb g lg arr (ca_tn c) (ca_dec c) (ca_fuse c) (py_seed (op_seed o)) with
  | Err e => (Err e, o)
  | Ok tn =>
      let n := o_net tn in
      match (let! _ := check_steps (ca_steps c) in if (mx <? 0)%Z then Err Throw else check_model (n_sparse n) (ca_projs c)) with
      | Err e => (Err e, o)
      | Ok _ =>
          let '(seeds, r) := choices (ca_runs c) (op_rng o) in
          ((let! rs := fw_parallel (map (@t_inds K) (n_list n)) (py_dims (n_dims n)) (n_out n) (n_sparse n) (ca_projs c) pick
                         lg mx fr0 rule (ca_betas c) (ca_steps c) u seeds es in Ok (tn, rs)),
           mkOptimizer (op_seed o) r)
      end
  end.

(** Calls one after the other on one optimizer; an exception is caught by the user,
    who goes on. [f] is one of the two above with the things that the user does not
    control, which may differ from call to call. *)
Fixpoint session {K Y E} (f : E -> optimizer -> call K -> res Y * optimizer) (calls : list (E * call K)) (o : optimizer)
  : list (res Y) :=
  match calls with
  | [] => []
  | (e, c) :: calls' => let '(y, o') := f e o c in y :: session f calls' o'
  end.
End Seed.
