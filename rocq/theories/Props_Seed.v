(** C60, C61: what the seed determines; more runs and more steps. *)
From Coq Require Import List Arith Bool Lia ZArith Permutation.
Import ListNotations.
From Verif Require Import M_Base M_Bitset M_Tree M_CTree M_Cost M_Opt M_InfMem M_FinWidth M_Path M_PyTree M_PyNodes M_Random
  M_App M_Parallel M_Tensor M_TnApp M_LoadTn M_Seed S_Seed S_Random P_Seed P_SeedMore Props_LoadTn Props_App Props_FinWidth Props_Random Props_Tensor.
Set Implicit Arguments.

(** ** C60 *)
(** Two optimizers made with the same seed give the same results, call by call, for the
    same sequence of calls of optimize: the loaded networks and the lists of results, or
    the same exceptions. The schedules of the processes may differ, and so may the order
    in which sets of integers list their elements. What must not differ is the order of
    sets of indices, unless the network is ordinary and nothing is decomposed. Err Fuel
    is a schedule that ends before the runs do. *)
Theorem C60_same_seed_infinite_memory_partial : forall (P R B K : Type) (g : prng P) next32 py_seed (cpp_seed : nat -> R) (A : alg K) eqb lg (rule : B -> rand R)
  seed calls envs envs',
  let results es := session (im_in g next32 py_seed cpp_seed A eqb lg rule) (combine es calls) (new_optimizer py_seed seed) in
  length envs = length calls -> length envs' = length calls -> Forall in_full envs -> Forall in_full envs' ->
  (forall i e e' c, nth_error envs i = Some e -> nth_error envs' i = Some e' -> nth_error calls i = Some c -> same_order e e' c) ->
  ~ In (Err Fuel) (results envs) -> ~ In (Err Fuel) (results envs') -> results envs = results envs'.
Proof. intros P R B K g next32 py_seed cpp_seed A eqb lg rule seed calls envs envs' results. apply (session_same (@im_call_same P R B g next32 py_seed cpp_seed K A eqb lg rule)). Qed.
Print Assumptions C60_same_seed_infinite_memory_partial.

Theorem C60_same_seed_finite_width_partial : forall (P R B K : Type) (g : prng P) next32 py_seed (cpp_seed : nat -> R) (A : alg K) eqb lg mx fr0 (rule : B -> frand R) u
  seed calls envs envs',
  let results es := session (fw_in g next32 py_seed cpp_seed A eqb lg mx fr0 rule u) (combine es calls) (new_optimizer py_seed seed) in
  length envs = length calls -> length envs' = length calls -> Forall in_full envs -> Forall in_full envs' ->
  (forall i e e' c, nth_error envs i = Some e -> nth_error envs' i = Some e' -> nth_error calls i = Some c -> same_order e e' c) ->
  ~ In (Err Fuel) (results envs) -> ~ In (Err Fuel) (results envs') -> results envs = results envs'.
Proof. intros P R B K g next32 py_seed cpp_seed A eqb lg mx fr0 rule u seed calls envs envs' results. apply (session_same (@fw_call_same P R B g next32 py_seed cpp_seed K A eqb lg mx fr0 rule u)). Qed.
Print Assumptions C60_same_seed_finite_width_partial.

(** *** Examples *)
Definition network_of (ts : list (list nat)) (out : list nat) : object nat :=
  let l := map (fun xs => mkT xs (map (fun _ => 2%Z) xs) None) ts in
  let n := match make_network l (Some out) None with Ok n => n | Err _ => mkN [] [] [] [] [] end in
  mkO n (map Given (seq 0 (length ts))) None None.
Definition next7 (r : nat) := (r mod 7, r + 3).
(** Worker after worker, in this order, again and again. *)
Definition rounds (ws : list nat) (k : nat) := concat (repeat (map Work ws) k).

(** The indices 0 and 1 are shared by two tensors that are fused by default. In one
    Python session the set of the two lists 0 first, in another 1 (as it is with names
    that are strings); the same seed gives results of different costs. *)
Definition shares_two : list (list nat) := [[2; 3; 4; 5; 6]; [0; 1; 2]; [0; 1; 3]; [0; 4]; [0; 5]; [1; 7]; [1; 6; 7]].
Theorem C60_same_seed_refuted : exists (c : call unit nat) seed es arr arr' tn tn' r r',
  in_full (arr, ex_pick, es) /\ in_full (arr', ex_pick, es) /\ ca_fuse c = Some 4%Z /\
  fst (im_in ex_g next7 id id nat_alg Nat.eqb lg2 rule1 (arr, ex_pick, es) (new_optimizer id seed) c) = Ok (tn, [r]) /\
  fst (im_in ex_g next7 id id nat_alg Nat.eqb lg2 rule1 (arr', ex_pick, es) (new_optimizer id seed) c) = Ok (tn', [r']) /\ ir_cost r <> ir_cost r'.
Proof.
  exists (mkCall (network_of shares_two [0; 1]) true (Some 4%Z) [tt] None 1 None), 141, (rounds [0] 40), id, (@rev nat). do 4 eexists.
  assert (HT : ~ In Tick (rounds [0] 40)) by (cbn; intuition discriminate).
  split; [split; [split; [intros l; apply Permutation_refl|exact ex_pick_ok]|exact HT]|].
  split; [split; [split; [intros l; apply Permutation_sym, Permutation_rev|exact ex_pick_ok]|exact HT]|].
  split; [reflexivity|]. split; [vm_compute; reflexivity|]. split; [vm_compute; reflexivity|]. vm_compute. discriminate.
Qed.
Print Assumptions C60_same_seed_refuted.

(** Two calls, of two and of three runs; the network has two components, of which one has tensors that are fused; the
    schedules, the order of sets and the first element of sets of integers differ. *)
Definition last_pick (l : list nat) := last l 0.
Lemma last_pick_ok : pick_ok last_pick.
Proof. intros l H. destruct (exists_last H) as (k & x & ->). unfold last_pick. rewrite last_last. apply in_or_app. right. left. auto. Qed.
Definition sample_network : list (list nat) := [[0; 1; 2; 4]; [0; 3; 6; 7]; [1; 3; 5; 14]; [2; 6; 5; 15]; [4; 7; 16]; [14; 15; 16]; [8; 9; 10; 13]; [8; 11; 12]].
Definition call_of (runs : nat) (betas : list unit) : call unit nat := mkCall (network_of sample_network [9; 10; 11; 12; 13]) true (Some 4%Z) betas None runs None.
Example C60_applies :
  let calls := [call_of 2 []; call_of 3 [tt; tt]] in
  let envs := [(id, ex_pick, rounds [0; 1] 60); (id, ex_pick, rounds [0; 1; 2] 60)] in
  let envs' := [(@rev nat, last_pick, rounds [1; 1; 0] 60); (@rev nat, last_pick, rounds [2; 0; 1] 60)] in
  let results es := session (im_in ex_g next7 id id nat_alg Nat.eqb lg2 rule1) (combine es calls) (new_optimizer id 5) in
  Forall in_full envs /\ Forall in_full envs' /\
  (forall i e e' c, nth_error envs i = Some e -> nth_error envs' i = Some e' -> nth_error calls i = Some c -> same_order e e' c) /\
  ~ In (Err Fuel) (results envs) /\ ~ In (Err Fuel) (results envs') /\
  exists tn a b tn' c d e, results envs = [Ok (tn, [a; b]); Ok (tn', [c; d; e])] /\ length (n_list (o_net tn)) < 8 /\ length (ir_paths a) = 2 /\ ir_cost a <> ir_cost b.
Proof.
  cbv zeta.
  assert (HT : forall l k, Forall (fun x => x <> Tick) (rounds l k)).
  { intros l k. apply Forall_forall. intros x Hx. unfold rounds in Hx. apply in_concat in Hx. destruct Hx as (m & Hm & Hx). apply repeat_spec in Hm. subst m.
    apply in_map_iff in Hx. destruct Hx as (i & <- & _). discriminate. }
  assert (HN : forall l k, ~ In Tick (rounds l k)). { intros l k H. specialize (HT l k). rewrite Forall_forall in HT. exact (HT _ H eq_refl). }
  assert (A1 : lists_sets id) by (intros l; apply Permutation_refl).
  assert (A2 : lists_sets (@rev nat)) by (intros l; apply Permutation_sym, Permutation_rev).
  split. { repeat constructor; auto using ex_pick_ok; apply HN. }
  split. { repeat constructor; auto using last_pick_ok; apply HN. }
  split.
  { assert (O : ordinary (o_net (network_of sample_network [9; 10; 11; 12; 13])) /\ abstract (o_net (network_of sample_network [9; 10; 11; 12; 13]))).
    { split; [|eexists; split; [left; reflexivity|reflexivity]]. intros x. do 17 (destruct x as [|x]; [vm_compute; split; [|intros H]; intuition (try discriminate; try lia)|]).
      vm_compute. split; [lia|intros H]; intuition (try discriminate; try lia). }
    destruct O as (O1 & O2). intros [|[|i]] e e' c E E' Ec; cbn in E, E', Ec; try (destruct i; discriminate); inversion E; inversion E'; inversion Ec; subst; right; split; auto; right; auto. }
  split. { vm_compute. intuition discriminate. }
  split. { vm_compute. intuition discriminate. }
  do 7 eexists. split; [vm_compute; reflexivity|]. split; [vm_compute; lia|]. split; [reflexivity|vm_compute; discriminate].
Qed.

(** ** C61 *)
(** With more runs (and everything else equal, on an optimizer in the same state), the
    results contain those of fewer runs, and the first is no more expensive. *)
Theorem C61_more_runs_infinite_memory : forall (P R B K : Type) (g : prng P) next32 py_seed (cpp_seed : nat -> R) (A : alg K) eqb lg (rule : B -> rand R)
  e e' o c c' tn tn' rs rs', in_full e -> in_full e' -> same_order e e' c -> more_runs c c' ->
  fst (im_in g next32 py_seed cpp_seed A eqb lg rule e o c) = Ok (tn, rs) -> fst (im_in g next32 py_seed cpp_seed A eqb lg rule e' o c') = Ok (tn', rs') ->
  tn' = tn /\ (exists others, Permutation rs' (rs ++ others)) /\
  (forall r rest, rs = r :: rest -> exists r' rest', rs' = r' :: rest' /\ (ir_cost r' <= ir_cost r)%Z).
Proof. intros P R B K g next32 py_seed cpp_seed A eqb lg. exact (@im_more_runs P R B g next32 py_seed cpp_seed K A eqb lg). Qed.
Print Assumptions C61_more_runs_infinite_memory.

Theorem C61_more_runs_finite_width : forall (P R B K : Type) (g : prng P) next32 py_seed (cpp_seed : nat -> R) (A : alg K) eqb lg mx fr0 (rule : B -> frand R) u
  e e' o c c' tn tn' rs rs', in_full e -> in_full e' -> same_order e e' c -> more_runs c c' ->
  fst (fw_in g next32 py_seed cpp_seed A eqb lg mx fr0 rule u e o c) = Ok (tn, rs) -> fst (fw_in g next32 py_seed cpp_seed A eqb lg mx fr0 rule u e' o c') = Ok (tn', rs') ->
  tn' = tn /\ (exists others, Permutation rs' (rs ++ others)) /\
  (forall r rest, rs = r :: rest -> exists r' rest', rs' = r' :: rest' /\ (fr_cost r' <= fr_cost r)%Z).
Proof. intros P R B K g next32 py_seed cpp_seed A eqb lg. exact (@fw_more_runs P R B g next32 py_seed cpp_seed K A eqb lg). Qed.
Print Assumptions C61_more_runs_finite_width.

(** With more temperatures after the same ones, the results are no more expensive: the
    best is compared with the best, the second with the second, and so on. The shorter
    call may be cut short by a timeout, so a timeout never helps either. *)
Theorem C61_more_steps_infinite_memory : forall (P R B K : Type) (g : prng P) next32 py_seed (cpp_seed : nat -> R) (A : alg K) eqb lg (rule : B -> rand R)
  e e' o c c' tn tn' rs rs', possible e -> in_full e' -> same_order e e' c -> more_steps c c' ->
  fst (im_in g next32 py_seed cpp_seed A eqb lg rule e o c) = Ok (tn, rs) -> fst (im_in g next32 py_seed cpp_seed A eqb lg rule e' o c') = Ok (tn', rs') ->
  tn' = tn /\ Forall2 (fun r' r => (ir_cost r' <= ir_cost r)%Z) rs' rs.
Proof. intros P R B K g next32 py_seed cpp_seed A eqb lg. exact (@im_more_steps P R B g next32 py_seed cpp_seed K A eqb lg). Qed.
Print Assumptions C61_more_steps_infinite_memory.

Theorem C61_more_steps_finite_width : forall (P R B K : Type) (g : prng P) next32 py_seed (cpp_seed : nat -> R) (A : alg K) eqb lg mx fr0 (rule : B -> frand R) u
  e e' o c c' tn tn' rs rs', possible e -> in_full e' -> same_order e e' c -> more_steps c c' ->
  fst (fw_in g next32 py_seed cpp_seed A eqb lg mx fr0 rule u e o c) = Ok (tn, rs) -> fst (fw_in g next32 py_seed cpp_seed A eqb lg mx fr0 rule u e' o c') = Ok (tn', rs') ->
  tn' = tn /\ Forall2 (fun r' r => (fr_cost r' <= fr_cost r)%Z) rs' rs.
Proof. intros P R B K g next32 py_seed cpp_seed A eqb lg. exact (@fw_more_steps P R B g next32 py_seed cpp_seed K A eqb lg). Qed.
Print Assumptions C61_more_steps_finite_width.

(** Two runs become three; no temperature becomes two; six temperatures, with and without a timeout. *)
Example C61_applies :
  let o := new_optimizer id 0 in
  let run es c := fst (im_in ex_g next7 id id nat_alg Nat.eqb lg2 rule1 (id, ex_pick, es) o c) in
  let frun es c := fst (fw_in ex_g next7 id id nat_alg Nat.eqb lg2 2%Z fx_fr frule1 1 (id, ex_pick, es) o c) in
  let six := [tt; tt; tt; tt; tt; tt] in
  more_runs (call_of 2 []) (call_of 3 []) /\ more_steps (call_of 2 []) (call_of 2 [tt; tt]) /\ more_steps (call_of 2 six) (call_of 2 six) /\
  (exists tn r1 r2 r3 r4 r5, frun (rounds [0; 1] 60) (call_of 2 []) = Ok (tn, [r1; r2]) /\ frun (rounds [1; 0; 2] 60) (call_of 3 []) = Ok (tn, [r3; r4; r5]) /\ (fr_cost r3 < fr_cost r1)%Z) /\
  (exists tn r1 r2 r3 r4, run (rounds [0; 1] 60) (call_of 2 []) = Ok (tn, [r1; r2]) /\ run (rounds [0; 1] 60) (call_of 2 [tt; tt]) = Ok (tn, [r3; r4]) /\ (ir_cost r4 < ir_cost r2)%Z) /\
  (exists tn r1 r2 r3 r4, frun (rounds [0; 1] 4 ++ [Tick; Tick] ++ rounds [0; 1] 60) (call_of 2 six) = Ok (tn, [r1; r2]) /\ frun (rounds [0; 1] 60) (call_of 2 six) = Ok (tn, [r3; r4]) /\ (fr_cost r3 < fr_cost r1)%Z).
Proof.
  cbv zeta. split; [repeat split; simpl; lia|]. split; [repeat split; exists [tt; tt]; reflexivity|]. split; [repeat split; exists []; reflexivity|].
  split; [do 6 eexists; split; [vm_compute; reflexivity|]; split; [vm_compute; reflexivity|vm_compute; reflexivity]|].
  split; do 5 eexists; (split; [vm_compute; reflexivity|]); (split; [vm_compute; reflexivity|vm_compute; reflexivity]).
Qed.
