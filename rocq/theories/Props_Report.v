(** C50: the costs that Python sees.
    Vocabulary (S_Report.v): [written ct x y]: [y] is the nearest number of six digits
    to [x] (or [x], for float1024), within 1/200000 of [x], and [x] below a million;
    [summed ct z zs y ys]: the same for the sum [y] of the components [ys];
    [within n x y]: [y] is [x] up to a relative error of 1/n. *)
From Coq Require Import List Arith NArith ZArith Bool Permutation Sorted Lia.
Import ListNotations.
From Verif Require Import M_Base M_Bitset M_Tree M_CTree M_Cost M_Opt M_InfMem M_FinWidth M_Path M_PyTree M_PyNodes M_Random M_App M_Report.
From Verif Require Import S_Tree S_Opt S_FinWidth S_Path S_PyTree S_Random S_Network S_App S_Report.
From Verif Require Import P_App P_AppMain P_Report P_ReportMain Props_InfMem Props_FinWidth Props_Random Props_App.
From Verif Require Import M_Path M_PyTree.
Local Notation has := S_Random.has.

(** ** total_cost and min_total_cost *)
(** After any updates, total_cost is the cost of the current tree, as it is written. *)
Theorem C50_total_cost_infinite_memory : forall (R : Type) c m (r : R) ds mc s0 s rds ct,
  well_formed (nodes c) -> cmodel_ok m (n_inds c) -> im_make c m r ds mc = Ok s0 -> im_run rds s0 = Ok s ->
  exists T y, tree_of (nodes (im_ct s)) T /\ im_total_cost ct s = Ok y /\
    written ct (tree_cost m (im_ct s) (n_inds c) no_slices T) y.
Proof. exact im_total_written. Qed.
Print Assumptions C50_total_cost_infinite_memory.

(** min_total_cost is the cost of the recorded tree, as it is written. It never
    increases, and is at most total_cost at the end of every update so far. *)
Theorem C50_min_total_cost_infinite_memory : forall (R : Type) c m (r : R) ds mc s0 s rds ct,
  well_formed (nodes c) -> cmodel_ok m (n_inds c) -> im_make c m r ds mc = Ok s0 -> im_run rds s0 = Ok s ->
  (exists k, get_cost (im_ccost m (dims (im_min_ct s))) (im_min_ct s) = Ok k /\ written ct k (im_min_total_cost ct s)) /\
  (forall rds1 rds2 s1, rds = rds1 ++ rds2 -> im_run rds1 s0 = Ok s1 ->
     (im_min_total_cost ct s <= im_min_total_cost ct s1)%Z /\
     (rds1 <> [] -> forall t1, im_total_cost ct s1 = Ok t1 -> (im_min_total_cost ct s <= t1)%Z)) /\
  (mc = None -> forall t0, im_total_cost ct s0 = Ok t0 -> (im_min_total_cost ct s <= t0)%Z).
Proof. exact im_min_written. Qed.
Print Assumptions C50_min_total_cost_infinite_memory.

Theorem C50_total_cost_finite_width : forall (R : Type) lg (fr : frand R) c m maxnew r ds skip mc sl msl s0 ct,
  fw_built lg fr c m maxnew r ds skip mc sl msl s0 ->
  forall us s, all_shuffle us -> fw_run lg us s0 = Ok s ->
  exists T y, tree_of (nodes (fw_ct s)) T /\ fw_total_cost ct s = Ok y /\
    written ct (tree_cost (fm_cm m) (fw_ct s) (n_inds c) (mem (fw_sl s)) T) y.
Proof. exact fw_total_written. Qed.
Print Assumptions C50_total_cost_finite_width.

Theorem C50_min_total_cost_finite_width : forall (R : Type) lg (fr : frand R) c m maxnew r ds skip mc sl msl s0 ct,
  fw_built lg fr c m maxnew r ds skip mc sl msl s0 ->
  forall us s, all_shuffle us -> fw_run lg us s0 = Ok s ->
  (exists T, tree_of (nodes (fw_min_ct s)) T /\ written ct (tree_cost (fm_cm m) (fw_min_ct s) (n_inds c) (mem (fw_min_sl s)) T) (fw_min_total_cost ct s)) /\
  (forall us1 us2 s1, us = us1 ++ us2 -> fw_run lg us1 s0 = Ok s1 ->
     (fw_min_total_cost ct s <= fw_min_total_cost ct s1)%Z /\
     (us1 <> [] -> forall t1, fw_total_cost ct s1 = Ok t1 -> (fw_min_total_cost ct s <= t1)%Z)) /\
  (mc = None -> msl = None -> forall t0, fw_total_cost ct s0 = Ok t0 -> (fw_min_total_cost ct s <= t0)%Z).
Proof. exact fw_min_written. Qed.
Print Assumptions C50_min_total_cost_finite_width.

(** ** The results of an optimization *)
(** For every network of at most 10^15 tensors, every random generator, schedule and
    number of runs: optimize returns one result for each run, with the path of this run
    and its cost as it is written, sorted by these costs. [im_core] is a run with the
    exact costs (C39 says what they are). The exact cost of the first result is at most
    1.00001 times that of any run (the full statement, that it is the cheapest, is
    false, see below). *)
Theorem C50_results_infinite_memory_partial : forall ts d out sparse np dim,
  network_ok ts d dim sparse np -> forall (P R B : Type) (g : prng P) pick betas n_steps (runs : list (P * R * (nat -> nat))) ct,
  prng_ok g -> pick_ok pick -> sparse = [] \/ one_component ts -> (forall k, n_steps = Some k -> (0 < k)%Z) -> runs <> [] ->
  (Z.of_nat (length ts) <= 10 ^ 15)%Z -> forall rule : B -> rand R,
  exists rs rs0 es, im_optimize_reported ts d out sparse np g pick ct rule betas n_steps runs = Ok rs /\
    Forall2 (fun x e => im_core ts d out sparse np g pick rule betas (option_map Z.to_nat n_steps) (fst (fst x)) (snd (fst x)) (snd x) = Ok e) runs es /\
    Forall2 (fun e y => ir_path y = ir_path e /\ ir_paths y = ir_paths e /\
                        summed ct (ir_cost e) (ir_costs e) (ir_cost y) (ir_costs y)) es rs0 /\
    Permutation rs rs0 /\ StronglySorted (fun a b => (ir_cost a <= ir_cost b)%Z) rs /\
    exists y l e, rs = y :: l /\ In e es /\ ir_path y = ir_path e /\
      forall e', In e' es -> (199998 * ir_cost e <= 200000 * ir_cost e')%Z.
Proof.
  intros ts d out sparse np dim HK P R B g pick betas n_steps runs ct Hg Hp Hs Hn Hr Hts rule.
  destruct (im_reported_ok out HK betas ct Hg Hp Hs Hn Hr Hts rule) as (rs & rs0 & es & A & F1 & F2 & HP & HS). exists rs, rs0, es.
  do 5 (split; [assumption|]). apply (@first_nearly _ _ ir_cost ir_cost (fun e y => ir_path y = ir_path e) es rs0 rs); auto.
  - clear -F2. induction F2 as [|e y es ys (H1 & _ & H2) F IH]; constructor; auto. split; [exact H1|apply (sm_within H2)].
  - intros ->. inversion F1; subst. congruence.
Qed.
Print Assumptions C50_results_infinite_memory_partial.

Theorem C50_results_finite_width_partial : forall ts d out sparse np dim,
  network_ok ts d dim sparse np -> forall (P R B : Type) (g : prng P) pick betas n_steps (runs : list (P * R * (nat -> nat))) ct,
  prng_ok g -> pick_ok pick -> sparse = [] \/ one_component ts -> (forall k, n_steps = Some k -> (0 < k)%Z) -> runs <> [] ->
  (Z.of_nat (length ts) <= 10 ^ 15)%Z -> forall lg mx (fr0 : frand R) (rule : B -> frand R) u,
  log_like lg -> shuffles fr0 -> (forall b, shuffles (rule b)) -> (0 <= mx)%Z -> 0 < u -> ts <> [] ->
  exists rs rs0 es, fw_optimize_reported ts d out sparse np g pick ct lg mx fr0 rule betas n_steps u runs = Ok rs /\
    Forall2 (fun x e => fw_core ts d out sparse np g pick lg mx fr0 rule betas (option_map Z.to_nat n_steps) u (fst (fst x)) (snd (fst x)) (snd x) = Ok e) runs es /\
    Forall2 (fun e y => fr_path y = fr_path e /\ fr_paths y = fr_paths e /\ fr_slices y = fr_slices e /\ fr_dslices y = fr_dslices e /\
                        summed ct (fr_cost e) (fr_costs e) (fr_cost y) (fr_costs y)) es rs0 /\
    Permutation rs rs0 /\ StronglySorted (fun a b => (fr_cost a <= fr_cost b)%Z) rs /\
    exists y l e, rs = y :: l /\ In e es /\ (fr_path y = fr_path e /\ fr_slices y = fr_slices e) /\
      forall e', In e' es -> (199998 * fr_cost e <= 200000 * fr_cost e')%Z.
Proof.
  intros ts d out sparse np dim HK P R B g pick betas n_steps runs ct Hg Hp Hs Hn Hr Hts lg mx fr0 rule u Hl Hf0 Hfr Hmx Hu Hne.
  destruct (fw_reported_ok out HK betas ct Hg Hp Hs Hn Hr Hts Hl Hf0 Hfr Hmx Hu Hne) as (rs & rs0 & es & A & F1 & F2 & HP & HS). exists rs, rs0, es.
  do 5 (split; [assumption|]). apply (@first_nearly _ _ fr_cost fr_cost (fun e y => fr_path y = fr_path e /\ fr_slices y = fr_slices e) es rs0 rs); auto.
  - clear -F2. induction F2 as [|e y es ys (H1 & _ & H3 & _ & H2) F IH]; constructor; auto. split; [split; assumption|apply (sm_within H2)].
  - intros ->. inversion F1; subst. congruence.
Qed.
Print Assumptions C50_results_finite_width_partial.

(** ** What is missing is false *)
(** Three tensors in a row. *)
Definition row : list (list nat) := [[0; 1]; [1; 2]; [2]].
Definition row_d : pydims := PyDict [(0, 1%N); (1, 1000%N); (2, 1001%N)].
Definition row_dim (x : nat) : N := match x with 0 => 1 | 1 => 1000 | _ => 1001 end.
Lemma row_has t x : has row t x <-> t = 0 /\ (x = 0 \/ x = 1) \/ t = 1 /\ (x = 1 \/ x = 2) \/ t = 2 /\ x = 2.
Proof.
  split.
  - intros (xs & E & Hx). destruct t as [|[|[|t]]]; [| | |destruct t; discriminate]; inversion E; subst; simpl in Hx; intuition lia.
  - intros [(-> & H)|[(-> & H)|(-> & ->)]]; [exists [0; 1]|exists [1; 2]|exists [2]]; simpl; intuition lia.
Qed.
Lemma row_ok : network_ok row row_d row_dim [] None.
Proof.
  constructor.
  - intros xs [<-|[<-|[<-|[]]]]; repeat constructor; simpl; intuition lia.
  - intros t x H. apply row_has in H. assert (x = 0 \/ x = 1 \/ x = 2) as [-> | [-> | ->]] by lia; split; (reflexivity || discriminate).
  - discriminate.
  - congruence.
  - intros x [].
Qed.
Lemma row_connected : all_connected row.
Proof.
  assert (H01 : connected row 0 1) by (apply conn_step with (u := 0) (x := 1); [apply conn_refl| |]; apply row_has; lia).
  assert (H12 : connected row 1 2) by (apply conn_step with (u := 1) (x := 2); [apply conn_refl| |]; apply row_has; lia).
  assert (H02 : connected row 0 2) by (apply conn_step with (u := 1) (x := 2); [exact H01| |]; apply row_has; lia).
  assert (H10 : connected row 1 0) by (apply conn_step with (u := 1) (x := 1); [apply conn_refl| |]; apply row_has; lia).
  assert (H21 : connected row 2 1) by (apply conn_step with (u := 2) (x := 2); [apply conn_refl| |]; apply row_has; lia).
  assert (H20 : connected row 2 0) by (apply conn_step with (u := 1) (x := 1); [exact H21| |]; apply row_has; lia).
  intros t u Ht Hu. simpl in Ht, Hu. destruct t as [|[|[|t]]]; [| | |lia]; (destruct u as [|[|[|u]]]; [| | |lia]); auto; apply conn_refl.
Qed.

(** Two runs without updates, whose random paths cost 1002001 and 1002000: both costs
    are written 1.002e+06, and the more expensive one comes first. *)
Theorem C50_first_is_cheapest_refuted : exists a b ca cb ra rb,
  network_ok row row_d row_dim [] None /\
  im_optimize_reported row row_d [0] [] None ex_g ex_pick Native rule1 [] None [(0, 0, fun _ => 0); (2, 0, fun _ => 0)] = Ok [a; b] /\
  performs 3 (ir_path a) ca [ra] /\ cost_is row [0] [] None row_dim [] ca 1002001 /\
  performs 3 (ir_path b) cb [rb] /\ cost_is row [0] [] None row_dim [] cb 1002000.
Proof.
  destruct (@C39_connected_infinite_memory row row_d [0] [] None row_dim nat nat unit ex_g ex_pick rule1 [] None 0 0 (fun _ => 0) row_ok ex_g_ok ex_pick_ok row_connected ltac:(discriminate))
    as (e & ca & ra & E & Ha & Ka & _). vm_compute in E. injection E as <-.
  destruct (@C39_connected_infinite_memory row row_d [0] [] None row_dim nat nat unit ex_g ex_pick rule1 [] None 2 0 (fun _ => 0) row_ok ex_g_ok ex_pick_ok row_connected ltac:(discriminate))
    as (e & cb & rb & E & Hb & Kb & _). vm_compute in E. injection E as <-.
  do 2 eexists. exists ca, cb, ra, rb. split; [exact row_ok|]. split; [vm_compute; reflexivity|]. split; [exact Ha|]. split; [exact Ka|]. split; [exact Hb|exact Kb].
Qed.
Print Assumptions C50_first_is_cheapest_refuted.

(** The contraction of two vectors of a million and one entries takes 1000001
    operations; total_cost is 1000000. *)
Definition dot_c : ctree := mkCT
  [mkNode None None (Some 2); mkNode None None (Some 2); mkNode (Some 0) (Some 1) None]
  [[true]; [true]; [false]] (DInt 1000001) .
Lemma dot_tree : tree_of (nodes dot_c) (Nd 2 (Lf 0) (Lf 1)).
Proof.
  split; [repeat (econstructor; simpl; eauto)|]. split; [|split; [reflexivity|]].
  - simpl. apply perm_trans with [0; 2; 1]; [apply perm_swap|]. apply perm_skip, perm_swap.
  - intros p. change ((length (nodes dot_c) + 1) / 2) with 2. simpl. lia.
Qed.
Theorem C50_total_cost_exact_refuted : exists s T,
  well_formed (nodes dot_c) /\ im_make dot_c Simple 0 false None = Ok s /\ tree_of (nodes (im_ct s)) T /\
  tree_cost Simple (im_ct s) 1 no_slices T = 1000001%Z /\
  im_total_cost Native s = Ok 1000000%Z /\ im_total_cost Float1024 s = Ok 1000001%Z.
Proof.
  eexists. exists (Nd 2 (Lf 0) (Lf 1)). split; [exists (Nd 2 (Lf 0) (Lf 1)); exact dot_tree|]. split; [vm_compute; reflexivity|]. split; [exact dot_tree|].
  split; [vm_compute; reflexivity|]. split; vm_compute; reflexivity.
Qed.
Print Assumptions C50_total_cost_exact_refuted.

(** Two components that cost 10^28 and 3 with float1024: Decimal rounds the sum. *)
Definition far : list (list nat) := [[0; 1]; [0; 1]; [2]; [2]].
Definition far_d : pydims := PyDict [(0, 100000000000000%N); (1, 100000000000000%N); (2, 3%N)].
Theorem C50_sum_exact_refuted : exists y e,
  im_optimize_reported far far_d [] [] None ex_g ex_pick Float1024 rule1 [] None [(0, 0, fun _ => 0)] = Ok [y] /\
  im_core far far_d [] [] None ex_g ex_pick rule1 [] None 0 0 (fun _ => 0) = Ok e /\
  ir_costs y = ir_costs e /\ ir_cost y <> ir_cost e.
Proof. do 2 eexists. split; [vm_compute; reflexivity|]. split; [vm_compute; reflexivity|]. split; [reflexivity|discriminate]. Qed.
Print Assumptions C50_sum_exact_refuted.

(** ** Examples *)
(** Ties are rounded to even; the hypotheses of the theorems are met by the networks
    above, and by the optimizers of C09 and C18. *)
Example C50_applies :
  map (shown Native) [999999; 1234565; 1234575; 1234567; 9999996]%Z = [999999; 1234560; 1234580; 1234570; 10000000]%Z /\
  nearest_short 6 1234567 1234570 /\ written Native 1234567 1234570 /\
  network_ok row row_d row_dim [] None /\ one_component row /\
  im_optimize_reported row row_d [0] [] None ex_g ex_pick Float1024 rule1 [] None [(0, 0, fun _ => 0); (2, 0, fun _ => 0)] =
    Ok [mkImR 1002000 [(1, 2); (0, 1)] [1002000%Z] [[(1, 2); (0, 1)]]; mkImR 1002001 [(0, 1); (0, 1)] [1002001%Z] [[(0, 1); (0, 1)]]] /\
  fw_optimize_reported row row_d [0] [] None ex_g ex_pick Native lg2 100 fx_fr frule1 [] None 1 [(0, 0, fun _ => 0)] =
    Ok [mkFwR 1002000 [(0, 1); (0, 1)] [1002000%Z] [[(0, 1); (0, 1)]] [[]] []] /\
  im_total_cost Native ex_s0 = Ok 68%Z /\ fw_total_cost Native fx_s0 = Ok 32%Z.
Proof.
  split; [vm_compute; reflexivity|]. split; [apply (@sig_nearest 6 1234567); lia|]. split; [apply (@shown_written Native 1234567); lia|].
  split; [exact row_ok|]. split; [apply all_one; exact row_connected|]. repeat split; vm_compute; reflexivity.
Qed.
