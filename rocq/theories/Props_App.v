(** C39, C40 and C43: the results of Optimizer.optimize (tnco/app), and the Python
    trees of an optimizer.
    Vocabulary (S_App.v, S_Path.v, S_Random.v): [component_paths ts paths comps]: the
    paths contract the connected components; [completes n p cs extra]: path [p] performs
    [cs], then [extra], and leaves one tensor; [cost_is sl cs k]: [k] is the number of
    operations of the contractions [cs] when the indices [sl] are sliced; [fits]: a tensor
    is at most [mx] wide after slicing; [network_ok]: the input is well-formed. *)
From Coq Require Import List Arith NArith ZArith Bool Permutation Sorted Lia.
Import ListNotations.
From Verif Require Import M_Base M_Bitset M_Tree M_CTree M_Cost M_Opt M_InfMem M_FinWidth M_Path M_PyTree M_PyNodes M_Random M_App.
From Verif Require Import S_Tree S_Opt S_FinWidth S_Path S_PyTree S_Random S_Network S_App.
From Verif Require Import P_PyNodes P_App P_AppMain Props_InfMem Props_FinWidth Props_Random.
From Verif Require Import M_Path M_PyTree.
Local Notation core := M_PyTree.core.
Local Notation has := S_Random.has.

(** The specification determines the cost. *)
Theorem C39_cost_is_unique : forall ts out sparse np dim sl cs k k',
  cost_is ts out sparse np dim sl cs k -> cost_is ts out sparse np dim sl cs k' -> k = k'.
Proof. intros ts out sparse np dim sl cs k k' H H'. exact (cost_fun H H'). Qed.
Print Assumptions C39_cost_is_unique.

(** ** Connected networks *)
(** For every connected network, every random generator, schedule of temperatures and
    acceptance rule, and whenever the run is stopped: the path contracts the
    whole network, contracting only tensors with a common index, and the reported cost
    is the cost of this path. *)
Theorem C39_connected_infinite_memory : forall ts d out sparse np dim (P R B : Type) (g : prng P) pick (rule : B -> rand R) betas n_steps r r0 stop,
  network_ok ts d dim sparse np -> prng_ok g -> pick_ok pick -> all_connected ts -> ts <> [] ->
  exists res cs root, im_core ts d out sparse np g pick rule betas n_steps r r0 stop = Ok res /\
    performs (length ts) (ir_path res) cs [root] /\ cost_is ts out sparse np dim [] cs (ir_cost res) /\
    (forall c, In c cs -> exists a b, c = C a b /\ share ts (tensors a) (tensors b)).
Proof. intros ts d out sparse np dim P R B g pick rule betas n_steps r r0 stop HK. exact (@im_connected ts d out sparse np dim HK P R B g pick rule betas n_steps r r0 stop). Qed.
Print Assumptions C39_connected_infinite_memory.

(** The same with slices: the cost counts them, and after slicing every tensor, given or
    intermediate, fits in max_width. *)
Theorem C39_connected_finite_width : forall ts d out sparse np dim (P R B : Type) (g : prng P) pick lg mx (fr0 : frand R) (rule : B -> frand R) betas n_steps u r r0 stop,
  network_ok ts d dim sparse np -> prng_ok g -> pick_ok pick -> log_like lg -> shuffles fr0 -> (forall b, shuffles (rule b)) -> (0 <= mx)%Z -> 0 < u ->
  all_connected ts -> ts <> [] ->
  exists res cs root, fw_core ts d out sparse np g pick lg mx fr0 rule betas n_steps u r r0 stop = Ok res /\
    performs (length ts) (fr_path res) cs [root] /\ cost_is ts out sparse np dim (fr_slices res) cs (fr_cost res) /\
    (forall c, In c cs -> exists a b, c = C a b /\ share ts (tensors a) (tensors b)) /\
    (forall x, In x (fr_slices res) -> exists t, has ts t x) /\
    (2 <= length ts -> (forall c, In c cs -> fits ts out sparse np dim lg mx (fr_slices res) (tensors c)) /\
                       (forall t, t < length ts -> fits ts out sparse np dim lg mx (fr_slices res) [t])).
Proof.
  intros ts d out sparse np dim P R B g pick lg mx fr0 rule betas n_steps u r r0 stop HK.
  exact (@fw_connected ts d out sparse np dim HK P R B g pick lg mx fr0 rule betas n_steps u r r0 stop).
Qed.
Print Assumptions C39_connected_finite_width.

(** ** All networks *)
(** Each component is contracted, then the rest is joined. The cost is the cost of the
    contractions of the components; the final outer products [extra] are not
    counted. The cost is at most that of the random paths the run starts from. *)
Theorem C39_infinite_memory_partial : forall ts d out sparse np dim (P R B : Type) (g : prng P) pick (rule : B -> rand R) betas n_steps r r0 stop,
  network_ok ts d dim sparse np -> prng_ok g -> pick_ok pick -> sparse = [] \/ one_component ts ->
  exists res comps extra, im_core ts d out sparse np g pick rule betas n_steps r r0 stop = Ok res /\
    component_paths ts (ir_paths res) comps /\
    completes (length ts) (ir_path res) (concat (map fst comps)) extra /\
    cost_is ts out sparse np dim [] (concat (map fst comps)) (ir_cost res) /\
    ((exists t x, has ts t x) -> Forall2 (fun k z => cost_is ts out sparse np dim [] (fst k) z) comps (ir_costs res)) /\
    exists ps0 comps0 k0, random_paths g pick ts r = Ok ps0 /\ component_paths ts ps0 comps0 /\
      cost_is ts out sparse np dim [] (concat (map fst comps0)) k0 /\ (ir_cost res <= k0)%Z.
Proof. intros ts d out sparse np dim P R B g pick rule betas n_steps r r0 stop HK. exact (@im_core_ok ts d out sparse np dim HK P R B g pick rule betas n_steps r r0 stop). Qed.
Print Assumptions C39_infinite_memory_partial.

(** With slices: each component has its own, [fr_slices] is their union; under it every
    tensor of a component with at least one contraction fits. *)
Theorem C39_finite_width_partial : forall ts d out sparse np dim (P R B : Type) (g : prng P) pick lg mx (fr0 : frand R) (rule : B -> frand R) betas n_steps u r r0 stop,
  network_ok ts d dim sparse np -> prng_ok g -> pick_ok pick -> log_like lg -> shuffles fr0 -> (forall b, shuffles (rule b)) -> (0 <= mx)%Z -> 0 < u ->
  ts <> [] -> sparse = [] \/ one_component ts ->
  exists res comps extra zs, fw_core ts d out sparse np g pick lg mx fr0 rule betas n_steps u r r0 stop = Ok res /\
    component_paths ts (fr_paths res) comps /\
    completes (length ts) (fr_path res) (concat (map fst comps)) extra /\
    priced ts out sparse np dim comps (fr_dslices res) zs /\
    fr_cost res = fold_right Z.add 0%Z zs /\ ((exists t x, has ts t x) -> fr_costs res = zs) /\
    (forall x, In x (fr_slices res) <-> exists sl, In sl (fr_dslices res) /\ In x sl) /\
    (forall k, In k comps -> fst k <> [] ->
       (forall c, In c (fst k) -> fits ts out sparse np dim lg mx (fr_slices res) (tensors c)) /\
       (forall v, In v (tensors (snd k)) -> fits ts out sparse np dim lg mx (fr_slices res) [v])).
Proof.
  intros ts d out sparse np dim P R B g pick lg mx fr0 rule betas n_steps u r r0 stop HK.
  exact (@fw_core_ok ts d out sparse np dim HK P R B g pick lg mx fr0 rule betas n_steps u r r0 stop).
Qed.
Print Assumptions C39_finite_width_partial.

(** ** What is missing is false *)
Definition rule1 (_ : unit) : rand nat := ex_rd.
Definition frule1 (_ : unit) : frand nat := fx_fr.
Definition d2 : pydims := PyInt 2.
Definition dim2 (_ : nat) : N := 2.

(** Two vectors, both open: the path contracts them, which costs 4 operations; the
    reported cost is 0. With max_width 1 both fit, nothing is sliced and the result of
    the path does not fit. *)
Definition two : list (list nat) := [[0]; [1]].
Lemma two_ok : network_ok two d2 dim2 [] None.
Proof.
  constructor.
  - intros xs [<-|[<-|[]]]; repeat constructor; auto.
  - intros t x _. split; [reflexivity|discriminate].
  - discriminate.
  - congruence.
  - intros x [].
Qed.
Lemma two_has : has two 0 0 /\ has two 1 1.
Proof. split; [exists [0]|exists [1]]; simpl; auto. Qed.
Lemma two_all x : stays two [0; 1] [0; 1] x <-> x = 0 \/ x = 1.
Proof.
  split.
  - intros ((t & _ & xs & E & Hx) & _). destruct t as [|[|t]]; [| |destruct t; discriminate]; inversion E; subst; destruct Hx as [<-|[]]; auto.
  - intros H. split; [|left; simpl; destruct H; auto]. destruct two_has. destruct H as [-> | ->]; [exists 0|exists 1]; simpl; auto.
Qed.
Lemma two_one t x : t < 2 -> stays two [0; 1] [t] x <-> x = t.
Proof.
  intros Ht. split.
  - intros ((t' & [<-|[]] & xs & E & Hx) & _). destruct t as [|[|t]]; [| |lia]; inversion E; subst; destruct Hx as [<-|[]]; auto.
  - intros ->. split; [|left; destruct t as [|[|t]]; simpl; auto; lia]. exists t. split; [left; auto|]. destruct two_has. destruct t as [|[|t]]; auto; lia.
Qed.
Theorem C39_cost_refuted : exists res cs root k,
  network_ok two d2 dim2 [] None /\
  im_core two d2 [0; 1] [] None ex_g ex_pick rule1 [tt] None 0 0 (fun _ => 1) = Ok res /\
  performs (length two) (ir_path res) cs [root] /\ cost_is two [0; 1] [] None dim2 [] cs k /\ ir_cost res <> k.
Proof.
  eexists. exists [C (S_Path.T 0) (S_Path.T 1)], (C (S_Path.T 0) (S_Path.T 1)), 4%Z. split; [exact two_ok|]. split; [vm_compute; reflexivity|]. split; [reflexivity|].
  split; [|discriminate]. apply (@cost_one two [0; 1] [] None dim2 [] (S_Path.T 0) (S_Path.T 1) [] [0; 1] 0%Z); [|apply cost_none]. split; [repeat constructor; simpl; intuition lia|].
  intros x. simpl tensors. rewrite !two_one by lia. simpl. intuition lia.
Qed.
Print Assumptions C39_cost_refuted.
Theorem C39_width_refuted : exists res root cs,
  network_ok two d2 dim2 [] None /\
  fw_core two d2 [0; 1] [] None ex_g ex_pick lg2 1%Z fx_fr frule1 [tt] None 1 0 0 (fun _ => 1) = Ok res /\
  performs (length two) (fr_path res) cs [root] /\ In root cs /\
  ~ fits two [0; 1] [] None dim2 lg2 1 (fr_slices res) (tensors root) /\
  forall t, t < 2 -> fits two [0; 1] [] None dim2 lg2 1 (fr_slices res) [t].
Proof.
  eexists. exists (C (S_Path.T 0) (S_Path.T 1)), [C (S_Path.T 0) (S_Path.T 1)]. split; [exact two_ok|]. split; [vm_compute; reflexivity|]. split; [reflexivity|].
  split; [left; auto|]. cbn [fr_slices]. split.
  - rewrite (@fits_width two [0; 1] [] None dim2 lg2 1 [] _ [0; 1]); [vm_compute; auto|]. split; [repeat constructor; simpl; intuition lia|].
    intros x. simpl tensors. rewrite two_all. simpl. intuition lia.
  - intros t Ht. apply (@fits_width two [0; 1] [] None dim2 lg2 1 [] _ [t]); [|vm_compute; discriminate]. split; [repeat constructor; simpl; intuition lia|].
    intros x. rewrite (two_one t x Ht). simpl. intuition lia.
Qed.
Print Assumptions C39_width_refuted.

(** A single tensor is never sliced, whatever max_width is. *)
Definition one : list (list nat) := [[0; 1]].
Theorem C39_single_tensor_width_refuted : exists res,
  network_ok one d2 dim2 [] None /\ all_connected one /\
  fw_core one d2 [0; 1] [] None ex_g ex_pick lg2 1%Z fx_fr frule1 [tt] None 1 0 0 (fun _ => 1) = Ok res /\
  ~ fits one [0; 1] [] None dim2 lg2 1 (fr_slices res) [0].
Proof.
  eexists. split; [|split; [|split; [vm_compute; reflexivity|]]].
  - constructor.
    + intros xs [<-|[]]. repeat constructor; simpl; intuition lia.
    + intros t x _. split; [reflexivity|discriminate].
    + discriminate.
    + congruence.
    + intros x [].
  - intros t u Ht Hu. simpl in *. assert (t = u) as -> by lia. apply conn_refl.
  - cbn [fr_slices]. rewrite (@fits_width one [0; 1] [] None dim2 lg2 1 [] _ [0; 1]); [vm_compute; auto|]. split; [repeat constructor; simpl; intuition lia|].
    intros x. split.
    + intros Hx. split; [|auto]. split; [|left; auto]. exists 0. split; [left; auto|]. exists [0; 1]. auto.
    + intros (((t & _ & xs & E & Hx) & _) & _). destruct t as [|t]; [|destruct t; discriminate]. inversion E; subst. auto.
Qed.
Print Assumptions C39_single_tensor_width_refuted.

(** Sparse indices in a network of two components, each with a contraction: optimize
    raises. *)
Definition four : list (list nat) := [[0; 1]; [0]; [2; 3]; [2]].
Theorem C39_sparse_disconnected_refuted :
  network_ok four d2 dim2 [1; 3] (Some 2%Z) /\
  im_core four d2 [1; 3] [1; 3] (Some 2%Z) ex_g ex_pick rule1 [tt] None 0 0 (fun _ => 1) = Err Throw /\
  fw_core four d2 [1; 3] [1; 3] (Some 2%Z) ex_g ex_pick lg2 9%Z fx_fr frule1 [tt] None 1 0 0 (fun _ => 1) = Err Throw.
Proof.
  split; [|split; vm_compute; reflexivity]. constructor.
  - intros xs [<-|[<-|[<-|[<-|[]]]]]; repeat constructor; simpl; intuition lia.
  - intros t x _. split; [reflexivity|discriminate].
  - intros k E. inversion E. lia.
  - discriminate.
  - intros x [<-|[<-|[]]]; [exists 0, [0; 1]|exists 2, [2; 3]]; simpl; auto.
Qed.
Print Assumptions C39_sparse_disconnected_refuted.

(** A network without tensors is optimized with infinite memory, but not with finite
    width; update_slices = 0 divides by zero. *)
Theorem C39_no_tensors_refuted :
  im_core [] d2 [] [] None ex_g ex_pick rule1 [tt] None 0 0 (fun _ => 1) = Ok (mkImR 0 [] [] []) /\
  fw_core [] d2 [] [] None ex_g ex_pick lg2 9%Z fx_fr frule1 [tt] None 1 0 0 (fun _ => 1) = Err Throw.
Proof. split; vm_compute; reflexivity. Qed.
Print Assumptions C39_no_tensors_refuted.
Theorem C39_update_slices_zero_refuted :
  fw_core [[0]; [0]] d2 [] [] None ex_g ex_pick lg2 9%Z fx_fr frule1 [tt] None 0 0 0 (fun _ => 1) = Err Crash.
Proof. vm_compute. reflexivity. Qed.
Print Assumptions C39_update_slices_zero_refuted.

(** ** Examples *)
(** A ring of four tensors with an open leg and a sparse index: connected, the run
    slices an index. *)
Definition ring : list (list nat) := [[0; 1; 4]; [1; 2]; [2; 3; 5]; [3; 0]].
Lemma ring_ok : network_ok ring d2 dim2 [4] (Some 3%Z).
Proof.
  constructor.
  - intros xs [<-|[<-|[<-|[<-|[]]]]]; repeat constructor; simpl; intuition lia.
  - intros t x _. split; [reflexivity|discriminate].
  - intros k E. inversion E. lia.
  - discriminate.
  - intros x [<-|[]]. exists 0, [0; 1; 4]. simpl. auto.
Qed.
Lemma ring_connected : all_connected ring.
Proof.
  assert (H : forall t, t < 4 -> connected ring 0 t /\ connected ring t 0).
  { intros t Ht. assert (h0 : has ring 0 0) by (exists [0; 1; 4]; simpl; auto). assert (h1 : has ring 0 1) by (exists [0; 1; 4]; simpl; auto).
    assert (h2 : has ring 1 1) by (exists [1; 2]; simpl; auto). assert (h3 : has ring 1 2) by (exists [1; 2]; simpl; auto).
    assert (h4 : has ring 2 2) by (exists [2; 3; 5]; simpl; auto). assert (h5 : has ring 3 0) by (exists [3; 0]; simpl; auto).
    destruct t as [|[|[|[|t]]]]; [| | | |lia].
    - split; apply conn_refl.
    - split; [apply conn_step with 0 1|apply conn_step with 1 1]; auto; apply conn_refl.
    - split; [apply conn_step with 1 2|apply conn_step with 1 1]; auto; [apply conn_step with 0 1|apply conn_step with 2 2]; auto; apply conn_refl.
    - split; [apply conn_step with 0 0|apply conn_step with 3 0]; auto; apply conn_refl. }
  intros t u Ht Hu. destruct (H t Ht) as (_ & A). destruct (H u Hu) as (B & _).
  clear -A B. revert A B. generalize 0. intros z A B. induction B as [|t' u' v x B IH H1 H2]; auto. apply (conn_step _ _ u' _ x); auto.
Qed.
Example C39_connected_applies : network_ok ring d2 dim2 [4] (Some 3%Z) /\ all_connected ring /\ prng_ok ex_g /\ pick_ok ex_pick /\
  exists res, fw_core ring d2 [4; 5] [4] (Some 3%Z) ex_g ex_pick lg2 2%Z fx_fr frule1 [tt; tt] None 1 0 0 (fun _ => 2) = Ok res /\ fr_slices res <> [].
Proof. split; [exact ring_ok|]. split; [exact ring_connected|]. split; [exact ex_g_ok|]. split; [exact ex_pick_ok|]. eexists. split; [vm_compute; reflexivity|]. discriminate. Qed.
Example C39_infinite_memory_applies : exists res,
  im_core (ring ++ [[7; 8]; [8; 9]; []]) d2 [4; 5; 7] [] None ex_g ex_pick rule1 [tt; tt] None 0 0 (fun _ => 2) = Ok res /\
  length (ir_paths res) = 2 /\ length (ir_path res) = 6.
Proof. eexists. split; [vm_compute; reflexivity|]. auto. Qed.

(** ** C40 *)
(** optimize returns the results of the runs sorted by cost; results of the same cost
    stay in the order of the runs. *)
Theorem C40_infinite_memory_results_sorted : forall ts d out sparse np dim (P R B : Type) (g : prng P) pick (rule : B -> rand R) betas n_steps runs,
  network_ok ts d dim sparse np -> prng_ok g -> pick_ok pick -> sparse = [] \/ one_component ts -> (forall k, n_steps = Some k -> (0 < k)%Z) -> runs <> [] ->
  exists rs rs0, im_optimize ts d out sparse np g pick rule betas n_steps runs = Ok rs /\
    Forall2 (fun x r => im_core ts d out sparse np g pick rule betas (option_map Z.to_nat n_steps) (fst (fst x)) (snd (fst x)) (snd x) = Ok r) runs rs0 /\
    Permutation rs rs0 /\ StronglySorted (fun a b => (ir_cost a <= ir_cost b)%Z) rs /\
    forall k, filter (fun a => (ir_cost a =? k)%Z) rs = filter (fun a => (ir_cost a =? k)%Z) rs0.
Proof. intros ts d out sparse np dim P R B g pick rule betas n_steps runs HK. exact (@im_optimize_ok ts d out sparse np dim HK P R B g pick rule betas n_steps runs). Qed.
Print Assumptions C40_infinite_memory_results_sorted.
Theorem C40_finite_width_results_sorted : forall ts d out sparse np dim (P R B : Type) (g : prng P) pick lg mx (fr0 : frand R) (rule : B -> frand R) betas n_steps u runs,
  network_ok ts d dim sparse np -> prng_ok g -> pick_ok pick -> log_like lg -> shuffles fr0 -> (forall b, shuffles (rule b)) -> (0 <= mx)%Z -> 0 < u ->
  ts <> [] -> sparse = [] \/ one_component ts -> (forall k, n_steps = Some k -> (0 < k)%Z) -> runs <> [] ->
  exists rs rs0, fw_optimize ts d out sparse np g pick lg mx fr0 rule betas n_steps u runs = Ok rs /\
    Forall2 (fun x r => fw_core ts d out sparse np g pick lg mx fr0 rule betas (option_map Z.to_nat n_steps) u (fst (fst x)) (snd (fst x)) (snd x) = Ok r) runs rs0 /\
    Permutation rs rs0 /\ StronglySorted (fun a b => (fr_cost a <= fr_cost b)%Z) rs /\
    forall k, filter (fun a => (fr_cost a =? k)%Z) rs = filter (fun a => (fr_cost a =? k)%Z) rs0.
Proof.
  intros ts d out sparse np dim P R B g pick lg mx fr0 rule betas n_steps u runs HK.
  exact (@fw_optimize_ok ts d out sparse np dim HK P R B g pick lg mx fr0 rule betas n_steps u runs).
Qed.
Print Assumptions C40_finite_width_results_sorted.
(** So the first result is the cheapest of all. *)
Theorem C40_first_is_the_cheapest : forall (A : Type) (cost : A -> Z) rs rs0,
  Permutation rs rs0 -> StronglySorted (fun a b => (cost a <= cost b)%Z) rs ->
  forall a, In a rs0 -> exists b l, rs = b :: l /\ (cost b <= cost a)%Z.
Proof. exact sorted_head. Qed.
Print Assumptions C40_first_is_the_cheapest.
(** Sorting, for any list of results. *)
Theorem C40_any_results_sorted : forall (A : Type) (cost : A -> Z) l,
  Permutation (sorted_by cost l) l /\ StronglySorted (fun a b => (cost a <= cost b)%Z) (sorted_by cost l) /\
  forall k, filter (fun a => (cost a =? k)%Z) (sorted_by cost l) = filter (fun a => (cost a =? k)%Z) l.
Proof. intros A cost l. split; [apply sorted_by_perm|]. split; [apply sorted_by_sorted|]. intros k. apply sorted_by_stable. Qed.
Print Assumptions C40_any_results_sorted.
(** Invalid arguments raise before anything is run. *)
Theorem C40_invalid_arguments_raise : forall ts d out sparse np (P R B : Type) (g : prng P) pick lg mx (fr0 : frand R) (rule : B -> rand R) (frule : B -> frand R) betas n_steps u runs,
  ((exists k, n_steps = Some k /\ (k <= 0)%Z) \/ (exists k, np = Some k /\ (k < 1)%Z) \/ (np = None /\ sparse <> []) \/ runs = [] ->
   im_optimize ts d out sparse np g pick rule betas n_steps runs = Err Throw) /\
  ((exists k, n_steps = Some k /\ (k <= 0)%Z) \/ (mx < 0)%Z \/ (exists k, np = Some k /\ (k < 1)%Z) \/ (np = None /\ sparse <> []) \/ runs = [] ->
   fw_optimize ts d out sparse np g pick lg mx fr0 frule betas n_steps u runs = Err Throw).
Proof. intros. split; [apply im_bad_args|apply fw_bad_args]. Qed.
Print Assumptions C40_invalid_arguments_raise.
Example C40_applies : exists a b c, im_optimize ring d2 [4; 5] [4] (Some 3%Z) ex_g ex_pick rule1 [tt; tt] (Some 2%Z) [(0, 0, fun _ => 2); (1, 5, fun _ => 1); (2, 3, fun _ => 0)] = Ok [a; b; c].
Proof. do 3 eexists. vm_compute. reflexivity. Qed.

(** ** C43 *)
(** A tree built from a path is the same after pickling, in whatever order the sets of
    indices are listed. *)
Theorem C43_pickling_a_tree_keeps_it : forall p ts d output chk t ord,
  pytree_make p ts d output chk = Ok t -> (forall l, Permutation (ord l) l) ->
  exists x, tree_reduce ord t = Ok x /\ tree_build x = Ok t.
Proof. intros p ts d output chk t ord H Ho. exact (pickle_ok (over_make H) Ho). Qed.
Print Assumptions C43_pickling_a_tree_keeps_it.
(** optimizer.ctree and optimizer.min_ctree never fail: they are the trees of the C++
    optimizer, with the names of the tensors and indices of the original tree. *)
Theorem C43_infinite_memory_trees : forall p ts d output chk t (R : Type) m (r : R) ds s0 rds s,
  pytree_make p ts d output chk = Ok t -> well_formed (nodes (core t)) ->
  im_make (core t) m r ds None = Ok s0 -> im_run rds s0 = Ok s ->
  get_ctree t (im_ct s) = Ok (mkPT (im_ct s) (n_tensors t) (tensors_pos t) (inds_order t)) /\
  get_ctree t (im_min_ct s) = Ok (mkPT (im_min_ct s) (n_tensors t) (tensors_pos t) (inds_order t)).
Proof. intros p ts d output chk t R m r ds s0 rds s H. exact (im_trees (over_make H)). Qed.
Print Assumptions C43_infinite_memory_trees.
Theorem C43_finite_width_trees : forall p ts d output chk t (R : Type) lg (fr : frand R) m maxnew r ds skip sl msl s0 us s,
  pytree_make p ts d output chk = Ok t ->
  fw_built lg fr (core t) m maxnew r ds skip None sl msl s0 -> all_shuffle us -> fw_run lg us s0 = Ok s ->
  get_ctree t (fw_ct s) = Ok (mkPT (fw_ct s) (n_tensors t) (tensors_pos t) (inds_order t)) /\
  get_ctree t (fw_min_ct s) = Ok (mkPT (fw_min_ct s) (n_tensors t) (tensors_pos t) (inds_order t)).
Proof. intros p ts d output chk t R lg fr m maxnew r ds skip sl msl s0 us s H. exact (fw_trees (over_make H)). Qed.
Print Assumptions C43_finite_width_trees.
Example C43_applies : exists t x s0 s t', pytree_make [(0, 1); (0, 1); (0, 1)] ring d2 (Some [4; 5]) true = Ok t /\
  tree_reduce (@rev nat) t = Ok x /\ tree_build x = Ok t /\
  im_make (core t) Simple 0 false None = Ok s0 /\ im_run [ex_rd; ex_rd] s0 = Ok s /\ get_ctree t (im_ct s) = Ok t' /\ core t' <> core t.
Proof. do 5 eexists. do 6 (split; [vm_compute; reflexivity|]). vm_compute. discriminate. Qed.
