(** Property C59: the search has no traps; every contraction tree can be reached. *)
From Coq Require Import QArith Reals Qreals Permutation.
From Verif Require Import M_Base M_Bitset M_Tree M_CTree M_Cost M_Opt M_InfMem M_Prob S_Tree S_Opt S_Reach
  P_Base P_InfMemFinal P_Prob P_ReachFinal.
Local Open Scope nat_scope.

(** ** C59 *)
(** From every state of a session ([s]), with every acceptance rule that gives
    every move a positive probability, possibly another one at every update
    ([prob i]), to every valid tree [c'] for the same tensors: there are a number
    of updates and values of [prng()] such that, whenever the numbers [uniform]
    returns are small enough, these updates end in the contraction order of [c'],
    at its cost, and the best cost found is then at most that. *)
Theorem C59_every_tree_can_be_reached :
  forall c m ds mc (r0 : dice) s0 (rds : list (rand dice)) s out c' (prob : nat -> Z -> Z -> R),
  exact_inds c out -> cmodel_ok m (n_inds c) -> im_make c m r0 ds mc = Ok s0 -> im_run rds s0 = Ok s ->
  same_problem c c' -> exact_inds c' out -> ctree_is_valid c' (negb ds) = true ->
  (forall i delta total, (0 < prob i delta total)%R) ->
  exists updates ints eps draws, (0 < eps)%R /\
    forall us, length us = draws -> Forall (fun u => (Q2R u <= eps)%R) us ->
    exists s', im_run (map (fun i => dice_rand (prob i)) (seq 0 updates)) (with_rng s (ints, us)) = Ok s' /\
      (exists T T', tree_of (nodes (im_ct s')) T /\ tree_of (nodes c') T' /\ same_order T T') /\
      exists z, im_total s' = Ok z /\ get_cost (im_ccost m (dims c')) c' = Ok z /\ (im_min s' <= z)%Z.
Proof. exact reach_tree. Qed.
Print Assumptions C59_every_tree_can_be_reached.

(** Metropolis-Hastings is such a rule, at all temperatures. *)
Theorem C59_metropolis_reaches_every_tree :
  forall c m ds mc (r0 : dice) s0 (rds : list (rand dice)) s out c' (beta : nat -> R),
  exact_inds c out -> cmodel_ok m (n_inds c) -> im_make c m r0 ds mc = Ok s0 -> im_run rds s0 = Ok s ->
  same_problem c c' -> exact_inds c' out -> ctree_is_valid c' (negb ds) = true ->
  exists updates ints eps draws, (0 < eps)%R /\
    forall us, length us = draws -> Forall (fun u => (Q2R u <= eps)%R) us ->
    exists s', im_run (map (fun i => dice_rand (mh_prob (beta i))) (seq 0 updates)) (with_rng s (ints, us)) = Ok s' /\
      (exists T T', tree_of (nodes (im_ct s')) T /\ tree_of (nodes c') T' /\ same_order T T') /\
      exists z, im_total s' = Ok z /\ get_cost (im_ccost m (dims c')) c' = Ok z /\ (im_min s' <= z)%Z.
Proof. exact reach_tree_mh. Qed.
Print Assumptions C59_metropolis_reaches_every_tree.

(** A network where this matters: tensors {0,1} {0,2,3} {1,2,4} {3,4} with
    dimensions 3 3 4 5 3; [trap] contracts ((0,2),1),3 and [better] 0,((1,3),2). *)
Definition trap : ctree := mkCT
  [ mkNode None None (Some 4); mkNode None None (Some 5); mkNode None None (Some 4); mkNode None None (Some 6);
    mkNode (Some 0) (Some 2) (Some 5); mkNode (Some 4) (Some 1) (Some 6); mkNode (Some 5) (Some 3) None ]
  [ [true; true; false; false; false]; [true; false; true; true; false]; [false; true; true; false; true];
    [false; false; false; true; true]; [true; false; true; false; true]; [false; false; false; true; true];
    [false; false; false; false; false] ]
  (DVec [3; 3; 4; 5; 3]%N).
Definition trap_bt : bt := Nd 6 (Nd 5 (Nd 4 (Lf 0) (Lf 2)) (Lf 1)) (Lf 3).
Definition better : ctree := mkCT
  [ mkNode None None (Some 6); mkNode None None (Some 4); mkNode None None (Some 5); mkNode None None (Some 4);
    mkNode (Some 1) (Some 3) (Some 5); mkNode (Some 4) (Some 2) (Some 6); mkNode (Some 0) (Some 5) None ]
  [ [true; true; false; false; false]; [true; false; true; true; false]; [false; true; true; false; true];
    [false; false; false; true; true]; [true; false; true; false; true]; [true; true; false; false; false];
    [false; false; false; false; false] ]
  (DVec [3; 3; 4; 5; 3]%N).
Definition better_bt : bt := Nd 6 (Lf 0) (Nd 5 (Nd 4 (Lf 1) (Lf 3)) (Lf 2)).
Definition closed : nat -> Prop := fun x => false = true.

Lemma small_perm : Permutation (positions trap_bt) (seq 0 7) /\ Permutation (positions better_bt) (seq 0 7).
Proof.
  split; apply NoDup_Permutation; try (repeat constructor; simpl; intuition discriminate);
    intros x; simpl; intuition.
Qed.
Example trap_tree_of : tree_of (nodes trap) trap_bt.
Proof.
  split; [simpl; auto 10|]. split; [apply small_perm|]. split; [reflexivity|].
  change ((length (nodes trap) + 1) / 2) with 4. intros p. simpl.
  split; [intuition lia|]. intros H. destruct p as [|[|[|[|p]]]]; try lia; auto.
Qed.
Example better_tree_of : tree_of (nodes better) better_bt.
Proof.
  split; [simpl; auto 10|]. split; [apply small_perm|]. split; [reflexivity|].
  change ((length (nodes better) + 1) / 2) with 4. intros p. simpl.
  split; [intuition lia|]. intros H. destruct p as [|[|[|[|p]]]]; try lia; auto.
Qed.
Example trap_exact : exact_inds trap closed.
Proof. apply (@exact_check_ok trap 5 (fun _ => false) trap_bt trap_tree_of). vm_compute. reflexivity. Qed.
Example better_exact : exact_inds better closed.
Proof. apply (@exact_check_ok better 5 (fun _ => false) better_bt better_tree_of). vm_compute. reflexivity. Qed.
Example same_network : same_problem trap better.
Proof.
  split; [eexists; apply trap_tree_of|]. split; [eexists; apply better_tree_of|].
  split; [reflexivity|]. split; [reflexivity|]. split; [reflexivity|]. split; [|reflexivity].
  change ((length (nodes trap) + 1) / 2) with 4. intros p Hp. destruct p as [|[|[|[|p]]]]; try lia; reflexivity.
Qed.

(** The hypotheses hold, shared indices enforced; and the tree reached is another
    one than the one at the start, and cheaper. *)
Example C59_applies : exists s0, im_make trap Simple (([], []) : dice) false None = Ok s0 /\
  exact_inds trap closed /\ cmodel_ok Simple (n_inds trap) /\ same_problem trap better /\
  exact_inds better closed /\ ctree_is_valid better (negb false) = true /\
  (forall beta delta total, (0 < mh_prob beta delta total)%R) /\
  im_total s0 = Ok 303%Z /\ get_cost (im_ccost Simple (dims better)) better = Ok 297%Z /\
  ~ same_order trap_bt better_bt.
Proof.
  eexists. split; [vm_compute; reflexivity|]. split; [apply trap_exact|]. split; [exact I|].
  split; [apply same_network|]. split; [apply better_exact|]. split; [vm_compute; reflexivity|].
  split; [exact mh_positive|]. split; [vm_compute; reflexivity|]. split; [vm_compute; reflexivity|].
  unfold trap_bt, better_bt. intros H.
  repeat match goal with G : same_order _ _ |- _ => inversion G; clear G; subst end.
Qed.

(** Without the hypothesis on the rule this is false: greedy search stays where it
    is for ever, whatever the draws (none of them exactly 0). *)
Definition trap_s0 : im_state dice :=
  match im_make trap Simple (([], []) : dice) false None with Ok s => s
  | Err _ => mkIM trap false ([], []) trap Simple (mkCC [] []) [] 0%Z end.
Section Stuck.
Variables (rd : rand dice) (f : dice -> dice).
Hypothesis Hacc : forall r d t, (0 < d)%Z -> accept rd r d t = (false, f r).

Lemma stuck_nn B r : B = 4 \/ B = 5 -> exists A C D E r',
  get_ctree_nn rd trap false r (Some B) = Ok (Some (A, C, D, E), r') /\
  (B = 4 /\ A = 5 /\ C = 1 /\ (D = 0 /\ E = 2 \/ D = 2 /\ E = 0) \/
   B = 5 /\ A = 6 /\ C = 3 /\ (D = 4 /\ E = 1 \/ D = 1 /\ E = 4)).
Proof.
  intros [-> | ->]; unfold get_ctree_nn; cbn; destruct (draw rd r) as (x & r'); destruct (Nat.odd x);
    do 5 eexists; (split; [reflexivity|]); auto 10.
Qed.
Lemma stuck_iter B r : B = 4 \/ B = 5 ->
  exists r', im_iter rd (with_rng trap_s0 r) 303 B = Ok (with_rng trap_s0 r', Some (303%Z, S B)).
Proof.
  intros HB. destruct (stuck_nn B r HB) as (A & C & D & E & r1 & Hn & Hc).
  unfold im_iter. change (im_ct (with_rng trap_s0 r)) with trap. change (im_ds (with_rng trap_s0 r)) with false.
  change (im_rng (with_rng trap_s0 r)) with r. rewrite Hn. clear Hn. cbn [bind].
  destruct Hc as [(-> & -> & -> & [(-> & ->)|(-> & ->)])|(-> & -> & -> & [(-> & ->)|(-> & ->)])];
    cbv -[accept]; rewrite Hacc by reflexivity; eexists; reflexivity.
Qed.
Lemma stuck_root r : exists r', im_iter rd (with_rng trap_s0 r) 303 6 = Ok (with_rng trap_s0 r', None).
Proof. eexists. reflexivity. Qed.
Lemma stuck_loop k r : exists r', im_loop rd (S (S (S k))) (with_rng trap_s0 r) 303 4 = Ok (with_rng trap_s0 r') /\
  exists r'', im_loop rd (S (S k)) (with_rng trap_s0 r) 303 5 = Ok (with_rng trap_s0 r'') /\
  exists r3, im_loop rd (S k) (with_rng trap_s0 r) 303 6 = Ok (with_rng trap_s0 r3).
Proof.
  assert (L3 : forall r, exists r', im_loop rd (S k) (with_rng trap_s0 r) 303 6 = Ok (with_rng trap_s0 r')).
  { intros r0. cbn [im_loop]. destruct (stuck_root r0) as (r' & ->). eexists. reflexivity. }
  assert (L2 : forall r, exists r', im_loop rd (S (S k)) (with_rng trap_s0 r) 303 5 = Ok (with_rng trap_s0 r')).
  { intros r0. remember (S k) as k1. cbn [im_loop]. destruct (stuck_iter 5 r0) as (r' & ->); auto. cbn [bind]. apply L3. }
  assert (L1 : forall r, exists r', im_loop rd (S (S (S k))) (with_rng trap_s0 r) 303 4 = Ok (with_rng trap_s0 r')).
  { intros r0. remember (S (S k)) as k1. cbn [im_loop]. destruct (stuck_iter 4 r0) as (r' & ->); auto. cbn [bind]. apply L2. }
  destruct (L1 r) as (r1 & E1). exists r1. split; auto. destruct (L2 r) as (r2 & E2). exists r2. split; auto.
Qed.
Lemma stuck_update r : exists r', im_update rd (with_rng trap_s0 r) = Ok (with_rng trap_s0 r').
Proof.
  unfold im_update. destruct (draw rd (im_rng (with_rng trap_s0 r))) as (x & r1). cbv zeta.
  change (n_leaves (nodes (im_ct (with_rng trap_s0 r)))) with 4.
  change (length (nodes (im_ct (with_rng trap_s0 r)))) with 7.
  change (with_rng (with_rng trap_s0 r) r1) with (with_rng trap_s0 r1).
  assert (Hx : x mod 4 < 4) by (apply Nat.mod_upper_bound; lia).
  assert (Hmin : forall r, im_update_min (with_rng trap_s0 r) = Ok (with_rng trap_s0 r)) by reflexivity.
  change (im_total (with_rng trap_s0 r1)) with (Ok 303%Z).
  destruct (stuck_loop 4 r1) as (r2 & E2 & _). destruct (stuck_loop 5 r1) as (_ & _ & r3 & E3 & _).
  destruct (stuck_loop 6 r1) as (_ & _ & _ & _ & r4 & E4).
  destruct (x mod 4) as [|[|[|[|k]]]]; try lia; clear Hx; cbn [bind];
    match goal with |- context [get ?l ?i] => let v := eval vm_compute in (get l i) in change (get l i) with v end;
    cbn [bind par]; rewrite ?E2, ?E3, ?E4; cbn [bind]; rewrite Hmin; eexists; reflexivity.
Qed.
End Stuck.

Theorem C59_greedy_can_be_trapped : forall rds : list (rand dice),
  Forall (fun rd => exists prng uniform, rd = q_rand prng uniform greedy_prob /\
                      forall r, (0 < fst (uniform r))%Q) rds ->
  forall r s, im_run rds (with_rng trap_s0 r) = Ok s ->
  im_ct s = trap /\ im_total s = Ok 303%Z /\ im_min s = 303%Z /\
  get_cost (im_ccost Simple (dims better)) better = Ok 297%Z.
Proof.
  intros rds HF r s Hr.
  assert (G : exists r', s = with_rng trap_s0 r').
  { revert r Hr. induction HF as [|rd rds (prng & uniform & -> & Hu) _ IH]; intros r Hr; simpl in Hr.
    - inversion Hr. exists r. reflexivity.
    - assert (E : exists r', im_update (q_rand prng uniform greedy_prob) (with_rng trap_s0 r) = Ok (with_rng trap_s0 r')).
      { set (rd := q_rand prng uniform greedy_prob).
        assert (Hacc : forall r d t, (0 < d)%Z -> accept rd r d t = (false, snd (uniform r))).
        { intros r1 d t Hd. simpl. specialize (Hu r1). destruct (uniform r1) as (u & r2). simpl in *.
          unfold greedy_prob. rewrite (proj2 (Z.leb_gt d 0)) by auto. f_equal.
          destruct (Qle_bool u 0) eqn:Eq; auto. apply Qle_bool_iff in Eq. exfalso. apply (Qlt_not_le _ _ Hu Eq). }
        apply (@stuck_update rd (fun r => snd (uniform r)) Hacc). }
      destruct E as (r1 & E). rewrite E in Hr. simpl in Hr. eapply IH; eauto. }
  destruct G as (r' & ->). vm_compute. auto.
Qed.
Print Assumptions C59_greedy_can_be_trapped.
