(** Property C66: with a bound on the width, every contraction tree can be reached. *)
From Coq Require Import QArith Reals Qreals Permutation.
From Verif Require Import M_Base M_Bitset M_Tree M_CTree M_Cost M_Opt M_FinWidth M_Prob S_Tree S_Opt S_FinWidth S_Reach S_ReachFin
  P_Base P_InfMemFinal P_ReachFinal P_ReachFinMain Props_FinWidth.
Local Open Scope nat_scope.

(** ** C66 *)
(** The full claim: from every state of a session of the finite-width optimizer, to
    every valid tree for the same tensors. It is proved when as many new slices may
    be added at once as there are indices ([max_number_new_slices]) and the indices
    that may not be sliced fit together into the width. [prob i], [shf i] and
    [upd_sl i] are the acceptance rule, the shuffle and the flag update_slices of
    update [i]. The slices reached with the tree are some slices; with the simple
    cost model the tree fits with them. *)
Theorem C66_every_tree_can_be_reached_partial :
  forall lg fr0 c m maxnew (r0 : dice) ds skip mc sl msl s0 (us0 : list (frand dice * bool)) s out c'
    (prob : nat -> Z -> Z -> R) (shf : nat -> list nat -> list nat) (upd_sl : nat -> bool),
  fw_built lg fr0 c m maxnew r0 ds skip mc sl msl s0 -> all_shuffle us0 -> fw_run lg us0 s0 = Ok s ->
  n_inds c <= maxnew -> (set_width lg (fm_cm m) (dims c) (n_inds c) (mem skip) <= fm_max m)%Z ->
  exact_inds c out -> same_problem c c' -> exact_inds c' out -> ctree_is_valid c' (negb ds) = true ->
  (forall i delta total, (0 < prob i delta total)%R) -> (forall i l, Permutation (shf i l) l) ->
  exists updates ints eps draws, (0 < eps)%R /\
    forall us, length us = draws -> Forall (fun u => (Q2R u <= eps)%R) us ->
    exists s', fw_run lg (map (fun i => (fdice_rand (prob i) (shf i), upd_sl i)) (seq 0 updates)) (fset_rng s (ints, us)) = Ok s' /\
      (exists T T', tree_of (nodes (fw_ct s')) T /\ tree_of (nodes c') T' /\ same_order T T') /\
      (exists z, fw_total s' = Ok z /\ get_cost (fw_ccost m (dims c') (fw_sl s')) c' = Ok z /\ (fw_min s' <= z)%Z) /\
      (fm_cm m = Simple -> all_fit lg (fm_cm m) (fm_max m) (n_inds c) c' (mem (fw_sl s'))).
Proof. exact freach_tree. Qed.
Print Assumptions C66_every_tree_can_be_reached_partial.

(** A network where this matters: a ring of four tensors with an open index each,
    tensors {0,2,4} {0,3,5} {1,2,6} {1,3,7} with dimensions 2 2 4 4 4 4 4 4. [pit]
    contracts (0,1),(2,3) and [rim] (0,2),(1,3). The width is at most 8. *)
Definition pit : ctree := mkCT
  [ mkNode None None (Some 4); mkNode None None (Some 4); mkNode None None (Some 5); mkNode None None (Some 5);
    mkNode (Some 0) (Some 1) (Some 6); mkNode (Some 2) (Some 3) (Some 6); mkNode (Some 4) (Some 5) None ]
  [ [true; false; true; false; true; false; false; false]; [true; false; false; true; false; true; false; false];
    [false; true; true; false; false; false; true; false]; [false; true; false; true; false; false; false; true];
    [false; false; true; true; true; true; false; false]; [false; false; true; true; false; false; true; true];
    [false; false; false; false; true; true; true; true] ]
  (DVec [2; 2; 4; 4; 4; 4; 4; 4]%N).
Definition pit_bt : bt := Nd 6 (Nd 4 (Lf 0) (Lf 1)) (Nd 5 (Lf 2) (Lf 3)).
Definition rim : ctree := mkCT
  [ mkNode None None (Some 4); mkNode None None (Some 5); mkNode None None (Some 4); mkNode None None (Some 5);
    mkNode (Some 0) (Some 2) (Some 6); mkNode (Some 1) (Some 3) (Some 6); mkNode (Some 4) (Some 5) None ]
  [ [true; false; true; false; true; false; false; false]; [true; false; false; true; false; true; false; false];
    [false; true; true; false; false; false; true; false]; [false; true; false; true; false; false; false; true];
    [true; true; false; false; true; false; true; false]; [true; true; false; false; false; true; false; true];
    [false; false; false; false; true; true; true; true] ]
  (DVec [2; 2; 4; 4; 4; 4; 4; 4]%N).
Definition rim_bt : bt := Nd 6 (Nd 4 (Lf 0) (Lf 2)) (Nd 5 (Lf 1) (Lf 3)).
Definition open_inds (x : nat) : bool := (4 <=? x) && (x <? 8).
Definition pit_m : fmodel := mkFM Simple 8.
Definition unsliced : list bool := repeat false 8.

Lemma pit_perm : Permutation (positions pit_bt) (seq 0 7) /\ Permutation (positions rim_bt) (seq 0 7).
Proof.
  split; (apply NoDup_Permutation; [repeat constructor; simpl; intuition discriminate|apply seq_NoDup|]);
    intros x; simpl; intuition.
Qed.
Example pit_tree_of : tree_of (nodes pit) pit_bt.
Proof.
  split; [simpl; auto 10|]. split; [apply pit_perm|]. split; [reflexivity|].
  change ((length (nodes pit) + 1) / 2) with 4. intros p. simpl.
  split; [intuition lia|]. intros H. destruct p as [|[|[|[|p]]]]; try lia; auto.
Qed.
Example rim_tree_of : tree_of (nodes rim) rim_bt.
Proof.
  split; [simpl; auto 10|]. split; [apply pit_perm|]. split; [reflexivity|].
  change ((length (nodes rim) + 1) / 2) with 4. intros p. simpl.
  split; [intuition lia|]. intros H. destruct p as [|[|[|[|p]]]]; try lia; auto.
Qed.
Example pit_exact : exact_inds pit (fun x => open_inds x = true).
Proof. apply (@exact_check_ok pit 8 open_inds pit_bt pit_tree_of). vm_compute. reflexivity. Qed.
Example rim_exact : exact_inds rim (fun x => open_inds x = true).
Proof. apply (@exact_check_ok rim 8 open_inds rim_bt rim_tree_of). vm_compute. reflexivity. Qed.
Example pit_rim : same_problem pit rim.
Proof.
  split; [eexists; apply pit_tree_of|]. split; [eexists; apply rim_tree_of|].
  split; [reflexivity|]. split; [reflexivity|]. split; [reflexivity|]. split; [|reflexivity].
  change ((length (nodes pit) + 1) / 2) with 4. intros p Hp. destruct p as [|[|[|[|p]]]]; try lia; reflexivity.
Qed.

Definition pit_s0 {R} (r : R) (maxnew : nat) : fw_state R :=
  mkFW pit false r pit pit_m maxnew (width_cache_make lg2 pit_m pit) None unsliced unsliced
    (mkCC [0; 0; 0; 0; 512; 512; 5120] [0; 0; 0; 0; 512; 512; 4096])%Z
    [ unsliced; unsliced; unsliced; unsliced; unsliced; unsliced; unsliced ] 5120%Z.

Example pit_built : forall (R : Type) (fr : frand R) r maxnew, shuffles fr ->
  fw_built lg2 fr pit pit_m maxnew r false unsliced None None None (pit_s0 r maxnew).
Proof.
  intros R fr r maxnew Hsh. constructor.
  - exact lg2_log.
  - exact Hsh.
  - eexists. apply pit_tree_of.
  - exact I.
  - split; [reflexivity|]. split; [intros k [H|H]; discriminate|discriminate].
  - vm_compute. reflexivity.
Qed.

Example C66_applies : let fr := fdice_rand (mh_prob 1) (fun l => rev l) in
  fw_built lg2 fr pit pit_m 8 (([], []) : dice) false unsliced None None None (pit_s0 ([], []) 8) /\
  all_shuffle [(fr, true)] /\ n_inds pit <= 8 /\
  (set_width lg2 (fm_cm pit_m) (dims pit) (n_inds pit) (mem unsliced) <= fm_max pit_m)%Z /\
  exact_inds pit (fun x => open_inds x = true) /\ same_problem pit rim /\ exact_inds rim (fun x => open_inds x = true) /\
  ctree_is_valid rim (negb false) = true /\ (forall delta total, (0 < mh_prob 1 delta total)%R) /\
  ~ same_order pit_bt rim_bt.
Proof.
  assert (Hsh : shuffles (fdice_rand (mh_prob 1) (fun l => rev l))).
  { intros r l. simpl. apply Permutation_sym, Permutation_rev. }
  split; [apply pit_built; exact Hsh|]. split; [constructor; [exact Hsh|constructor]|]. split; [vm_compute; auto|].
  split; [vm_compute; discriminate|]. split; [apply pit_exact|]. split; [apply pit_rim|]. split; [apply rim_exact|].
  split; [vm_compute; reflexivity|]. split; [intros; apply mh_positive|].
  unfold pit_bt, rim_bt. intros H.
  repeat match goal with G : same_order _ _ |- _ => inversion G; clear G; subst end.
Qed.

(** With the default, max_number_new_slices = 0, it is false: every neighbour of [pit]
    is too wide, and the search stays there for ever, whatever is drawn and accepted,
    although [rim] fits without slices and is cheaper. *)
Section Stuck.
Variables (R : Type) (fr : frand R).

Lemma pit_nn B r : B = 4 \/ B = 5 -> exists C D E r',
  get_ctree_nn (fr_base fr) pit false r (Some B) = Ok (Some (6, C, D, E), r') /\
  (B = 4 /\ C = 5 /\ (D = 0 /\ E = 1 \/ D = 1 /\ E = 0) \/
   B = 5 /\ C = 4 /\ (D = 2 /\ E = 3 \/ D = 3 /\ E = 2)).
Proof.
  intros [-> | ->]; unfold get_ctree_nn; cbn; destruct (draw (fr_base fr) r) as (x & r'); destruct (Nat.odd x);
    do 4 eexists; (split; [reflexivity|]); auto 10.
Qed.
Lemma pit_iter B r : B = 4 \/ B = 5 ->
  exists r', fw_iter lg2 fr (pit_s0 r 0) 5120 B = Ok (pit_s0 r' 0, Some (5120%Z, 6)).
Proof.
  intros HB. destruct (pit_nn B r HB) as (C & D & E & r1 & Hn & Hc).
  unfold fw_iter. change (fw_ct (pit_s0 r 0)) with pit. change (fw_ds (pit_s0 r 0)) with false.
  change (fw_rng (pit_s0 r 0)) with r. rewrite Hn. clear Hn.
  destruct Hc as [(-> & -> & [(-> & ->)|(-> & ->)])|(-> & -> & [(-> & ->)|(-> & ->)])];
    exists r1; vm_compute; reflexivity.
Qed.
Lemma pit_root r : exists r', fw_iter lg2 fr (pit_s0 r 0) 5120 6 = Ok (pit_s0 r' 0, None).
Proof. eexists. reflexivity. Qed.
Lemma pit_loop B r : B = 4 \/ B = 5 -> exists r', fw_loop lg2 fr 7 (pit_s0 r 0) 5120 B = Ok (pit_s0 r' 0).
Proof.
  intros HB. assert (L : forall k s t A, fw_loop lg2 fr (S k) s t A =
    let! (s', nxt) := fw_iter lg2 fr s t A in
    match nxt with None => Ok s' | Some (t', A') => fw_loop lg2 fr k s' t' A' end) by reflexivity.
  rewrite L. destruct (pit_iter B r HB) as (r1 & ->). cbn [bind].
  rewrite L. destruct (pit_root r1) as (r2 & ->). cbn [bind]. eauto.
Qed.
Lemma pit_update b r : exists r', fw_update lg2 fr b (pit_s0 r 0) = Ok (pit_s0 r' 0).
Proof.
  unfold fw_update. change (fw_rng (pit_s0 r 0)) with r. destruct (draw (fr_base fr) r) as (x & r1). cbv zeta.
  change (n_leaves (nodes (fw_ct (pit_s0 r 0)))) with 4. change (length (nodes (fw_ct (pit_s0 r 0)))) with 7.
  match goal with |- context [fw_total ?z] => change z with (pit_s0 r1 0) end.
  change (fw_total (pit_s0 r1 0)) with (Ok 5120%Z).
  assert (Hx : x mod 4 < 4) by (apply Nat.mod_upper_bound; lia).
  assert (Hmin : forall r, fw_update_min (pit_s0 (R := R) r 0) = Ok (pit_s0 r 0)) by reflexivity.
  assert (Hre : forall r, fw_reslice lg2 fr b (pit_s0 r 0) = Ok (pit_s0 r 0)).
  { intros r2. unfold fw_reslice. change (bany (fw_sl (pit_s0 r2 0))) with false. rewrite andb_false_r. reflexivity. }
  destruct (pit_loop 4 r1 (or_introl eq_refl)) as (r2 & E4). destruct (pit_loop 5 r1 (or_intror eq_refl)) as (r3 & E5).
  destruct (x mod 4) as [|[|[|[|k]]]]; try lia; clear Hx;
    match goal with |- context [get ?l ?i] => let v := eval vm_compute in (get l i) in change (get l i) with v end;
    cbn [bind par]; rewrite ?E4, ?E5; cbn [bind]; rewrite Hre; cbn [bind]; rewrite Hmin; eexists; reflexivity.
Qed.
End Stuck.

Theorem C66_default_can_be_trapped_refuted :
  (forall (R : Type) (fr0 : frand R) r s0 us s, fw_built lg2 fr0 pit pit_m 0 r false unsliced None None None s0 ->
     fw_run lg2 us s0 = Ok s ->
     fw_ct s = pit /\ fw_sl s = unsliced /\ fw_total s = Ok 5120%Z /\ fw_min s = 5120%Z) /\
  same_problem pit rim /\ exact_inds rim (fun x => open_inds x = true) /\ ctree_is_valid rim true = true /\
  all_fit lg2 Simple 8 8 rim (mem unsliced) /\ get_cost (fw_ccost pit_m (dims rim) unsliced) rim = Ok 1536%Z.
Proof.
  split; [|split; [apply pit_rim|split; [apply rim_exact|split; [reflexivity|split; [|vm_compute; reflexivity]]]]].
  - intros R fr0 r s0 us s HB Hr.
    assert (E0 : s0 = pit_s0 r 0).
    { pose proof (fb_make HB) as H. pose proof (fb_make (pit_built R fr0 r 0 (fb_shuf HB))) as H'. congruence. }
    subst s0. clear HB.
    assert (G : exists r', s = pit_s0 r' 0).
    { revert r Hr. induction us as [|(fr & b) us IH]; intros r Hr; cbn [fw_run] in Hr; [inversion Hr; eauto|].
      destruct (pit_update R fr b r) as (r1 & E). rewrite E in Hr. cbn [bind] in Hr. eapply IH; eauto. }
    destruct G as (r' & ->). repeat split.
  - intros v Hv. simpl in Hv. unfold node_fits.
    destruct v as [|[|[|[|[|[|[|v]]]]]]]; try lia; vm_compute; discriminate.
Qed.
Print Assumptions C66_default_can_be_trapped_refuted.
