(** Properties C01-C05: trees. Statements only; the specification vocabulary is
    in S_Tree.v, the code model in M_Tree.v. *)
From Coq Require Import Permutation.
From Verif Require Import M_Base M_Tree S_Tree P_TreeMain.

(** A concrete tree: ((0 1) 2) 3. *)
Definition ex_tree : tree :=
  [ mkNode None None (Some 4); mkNode None None (Some 4); mkNode None None (Some 5);
    mkNode None None (Some 6);
    mkNode (Some 0) (Some 1) (Some 5); mkNode (Some 4) (Some 2) (Some 6);
    mkNode (Some 5) (Some 3) None ].
Definition ex_bt : bt := Nd 6 (Nd 5 (Nd 4 (Lf 0) (Lf 1)) (Lf 2)) (Lf 3).

Example ex_tree_of : tree_of ex_tree ex_bt.
Proof.
  repeat split; auto.
  - simpl. apply NoDup_Permutation.
    + repeat constructor; simpl; intuition discriminate.
    + repeat constructor; simpl; intuition discriminate.
    + intros x; simpl; tauto.
  - cbn. intuition lia.
  - cbn. intros H. do 4 (destruct p as [|p]; [tauto|]). lia.
Qed.
Example ex_not_shallow : ~ shallow 0 ex_bt.
Proof.
  intros [H|[H|(p & l & r & E & H)]].
  - apply H. simpl. tauto.
  - discriminate.
  - inversion E; subst. simpl in H. destruct H; discriminate.
Qed.
Example ex_uncle : uncle 0 2 ex_bt.
Proof. apply un_left. apply un_l; auto. Qed.

(** C01: swap_with_nn keeps the tree a tree. *)
Theorem C01_swap_keeps_tree : forall t T d, tree_of t T ->
  (shallow d T -> swap_nn t d = Ok t) /\
  (~ shallow d T -> exists t' T',
      swap_nn t d = Ok t' /\ tree_of t' T' /\ exchange d T T' /\
      length t' = length t /\ top T' = top T /\ Permutation (leaves T') (leaves T)).
Proof. exact swap_keeps_tree_lemma. Qed.
Print Assumptions C01_swap_keeps_tree.

(** C02: swap_with_nn can be undone exactly. *)
Theorem C02_swap_undone : forall t T d, tree_of t T ->
  (shallow d T -> swap_nn t d = Ok t) /\
  (~ shallow d T -> exists u, uncle d u T) /\
  (forall u, uncle d u T -> exists t', swap_nn t d = Ok t' /\ swap_nn t' u = Ok t).
Proof. exact swap_undo_lemma. Qed.
Print Assumptions C02_swap_undone.

(** C03: footprint, for every node list. [d], its parent [b], its grandparent [a]
    and the other child [u] of [a] are the only nodes that can change. *)
Theorem C03_swap_footprint : forall t d t', swap_nn t d = Ok t' ->
  length t' = length t /\
  map is_leaf t' = map is_leaf t /\
  (t' = t \/ exists n b nb a na u,
    nth_error t d = Some n /\ par n = Some b /\
    nth_error t b = Some nb /\ par nb = Some a /\
    nth_error t a = Some na /\ (c0 na = Some u \/ c1 na = Some u) /\
    forall v, ~ In v [d; b; a; u] -> nth_error t' v = nth_error t v).
Proof. exact swap_footprint_lemma. Qed.
Print Assumptions C03_swap_footprint.

Theorem C03_swap_noop : forall t d,
  (length t <= d \/
   (exists n, nth_error t d = Some n /\ par n = None) \/
   (exists n b nb, nth_error t d = Some n /\ par n = Some b /\ nth_error t b = Some nb /\ par nb = None)) ->
  swap_nn t d = Ok t.
Proof. exact swap_noop_lemma. Qed.
Print Assumptions C03_swap_noop.

Example C03_example : exists t', swap_nn ex_tree 0 = Ok t' /\ t' <> ex_tree.
Proof. eexists. split; [vm_compute; reflexivity|discriminate]. Qed.

(** The bound method takes a signed position; a negative one is not a no-op but an
    access out of range. *)
Theorem C03_negative_position_refuted :
  exists t pos, well_formed t /\ (pos < 0)%Z /\ swap_with_nn t pos <> Ok t.
Proof.
  exists ex_tree, (-1)%Z. split; [exists ex_bt; exact ex_tree_of|]. split; [lia|discriminate].
Qed.
Print Assumptions C03_negative_position_refuted.

(** C04: traverse and get_contraction. *)
Theorem C04_traverse : forall t, well_formed t ->
  exists order, traverse t = Ok order /\
    Permutation order (seq 0 (length t)) /\
    (exists k, order = k ++ [length t - 1]) /\
    (forall k1 v k2 n c, order = k1 ++ v :: k2 -> nth_error t v = Some n ->
       (c0 n = Some c \/ c1 n = Some c) -> In c k1).
Proof. exact traverse_lemma. Qed.
Print Assumptions C04_traverse.

Theorem C04_get_contraction : forall t, well_formed t ->
  exists ms, get_contraction t = Ok ms /\
    (forall x y p, In (x, y, p) ms <-> exists q, nth_error t p = Some (mkNode (Some x) (Some y) q)) /\
    NoDup (map snd ms) /\
    (forall k1 x y p k2 z, ms = k1 ++ (x, y, p) :: k2 -> z = x \/ z = y ->
       z < (length t + 1) / 2 \/ In z (map snd k1)).
Proof. exact get_contraction_lemma. Qed.
Print Assumptions C04_get_contraction.

Example C04_example : well_formed ex_tree /\ traverse ex_tree = Ok [0; 1; 4; 2; 5; 3; 6].
Proof. split; [exists ex_bt; exact ex_tree_of|reflexivity]. Qed.

(** C05: the constructor accepts every tree, ... *)
Theorem C05_tree_check_complete : forall t, well_formed t -> tree_make t = Ok t.
Proof. exact P_TreeValid.make_complete. Qed.
Print Assumptions C05_tree_check_complete.

(** ... but not only trees: *)
Definition ex_cyclic : tree :=
  [ mkNode None None (Some 5); mkNode None None (Some 6); mkNode None None (Some 7);
    mkNode None None (Some 8); mkNode None None (Some 8);
    mkNode (Some 6) (Some 0) (Some 7); mkNode (Some 7) (Some 1) (Some 5);
    mkNode (Some 5) (Some 2) (Some 6); mkNode (Some 3) (Some 4) None ].
Theorem C05_cycle_accepted_refuted : exists t, tree_make t = Ok t /\ ~ well_formed t.
Proof.
  exists ex_cyclic. split; [reflexivity|]. intros W. apply make_characterises_lemma in W.
  destruct W as (_ & _ & h & H).
  pose proof (H 5 (mkNode (Some 6) (Some 0) (Some 7)) 6 eq_refl (or_introl eq_refl)).
  pose proof (H 6 (mkNode (Some 7) (Some 1) (Some 5)) 7 eq_refl (or_introl eq_refl)).
  pose proof (H 7 (mkNode (Some 5) (Some 2) (Some 6)) 5 eq_refl (or_introl eq_refl)). lia.
Qed.
Print Assumptions C05_cycle_accepted_refuted.

(** The number of nodes naming a node as their parent may be wrong (one node named
    by three, another by one): the precedence slip in tree.hpp:120. *)
Definition ex_badparent : tree :=
  [ mkNode None None (Some 4); mkNode None None (Some 3); mkNode None None (Some 4);
    mkNode (Some 0) (Some 1) (Some 4); mkNode (Some 3) (Some 2) None ].
Theorem C05_wrong_parents_accepted_refuted :
  exists t v, tree_make t = Ok t /\ ~ well_formed t /\ count_parents t v = 3.
Proof.
  exists ex_badparent, 4. split; [reflexivity|]. split; [|reflexivity].
  intros W. apply make_characterises_lemma in W. destruct W as (_ & H & _).
  destruct (H 3 _ 0 eq_refl (or_introl eq_refl)) as (m & Hm & E). inversion Hm; subst. discriminate.
Qed.
Print Assumptions C05_wrong_parents_accepted_refuted.

(** What acceptance guarantees: sizes, one root, leaves first, and every non-root
    node listed by exactly one node. *)
Theorem C05_tree_check_sound_partial : forall t t', tree_make t = Ok t' ->
  t' = t /\ 0 < length t /\ length t = 2 * ((length t + 1) / 2) - 1 /\
  (forall v n, nth_error t v = Some n ->
     (par n = None <-> v = length t - 1) /\
     (c0 n = None <-> v < (length t + 1) / 2) /\
     ((c0 n = None /\ c1 n = None) \/ exists a b, c0 n = Some a /\ c1 n = Some b /\ a <> b)) /\
  (forall c, c < length t - 1 -> exists v n, nth_error t v = Some n /\ (c0 n = Some c \/ c1 n = Some c) /\
     forall w m, nth_error t w = Some m -> (c0 m = Some c \/ c1 m = Some c) -> w = v) /\
  (forall v n, nth_error t v = Some n -> c0 n <> Some (length t - 1) /\ c1 n <> Some (length t - 1)).
Proof. exact make_sound_lemma. Qed.
Print Assumptions C05_tree_check_sound_partial.

(** Exactly what is missing: parent links that match the child links, and no
    cycle. *)
Theorem C05_characterisation : forall t, well_formed t <->
  (tree_make t = Ok t /\
   (forall v n c, nth_error t v = Some n -> c0 n = Some c \/ c1 n = Some c ->
      exists m, nth_error t c = Some m /\ par m = Some v) /\
   (exists h : nat -> nat, forall v n c, nth_error t v = Some n -> c0 n = Some c \/ c1 n = Some c -> h c < h v)).
Proof. exact make_characterises_lemma. Qed.
Print Assumptions C05_characterisation.

Example C05_example : tree_make ex_tree = Ok ex_tree.
Proof. reflexivity. Qed.
