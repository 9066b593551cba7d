(** C65: is_valid_contraction_tree (tnco.testing.utils) tells whether a contraction tree
    belongs to a network.
    [belongs t T ts d out] (S_ValidTree.v): the tree [t], whose nodes are the binary tree
    [T], is a contraction tree of the network with the tensors [ts], the dimensions [d]
    and the output indices [out]. [shares t T]: it only contracts tensors with a common
    index. [counts ts out h]: [h] is the hyper_count of the network: an index of k tensors
    counts k - 1 times, and once more as an output. [object_of t T]: what holds of every
    ContractionTree object. [ord] is the order in which Python iterates a set. *)
From Coq Require Import List Arith NArith ZArith Bool Permutation Lia.
Import ListNotations.
From Verif Require Import M_Base M_Bitset M_Tree M_CTree S_Tree S_Opt M_Path M_PyTree M_PyNodes M_PyViews M_ValidTree S_Path S_PyTree S_PyViews S_ValidTree.
From Verif Require Import P_ValidMain P_ValidFinal Props_PyTree.

(** Whenever it returns, it returns True exactly when the tree belongs to the network
    (and, if asked, only contracts tensors with a common index). What is missing: that
    it returns; see below. *)
Theorem C65_verdict_partial : forall t T ts d out h chk ord b,
  object_of t T -> (forall l, Permutation (ord l) l) -> counts ts out h ->
  is_valid_contraction_tree ord t (Some ts) (Some d) (Some out) (Some h) chk = Ok b ->
  (b = true <-> belongs t T ts d out /\ (chk = true -> shares t T)).
Proof. exact valid_tree_decides. Qed.
Print Assumptions C65_verdict_partial.

(** A tree that belongs is accepted, unless moving every node in turn gives back the same
    nodes: then the assertion that the copy has changed fails. *)
Theorem C65_accepts_partial : forall t T ts d out h chk ord,
  object_of t T -> (forall l, Permutation (ord l) l) -> counts ts out h ->
  belongs t T ts d out -> (chk = true -> shares t T) ->
  exists ns, swaps (seq 0 (length (nodes (core t)))) (nodes (core t)) = Ok ns /\
    (ns <> nodes (core t) -> is_valid_contraction_tree ord t (Some ts) (Some d) (Some out) (Some h) chk = Ok true) /\
    (ns = nodes (core t) -> is_valid_contraction_tree ord t (Some ts) (Some d) (Some out) (Some h) chk = Err Crash).
Proof. exact valid_tree_accepts. Qed.
Print Assumptions C65_accepts_partial.

(** A tree that the constructor makes from a path belongs to the tensors that the path
    touches, and moving its nodes leaves an object on which the function may be called. *)
Theorem C65_made_belongs : forall ts p cs rest root d output chk,
  (forall xs, In xs ts -> NoDup xs) ->
  performs (length ts) p cs rest -> p <> [] -> In root rest ->
  (forall c, In c cs -> incl (tensors c) (tensors root)) ->
  (forall x, occurs ts (tensors root) x -> exists k, dim_is d x k /\ k <> 0%N) ->
  (output = None -> forall x, ~ thrice ts (tensors root) x) ->
  (chk = true -> forall a b, In (C a b) cs -> exists x, occurs ts (tensors a) x /\ occurs ts (tensors b) x) ->
  forall t out, pytree_make p ts d output chk = Ok t ->
  (forall x, In x out <-> occurs ts (tensors root) x /\ open ts (tensors root) output x) ->
  exists T, object_of t T /\ belongs t T (map (fun v => nth v ts []) (tensors_pos t)) d out.
Proof. exact made_belongs. Qed.
Print Assumptions C65_made_belongs.
Theorem C65_moved_object : forall t T ks ns, object_of t T -> swaps ks (nodes (core t)) = Ok ns ->
  exists T', object_of (with_nodes t ns) T'.
Proof. exact swap_object. Qed.
Print Assumptions C65_moved_object.

(** Three tensors of five, with a hyper-index that is an output. *)
Definition d5 := PyDict [(7, 3%N); (2, 2%N); (1, 5%N); (0, 4%N)].
Definition us5 := [[0; 1]; [1; 2; 7]; [2; 0; 7]].
Definition h5 : list (nat * Z) := [(0, 1%Z); (1, 1%Z); (2, 1%Z); (7, 2%Z)].
Lemma counts5 : counts us5 [7] h5.
Proof. intros x Hx. simpl in Hx. decompose [or] Hx; subst; try contradiction; reflexivity. Qed.
Lemma belongs5 : exists t T, pytree_make p5 ts5 d5 (Some [7; 8]) true = Ok t /\ object_of t T /\ belongs t T us5 d5 [7].
Proof.
  destruct C21_applies as (H1 & H2 & H3 & H4 & H5 & H6 & H7 & t & E & Et & _). exists t.
  destruct (C65_made_belongs ts5 p5 cs5 rest5 _ d5 (Some [7; 8]) true H1 H2 H3 H4 H5 H6 ltac:(discriminate) (fun _ => H7) t [7] E) as (T & A & B); [|exists T; rewrite Et in B; auto].
  assert (N : forall x a b, In a [0; 3; 2] -> In b [0; 3; 2] -> a <> b -> (exists xs, nth_error ts5 a = Some xs /\ In x xs) -> (exists xs, nth_error ts5 b = Some xs /\ In x xs) -> ~ only_once ts5 [0; 3; 2] x).
  { intros x a b Ha Hb Hab Xa Xb (u & H). apply Hab. transitivity u; [|symmetry]; apply H; auto. }
  intros x. simpl tensors. split.
  - intros [<-|[]]. split; [exists 2, [1; 2; 7]; simpl; intuition|right; exists [7; 8]; simpl; auto].
  - intros [O Q]. apply occ5 in O. simpl in O. destruct O as [<-|[<-|[<-|[<-|[]]]]]; [exfalso|exfalso|exfalso|left; auto];
      (destruct Q as [Q|(o & Eo & Ho)]; [|injection Eo as <-; simpl in Ho; intuition discriminate]); revert Q.
    + apply (N 0 0 3); [simpl; intuition|simpl; intuition|discriminate|exists [0;1]; simpl; intuition|exists [2;0;7]; simpl; intuition].
    + apply (N 1 0 2); [simpl; intuition|simpl; intuition|discriminate|exists [0;1]; simpl; intuition|exists [1;2;7]; simpl; intuition].
    + apply (N 2 3 2); [simpl; intuition|simpl; intuition|discriminate|exists [2;0;7]; simpl; intuition|exists [1;2;7]; simpl; intuition].
Qed.
Example C65_applies : exists t T, object_of t T /\ (forall l : list nat, Permutation (rev l) l) /\ counts us5 [7] h5 /\ belongs t T us5 d5 [7] /\
  is_valid_contraction_tree (@rev nat) t (Some us5) (Some d5) (Some [7]) (Some h5) false = Ok true /\
  is_valid_contraction_tree (@rev nat) t (Some us5) (Some d5) (Some [7]) (Some h5) true = Ok true /\
  is_valid_contraction_tree (@rev nat) t (Some [[0; 1]; [1; 2; 7]; [2; 0]]) (Some d5) (Some [7]) (Some h5) false = Ok false.
Proof.
  destruct belongs5 as (t & T & E & A & B). exists t, T. split; auto. split; [intros l; apply Permutation_sym, Permutation_rev|]. split; [exact counts5|]. split; auto.
  vm_compute in E. injection E as <-. repeat split; vm_compute; reflexivity.
Qed.

(** It does not always return. A valid tree of two tensors fails the assertion: *)
Theorem C65_two_tensors_refuted : exists t T ts d out h,
  object_of t T /\ counts ts out h /\ belongs t T ts d out /\
  is_valid_contraction_tree (fun l => l) t (Some ts) (Some d) (Some out) (Some h) false = Err Crash.
Proof.
  destruct (pytree_make [(0, 1)] [[0]; [0; 1]] (PyInt 2) None false) as [t|] eqn:E; [|discriminate].
  assert (O : forall x, occurs [[0]; [0; 1]] (tensors (C (T 0) (T 1))) x -> x = 0 \/ x = 1).
  { intros x (v & xs & [<-|[<-|[]]] & Ev & Hx); injection Ev as <-; simpl in Hx; intuition. }
  destruct (C65_made_belongs [[0]; [0; 1]] [(0, 1)] [C (T 0) (T 1)] [C (T 0) (T 1)] (C (T 0) (T 1)) (PyInt 2) None false) with (t := t) (out := [1]) as (T & A & B); auto.
  - intros xs [<-|[<-|[]]]; repeat constructor; simpl; intuition discriminate.
  - reflexivity.
  - discriminate.
  - left. auto.
  - intros c [<-|[]] v Hv. auto.
  - intros x _. exists 2%N. split; [reflexivity|discriminate].
  - intros _ x (a & b & c & N & H). assert (L : length [a; b; c] <= length [0; 1]); [|simpl in L; lia].
    apply NoDup_incl_length; auto. intros v Hv. apply H in Hv. apply Hv.
  - discriminate.
  - intros x. split.
    + intros [<-|[]]. split; [exists 1, [0; 1]; simpl; auto|]. left. exists 1. intros v. split.
      * intros (_ & xs & Ev & Hx). destruct v as [|[|v]]; simpl in Ev; [injection Ev as <-; simpl in Hx; intuition discriminate|auto|destruct v; discriminate].
      * intros ->. split; [simpl; auto|exists [0; 1]; simpl; auto].
    + intros [Ho Hq]. destruct (O x Ho) as [-> | ->]; [|left; auto]. exfalso. destruct Hq as [(u & H)|(o & Eo & _)]; [|discriminate].
      assert (0 = u) by (apply H; split; [simpl; auto|exists [0]; simpl; auto]). assert (1 = u) by (apply H; split; [simpl; auto|exists [0; 1]; simpl; auto]). congruence.
  - vm_compute in E. injection E as <-. eexists _, T, _, _, [1], [(0, 1%Z); (1, 1%Z)]. split; [exact A|]. split; [|split; [exact B|vm_compute; reflexivity]].
    intros x Hx. simpl in Hx. decompose [or] Hx; subst; try contradiction; reflexivity.
Qed.
Print Assumptions C65_two_tensors_refuted.

(** A tree whose nodes were moved, and whose indices are not those of a contraction any
    more, raises instead of giving False: *)
Theorem C65_invalid_raises_refuted : exists p ts t ns T, pytree_make p ts (PyInt 2) None true = Ok t /\
  swaps [0] (nodes (core t)) = Ok ns /\ object_of (with_nodes t ns) T /\
  forall us d out h chk, is_valid_contraction_tree (fun l => l) (with_nodes t ns) us d out h chk = Err Throw.
Proof.
  destruct (pytree_make [(0, 1); (0, 1)] [[0; 1]; [1; 2]; [2; 3]] (PyInt 2) None true) as [t|] eqn:E; [|discriminate].
  destruct (swaps [0] (nodes (core t))) as [ns|] eqn:Es; [|vm_compute in E; injection E as <-; discriminate].
  assert (W : exists T, tree_of (nodes (core t)) T).
  { vm_compute in E. injection E as <-. exists (Nd 4 (Lf 2) (Nd 3 (Lf 0) (Lf 1))). split; [repeat split|]. split; [|split; [reflexivity|]].
    - simpl. apply NoDup_Permutation; [repeat constructor; simpl; intuition discriminate|apply (seq_NoDup 5 0)|]. intros x. simpl. intuition.
    - intros v. simpl. change ((5 + 1) / 2) with 3. lia. }
  destruct W as (T & HT). assert (O : object_of t T) by (apply over_object; auto; eapply P_PyNodes.over_make; eauto).
  destruct (C65_moved_object t T [0] ns O Es) as (T' & HO). exists [(0, 1); (0, 1)], [[0; 1]; [1; 2]; [2; 3]], t, ns, T'. split; auto. split; auto. split; auto.
  intros us d out h chk. eapply valid_tree_raises; eauto. vm_compute in E. injection E as <-. vm_compute in Es. injection Es as <-. reflexivity.
Qed.
Print Assumptions C65_invalid_raises_refuted.

(** Without hyper_count, a tree that drops an index too early is accepted: *)
Definition t3 := mkPT (mkCT [mkNode None None (Some 3); mkNode None None (Some 3); mkNode None None (Some 4); mkNode (Some 0) (Some 1) (Some 4); mkNode (Some 3) (Some 2) None]
  [[true]; [true]; [true]; [false]; [true]] (DInt 2)) 3 [0; 1; 2] [0].
Theorem C65_without_counts_refuted : exists t T ts d out,
  object_of t T /\ is_valid_contraction_tree (fun l => l) t (Some ts) (Some d) (Some out) None false = Ok true /\ ~ belongs t T ts d out.
Proof.
  exists t3, (Nd 4 (Nd 3 (Lf 0) (Lf 1)) (Lf 2)), [[0]; [0]; [0]], (PyInt 2), [0]. split; [|split; [vm_compute; reflexivity|]].
  - split; [|split; [repeat constructor; simpl; intuition|split; [reflexivity|split]]].
    + split; [repeat split|]. split; [|split; [reflexivity|]].
      * simpl. apply NoDup_Permutation; [repeat constructor; simpl; intuition discriminate|apply (seq_NoDup 5 0)|]. intros x. simpl. intuition.
      * intros v. simpl. change ((5 + 1) / 2) with 3. lia.
    + intros b Hb. simpl in Hb. decompose [or] Hb; subst; try contradiction; reflexivity.
    + exists [2%N]. split; [reflexivity|]. split; [intros k [<-|[]]; discriminate|reflexivity].
  - intros (_ & _ & _ & _ & _ & H). destruct (proj2 (H (Nd 3 (Lf 0) (Lf 1)) 0 (sub_left _ _ _ _ (sub_here _)))) as (xs & E & Hx).
    + split; [exists 0; simpl; auto|]. right. simpl. auto.
    + vm_compute in E. injection E as <-. contradiction.
Qed.
Print Assumptions C65_without_counts_refuted.
