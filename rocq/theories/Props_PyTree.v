(** C21 and C22: ContractionTree built from a path, and ContractionTree.path().
    [performs n p cs r] (S_Path.v): on [n] tensors the path [p] is valid, performs
    the contractions [cs] in this order and leaves the tensors [r]. [term_of names T]
    (S_PyTree.v): the contraction that the tree [T] stands for, leaf [l] being the
    input tensor number [l] of [names]. *)
From Coq Require Import List Arith NArith ZArith Bool Permutation Sorted Lia.
Import ListNotations.
From Verif Require Import M_Base M_Tree M_CTree S_Tree S_Opt M_Path M_PyTree S_Path S_PyTree P_PyPath P_PyFinal.

(** C21. For every list of duplicate-free tensors and every path that contracts all
    it touches into one tensor [root], with positive dimensions for the indices that
    occur (and output indices given if some index occurs in three tensors), the
    constructor succeeds; its leaves are the touched tensors in increasing order, its
    contractions are those of the path, its indices are those of the touched tensors, and a node carries index [x] exactly when [x]
    occurs below it and either occurs in another touched tensor, or is a requested
    output, or occurs in one touched tensor only. *)
Theorem C21_tree_of_path_is_exact : forall ts p cs rest root d output chk,
  (forall xs, In xs ts -> NoDup xs) ->
  performs (length ts) p cs rest -> p <> [] -> In root rest ->
  (forall c, In c cs -> incl (tensors c) (tensors root)) ->
  (forall x, occurs ts (tensors root) x -> exists k, dim_is d x k /\ k <> 0%N) ->
  (output = None -> forall x, ~ thrice ts (tensors root) x) ->
  (chk = true -> forall a b, In (C a b) cs -> exists x, occurs ts (tensors a) x /\ occurs ts (tensors b) x) ->
  exists t T, pytree_make p ts d output chk = Ok t /\
    n_tensors t = length ts /\
    StronglySorted lt (tensors_pos t) /\ (forall v, In v (tensors_pos t) <-> In v (tensors root)) /\
    tree_of (nodes (core t)) T /\
    term_of (tensors_pos t) T = root /\ Permutation (contractions (tensors_pos t) T) cs /\
    NoDup (inds_order t) /\ (forall x, In x (inds_order t) <-> occurs ts (tensors root) x) /\
    (forall S, subtree S T -> forall i, has (core t) (top S) i <->
       exists x, nth_error (inds_order t) i = Some x /\
         occurs ts (tensors (term_of (tensors_pos t) S)) x /\
         ((exists v xs, In v (tensors root) /\ ~ In v (tensors (term_of (tensors_pos t) S)) /\ nth_error ts v = Some xs /\ In x xs) \/
          only_once ts (tensors root) x \/ exists o, output = Some o /\ In x o)) /\
    (forall i x k, nth_error (inds_order t) i = Some x -> dim_is d x k -> dimension (dims (core t)) i = Z.of_N k).
Proof. exact c21_tree. Qed.
Print Assumptions C21_tree_of_path_is_exact.

(** Hyper-indices without output indices are refused; so is, when asked, a
    contraction of two tensors without common index. *)
Theorem C21_hyper_index_without_output_raises : forall ts p cs rest root d chk x,
  (forall xs, In xs ts -> NoDup xs) ->
  performs (length ts) p cs rest -> p <> [] -> In root rest ->
  (forall c, In c cs -> incl (tensors c) (tensors root)) ->
  thrice ts (tensors root) x -> pytree_make p ts d None chk = Err Throw.
Proof. exact c21_hyper_raises. Qed.
Print Assumptions C21_hyper_index_without_output_raises.

Theorem C21_unshared_contraction_raises : forall ts p cs rest root d output a b,
  (forall xs, In xs ts -> NoDup xs) ->
  performs (length ts) p cs rest -> p <> [] -> In root rest ->
  (forall c, In c cs -> incl (tensors c) (tensors root)) ->
  (output = None -> forall x, ~ thrice ts (tensors root) x) ->
  In (C a b) cs -> (forall x, ~ (occurs ts (tensors a) x /\ occurs ts (tensors b) x)) ->
  pytree_make p ts d output true = Err Throw.
Proof. exact c21_unshared_raises. Qed.
Print Assumptions C21_unshared_contraction_raises.

(** Five tensors, two of them not touched; index 7 is a hyper-index of two tensors
    requested as output, index 5 occurs outside of the touched tensors only. *)
Definition ts5 := [[0; 1]; [5; 6]; [1; 2; 7]; [2; 0; 7]; [9]].
Definition p5 : path := [(3, 0); (1, 3)].
Definition cs5 := [C (T 0) (T 3); C (C (T 0) (T 3)) (T 2)].
Definition rest5 := [T 1; T 4; C (C (T 0) (T 3)) (T 2)].
Lemma occ5 x : occurs ts5 [0; 3; 2] x -> In x [0; 1; 2; 7].
Proof. intros (t & xs & [<-|[<-|[<-|[]]]] & E & Hx); inversion E; subst; simpl in *; intuition. Qed.
Example C21_applies :
  (forall xs, In xs ts5 -> NoDup xs) /\
  performs (length ts5) p5 cs5 rest5 /\ p5 <> [] /\ In (C (C (T 0) (T 3)) (T 2)) rest5 /\
  (forall c, In c cs5 -> incl (tensors c) (tensors (C (C (T 0) (T 3)) (T 2)))) /\
  (forall x, occurs ts5 [0; 3; 2] x -> exists k, dim_is (PyDict [(7, 3%N); (2, 2%N); (1, 5%N); (0, 4%N)]) x k /\ k <> 0%N) /\
  (forall a b, In (C a b) cs5 -> exists x, occurs ts5 (tensors a) x /\ occurs ts5 (tensors b) x) /\
  exists t, pytree_make p5 ts5 (PyDict [(7, 3%N); (2, 2%N); (1, 5%N); (0, 4%N)]) (Some [7; 8]) true = Ok t /\
    tensors_pos t = [0; 2; 3] /\ inds_order t = [0; 1; 2; 7] /\
    inds (core t) = [[true; true; false; false]; [false; true; true; true]; [true; false; true; true];
                     [false; true; true; true]; [false; false; false; true]] /\
    py_path t = Ok [(0, 3); (1, 3)].
Proof.
  split; [|split; [|split; [|split; [|split; [|split; [|split]]]]]].
  - intros xs H. simpl in H. decompose [or] H; subst; try contradiction; repeat constructor; simpl; intuition discriminate.
  - reflexivity.
  - discriminate.
  - simpl. auto.
  - intros c [<-|[<-|[]]] v Hv; simpl in *; intuition.
  - intros x Hx. apply occ5 in Hx. simpl in Hx. decompose [or] Hx; subst; try contradiction; eexists; (split; [reflexivity|discriminate]).
  - intros a b [E|[E|[]]]; inversion E; subst; [exists 0|exists 1].
    + split; [exists 0, [0; 1]|exists 3, [2; 0; 7]]; simpl; auto.
    + split; [exists 0, [0; 1]|exists 2, [1; 2; 7]]; simpl; auto.
  - eexists. split; [vm_compute; reflexivity|]. repeat split; vm_compute; reflexivity.
Qed.
Example C21_hyper_applies :
  performs 3 [(0, 1); (0, 1)] [C (T 0) (T 1); C (C (T 0) (T 1)) (T 2)] [C (C (T 0) (T 1)) (T 2)] /\
  thrice [[4]; [4; 5]; [4]] [0; 1; 2] 4 /\
  pytree_make [(0, 1); (0, 1)] [[4]; [4; 5]; [4]] (PyInt 2) None false = Err Throw.
Proof.
  split; [reflexivity|]. split; [|reflexivity]. exists 0, 1, 2. split; [repeat constructor; simpl; intuition discriminate|].
  intros t Ht. split; auto. simpl in Ht. decompose [or] Ht; subst; try contradiction; eexists; (split; [reflexivity|simpl; auto]).
Qed.
Example C21_unshared_applies :
  performs 2 [(0, 1)] [C (T 0) (T 1)] [C (T 0) (T 1)] /\
  (forall x, ~ (occurs [[4]; [5]] (tensors (T 0)) x /\ occurs [[4]; [5]] (tensors (T 1)) x)) /\
  pytree_make [(0, 1)] [[4]; [5]] (PyInt 2) None true = Err Throw.
Proof.
  split; [reflexivity|]. split; [|reflexivity].
  intros x ((t & xs & [<-|[]] & E & Hx) & (t' & xs' & [<-|[]] & E' & Hx')). inversion E; inversion E'; subst. simpl in *. intuition congruence.
Qed.

(** C22. path() of any contraction tree (in particular after any number of updates)
    is a valid path on all the tensors that performs exactly the contractions of the
    tree and leaves the tree's tensor and the untouched ones. *)
Theorem C22_path_performs_the_tree : forall t T,
  tree_of (nodes (core t)) T ->
  length (tensors_pos t) = n_leaves (nodes (core t)) -> NoDup (tensors_pos t) ->
  (forall v, In v (tensors_pos t) -> v < n_tensors t) ->
  exists p rest untouched, py_path t = Ok p /\
    performs (n_tensors t) p (contractions (tensors_pos t) T) rest /\
    Permutation rest (term_of (tensors_pos t) T :: map S_Path.T untouched) /\
    (forall v, In v untouched <-> v < n_tensors t /\ ~ In v (tensors_pos t)).
Proof. exact c22_path_tree. Qed.
Print Assumptions C22_path_performs_the_tree.

(** Building a tree from path() gives a tree that stands for the same contraction
    ([term] forgets the numbering of the nodes and the order of the children). *)
Theorem C22_tree_of_path_of_tree : forall t T ts d output,
  tree_of (nodes (core t)) T -> 1 < n_leaves (nodes (core t)) ->
  length (tensors_pos t) = n_leaves (nodes (core t)) -> NoDup (tensors_pos t) ->
  (forall v, In v (tensors_pos t) -> v < n_tensors t) ->
  n_tensors t = length ts ->
  (forall xs, In xs ts -> NoDup xs) ->
  (forall x, occurs ts (tensors_pos t) x -> exists k, dim_is d x k /\ k <> 0%N) ->
  (output = None -> forall x, ~ thrice ts (tensors_pos t) x) ->
  exists p t' T', py_path t = Ok p /\ pytree_make p ts d output false = Ok t' /\
    tree_of (nodes (core t')) T' /\
    term_of (tensors_pos t') T' = term_of (tensors_pos t) T /\
    Permutation (contractions (tensors_pos t') T') (contractions (tensors_pos t) T).
Proof. exact c22_rebuild. Qed.
Print Assumptions C22_tree_of_path_of_tree.

(** path() of the tree of a path performs the contractions of the path. *)
Theorem C22_path_of_tree_of_path : forall ts p cs rest root d output chk,
  (forall xs, In xs ts -> NoDup xs) ->
  performs (length ts) p cs rest -> p <> [] -> In root rest ->
  (forall c, In c cs -> incl (tensors c) (tensors root)) ->
  (forall x, occurs ts (tensors root) x -> exists k, dim_is d x k /\ k <> 0%N) ->
  (output = None -> forall x, ~ thrice ts (tensors root) x) ->
  (chk = true -> forall a b, In (C a b) cs -> exists x, occurs ts (tensors a) x /\ occurs ts (tensors b) x) ->
  exists t q cs' rest', pytree_make p ts d output chk = Ok t /\ py_path t = Ok q /\
    performs (length ts) q cs' rest' /\ Permutation cs' cs.
Proof. exact c22_roundtrip. Qed.
Print Assumptions C22_path_of_tree_of_path.

(** The tree of the example above is one of these, with untouched tensors 1 and 4. *)
Example C22_applies : exists t T,
  pytree_make p5 ts5 (PyInt 2) (Some [7]) false = Ok t /\ tree_of (nodes (core t)) T /\
  1 < n_leaves (nodes (core t)) /\ length (tensors_pos t) = n_leaves (nodes (core t)) /\ NoDup (tensors_pos t) /\
  (forall v, In v (tensors_pos t) -> v < n_tensors t) /\
  term_of (tensors_pos t) T = C (C (S_Path.T 0) (S_Path.T 3)) (S_Path.T 2).
Proof.
  eexists. exists (Nd 4 (Lf 1) (Nd 3 (Lf 0) (Lf 2))). split; [vm_compute; reflexivity|].
  assert (HT : tree_of [mkNode None None (Some 3); mkNode None None (Some 4); mkNode None None (Some 3);
                        mkNode (Some 0) (Some 2) (Some 4); mkNode (Some 1) (Some 3) None] (Nd 4 (Lf 1) (Nd 3 (Lf 0) (Lf 2)))).
  { split; [vm_compute; auto 10|]. split; [|split; [reflexivity|]].
    - apply NoDup_Permutation; [repeat constructor; simpl; intuition discriminate|apply seq_NoDup|]. intros x. simpl. intuition.
    - intros x. simpl. lia. }
  split; [exact HT|]. split; [vm_compute; repeat constructor|]. split; [reflexivity|]. split; [|split].
  - repeat constructor; simpl; intuition discriminate.
  - simpl. intros v Hv. decompose [or] Hv; subst; try contradiction; repeat constructor.
  - reflexivity.
Qed.
