(** C56: what a ContractionTree reports about itself.
    Vocabulary (S_PyViews.v, S_PyTree.v, S_Path.v): [performs n p cs r]: on [n] tensors the
    path [p] performs the contractions [cs] and leaves the tensors [r]; [kept ts all output
    l x]: the tensor made of the tensors [l] has the index [x], since it occurs in one of
    them and in another one of [all] too or as an output; [lists_set xs P]: [xs] lists the
    set [P]; [entries d P s]: a tensor with the indices [P] has [s] entries; [reports ts d
    output all t T]: all_inds, inds, output_inds, dims and max_width of the tree [t], whose
    nodes are the tree [T], say what the tensors [all] of [ts] are. *)
From Coq Require Import QArith List Arith NArith ZArith Bool Permutation Sorted Lia.
Import ListNotations.
From Verif Require Import M_Base M_Bitset M_Tree M_CTree M_Cost M_Opt M_InfMem M_FinWidth M_Path M_PyTree M_PyNodes M_App M_PyViews.
From Verif Require Import S_Tree S_Opt S_FinWidth S_Path S_PyTree S_App S_PyViews.
From Verif Require Import P_PyViews Props_InfMem Props_FinWidth Props_App.
From Verif Require Import M_Path M_PyTree.
Local Notation core := M_PyTree.core.
Local Open Scope nat_scope.

(** [reports] determines the size of each tensor. *)
Theorem C56_sizes_are_unique : forall d P s s', entries d P s -> entries d P s' -> s = s'.
Proof. intros d P s s' H H'. exact (entries_fun H H'). Qed.
Print Assumptions C56_sizes_are_unique.

(** A tree that is made from a path reports the indices and dimensions of the tensors that
    the path contracts; inds[k] is what the tensor of node [k] has, output_inds() is what
    is left in the end, and max_width() is the width of the largest tensor, whatever the
    logarithm is. *)
Theorem C56_tree_of_path : forall ts p cs rest root d output chk,
  (forall xs, In xs ts -> NoDup xs) ->
  performs (length ts) p cs rest -> p <> [] -> In root rest ->
  (forall c, In c cs -> incl (tensors c) (tensors root)) ->
  (forall x, occurs ts (tensors root) x -> exists k, dim_is d x k /\ k <> 0%N) ->
  (output = None -> forall x, ~ thrice ts (tensors root) x) ->
  (chk = true -> forall a b, In (C a b) cs -> exists x, occurs ts (tensors a) x /\ occurs ts (tensors b) x) ->
  exists t T, pytree_make p ts d output chk = Ok t /\ tree_of (nodes (core t)) T /\ term_of (tensors_pos t) T = root /\
    reports ts d output (tensors root) t T.
Proof.
  intros ts p cs rest root d output chk H1 H2 H3 H4 H5 H6 H7 H8.
  destruct (@make_ok ts p cs rest root d output chk) as (t & T & E & M & HT & Et); auto.
  exists t, T. split; [exact E|]. split; [exact HT|]. split; [exact Et|]. exact (made_views H6 M HT).
Qed.
Print Assumptions C56_tree_of_path.

(** So do optimizer.ctree and optimizer.min_ctree after any number of updates, each for
    its own contractions. *)
Theorem C56_infinite_memory_trees : forall ts p cs rest root d output chk (R : Type) t m (r : R) ds s0 rds s c,
  (forall xs, In xs ts -> NoDup xs) ->
  performs (length ts) p cs rest -> p <> [] -> In root rest ->
  (forall c, In c cs -> incl (tensors c) (tensors root)) ->
  (forall x, occurs ts (tensors root) x -> exists k, dim_is d x k /\ k <> 0%N) ->
  (output = None -> forall x, ~ thrice ts (tensors root) x) ->
  (chk = true -> forall a b, In (C a b) cs -> exists x, occurs ts (tensors a) x /\ occurs ts (tensors b) x) ->
  pytree_make p ts d output chk = Ok t ->
  im_make (core t) m r ds None = Ok s0 -> im_run rds s0 = Ok s -> c = im_ct s \/ c = im_min_ct s ->
  exists t' T, get_ctree t c = Ok t' /\ core t' = c /\ tree_of (nodes c) T /\ reports ts d output (tensors root) t' T.
Proof.
  intros ts p cs rest root d output chk R t m r ds s0 rds s c H1 H2 H3 H4 H5 H6 H7 H8 E Hm Hr Hc.
  exact (im_views H1 H2 H3 H4 H5 H6 H7 H8 E Hm Hr Hc).
Qed.
Print Assumptions C56_infinite_memory_trees.
Theorem C56_finite_width_trees : forall ts p cs rest root d output chk (R : Type) lg (fr : frand R) t m maxnew r ds skip sl msl s0 us s c,
  (forall xs, In xs ts -> NoDup xs) ->
  performs (length ts) p cs rest -> p <> [] -> In root rest ->
  (forall c, In c cs -> incl (tensors c) (tensors root)) ->
  (forall x, occurs ts (tensors root) x -> exists k, dim_is d x k /\ k <> 0%N) ->
  (output = None -> forall x, ~ thrice ts (tensors root) x) ->
  (chk = true -> forall a b, In (C a b) cs -> exists x, occurs ts (tensors a) x /\ occurs ts (tensors b) x) ->
  pytree_make p ts d output chk = Ok t ->
  fw_built lg fr (core t) m maxnew r ds skip None sl msl s0 -> all_shuffle us -> fw_run lg us s0 = Ok s -> c = fw_ct s \/ c = fw_min_ct s ->
  exists t' T, get_ctree t c = Ok t' /\ core t' = c /\ tree_of (nodes c) T /\ reports ts d output (tensors root) t' T.
Proof.
  intros ts p cs rest root d output chk R lg fr t m maxnew r ds skip sl msl s0 us s c H1 H2 H3 H4 H5 H6 H7 H8 E HB Hs Hr Hc.
  exact (fw_views H1 H2 H3 H4 H5 H6 H7 H8 E HB Hs Hr Hc).
Qed.
Print Assumptions C56_finite_width_trees.

(** The ring of Props_App.v with output indices 4 and 5, contracted by a path, and the
    tree after two updates. *)
Definition p_ring : path := [(0, 1); (0, 1); (0, 1)].
Definition r_ring : term := C (C (T 0) (T 1)) (C (T 2) (T 3)).
Definition c_ring : list term := [C (T 0) (T 1); C (T 2) (T 3); r_ring].
Example C56_applies :
  (forall xs, In xs ring -> NoDup xs) /\
  performs (length ring) p_ring c_ring [r_ring] /\ p_ring <> [] /\
  (forall c, In c c_ring -> incl (tensors c) (tensors r_ring)) /\
  (forall x, occurs ring (tensors r_ring) x -> exists k, dim_is d2 x k /\ k <> 0%N) /\
  (forall a b, In (C a b) c_ring -> exists x, occurs ring (tensors a) x /\ occurs ring (tensors b) x) /\
  exists t s0 s t', pytree_make p_ring ring d2 (Some [4; 5]) true = Ok t /\
    all_inds t = [0; 1; 4; 2; 3; 5] /\ output_inds t = Ok [4; 5] /\ py_inds t 4 = Ok [0; 4; 2] /\ max_width (fun s => inject_Z (Z.log2 (Z.of_N s))) t = Ok 3%Q /\
    im_make (core t) Simple 0 false None = Ok s0 /\ im_run [ex_rd; ex_rd] s0 = Ok s /\ get_ctree t (im_ct s) = Ok t' /\
    py_inds t' 4 <> Ok [0; 4; 2].
Proof.
  split; [exact (nk_nodup ring_ok)|]. split; [reflexivity|]. split; [discriminate|]. split; [|split; [|split]].
  - intros c [<-|[<-|[<-|[]]]] v Hv; simpl in *; intuition.
  - intros x _. exists 2%N. split; [reflexivity|discriminate].
  - intros a b [E|[E|[E|[]]]]; inversion E; subst.
    + exists 1. split; [exists 0, [0; 1; 4]|exists 1, [1; 2]]; simpl; auto.
    + exists 3. split; [exists 2, [2; 3; 5]|exists 3, [3; 0]]; simpl; auto.
    + exists 0. split; [exists 0, [0; 1; 4]|exists 3, [3; 0]]; simpl; auto.
  - do 4 eexists. do 8 (split; [vm_compute; reflexivity|]). vm_compute. discriminate.
Qed.
(** The same tree with tensors of at most two indices after slicing. *)
Example C56_finite_width_applies : exists t s0 s t', pytree_make p_ring ring d2 (Some [4; 5]) true = Ok t /\
  fw_built lg2 fx_fr (core t) fx_m 1 0 false (repeat false 6) None None None s0 /\ all_shuffle fx_us /\ fw_run lg2 fx_us s0 = Ok s /\
  bany (fw_sl s) = true /\ get_ctree t (fw_ct s) = Ok t' /\ core t' <> core t /\ output_inds t' = Ok [4; 5].
Proof.
  destruct (@make_ok ring p_ring c_ring [r_ring] r_ring d2 (Some [4; 5]) true) as (t & T & E & M & HT & _);
    try (apply C56_applies); [simpl; auto|discriminate|intros _; apply C56_applies|].
  exists t. assert (W : well_formed (nodes (core t))) by (exists T; exact HT). clear M HT T.
  vm_compute in E. injection E as <-. do 3 eexists. split; [reflexivity|]. split.
  - constructor; [exact lg2_log|exact fx_shuffles|exact W|exact I|apply fx_given; reflexivity|vm_compute; reflexivity].
  - split; [exact fx_all|]. split; [vm_compute; reflexivity|]. do 2 (split; [vm_compute; reflexivity|]). split; [vm_compute; discriminate|vm_compute; reflexivity].
Qed.
