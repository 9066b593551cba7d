(** C26 and C27: merging and splitting linear contraction paths. [performs n p cs r]
    (S_Path.v): on [n] tensors the path [p] is valid, performs the contractions [cs]
    in this order and leaves the tensors [r]. *)
From Coq Require Import List Arith Bool Permutation Sorted.
Import ListNotations.
From Verif Require Import M_Base M_Path S_Path P_PathMain.

(** C26 *)
Theorem C26_merged_path_performs_all_contractions : forall n ps css autocomplete,
  Forall2 (fun p cs => exists rest, performs n p cs rest) ps css ->
  (forall a b cs cs' t, nth_error css a = Some cs -> nth_error css b = Some cs' -> a <> b ->
     touched cs t -> ~ touched cs' t) ->
  exists p extra rest, merge_paths n ps autocomplete = Ok p /\
    performs n p (concat css ++ extra) rest /\
    (autocomplete = false -> extra = []) /\
    (autocomplete = true -> 0 < n -> length p = n - 1 /\ exists t, rest = [t]).
Proof. exact c26_merge. Qed.
Print Assumptions C26_merged_path_performs_all_contractions.

Theorem C26_common_tensor_raises : forall n ps css autocomplete a b cs cs' t,
  Forall2 (fun p cs => exists rest, performs n p cs rest) ps css ->
  nth_error css a = Some cs -> nth_error css b = Some cs' -> a <> b ->
  touched cs t -> touched cs' t ->
  merge_paths n ps autocomplete = Err Throw.
Proof. exact c26_conflict. Qed.
Print Assumptions C26_common_tensor_raises.

(** Six tensors, two disjoint paths of two contractions each. *)
Definition p1 : path := [(0, 3); (1, 4)].
Definition p2 : path := [(5, 1); (3, 4)].
Definition cs1 := [C (T 0) (T 3); C (C (T 0) (T 3)) (T 2)].
Definition cs2 := [C (T 1) (T 5); C (C (T 1) (T 5)) (T 4)].
Example C26_applies :
  Forall2 (fun p cs => exists rest, performs 6 p cs rest) [p1; p2] [cs1; cs2] /\
  (forall a b cs cs' t, nth_error [cs1; cs2] a = Some cs -> nth_error [cs1; cs2] b = Some cs' -> a <> b ->
     touched cs t -> ~ touched cs' t) /\
  merge_paths 6 [p1; p2] true = Ok [(0, 3); (1, 4); (0, 2); (0, 2); (0, 1)].
Proof.
  split; [|split; [|reflexivity]].
  - constructor; [eexists; reflexivity|]. constructor; [eexists; reflexivity|]. constructor.
  - assert (H1 : forall t, touched cs1 t -> t = 0 \/ t = 2 \/ t = 3).
    { intros t (c & [<-|[<-|[]]] & Ht); simpl in Ht; intuition. }
    assert (H2 : forall t, touched cs2 t -> t = 1 \/ t = 4 \/ t = 5).
    { intros t (c & [<-|[<-|[]]] & Ht); simpl in Ht; intuition. }
    intros [|[|a]] [|[|b]] cs cs' t Ha Hb Hn Ht Ht'; simpl in *; try (destruct a; discriminate); try (destruct b; discriminate);
    try (apply Hn; reflexivity); inversion Ha; inversion Hb; subst.
    + apply H1 in Ht. apply H2 in Ht'. destruct Ht as [->|[->| ->]], Ht' as [E|[E|E]]; discriminate.
    + apply H2 in Ht. apply H1 in Ht'. destruct Ht as [->|[->| ->]], Ht' as [E|[E|E]]; discriminate.
Qed.
Example C26_conflict_applies :
  Forall2 (fun p cs => exists rest, performs 6 p cs rest) [p1; [(3, 2)]] [cs1; [C (T 2) (T 3)]] /\
  touched cs1 2 /\ touched [C (T 2) (T 3)] 2.
Proof.
  split; [constructor; [eexists; reflexivity|]; constructor; [eexists; reflexivity|]; constructor|].
  split; [exists (C (C (T 0) (T 3)) (T 2))|exists (C (T 2) (T 3))]; simpl; auto 6.
Qed.

(** C27. The components are the sets of tensors of what the path leaves. With
    normalised paths, the path of a component is a path on the tensors of the
    component in increasing order, and it is complete; without, it is a path on all
    the tensors. *)
Theorem C27_paths_of_the_components : forall n p cs rest normalize, performs n p cs rest ->
  exists paths comps, split_cc n p normalize = Ok (paths, comps) /\ length paths = length comps /\
    Permutation (concat comps) (seq 0 n) /\
    (exists rest', Permutation rest rest' /\ Forall2 (fun comp r => Permutation comp (tensors r)) comps rest') /\
    forall k q comp, nth_error paths k = Some q -> nth_error comps k = Some comp ->
      if normalize : bool
      then exists last, In last rest /\
             forall l, Permutation l comp -> StronglySorted le l ->
               perform (map T l) q = Some (filter (within comp) cs, [last])
      else exists r, performs n q (filter (within comp) cs) r.
Proof. exact c27_split. Qed.
Print Assumptions C27_paths_of_the_components.

Theorem C27_merging_the_components_back : forall n p cs rest, performs n p cs rest ->
  exists paths p' cs' rest', split_paths n p false = Ok paths /\ Forall (fun q => q <> []) paths /\
    merge_paths n paths false = Ok p' /\ performs n p' cs' rest' /\ Permutation cs' cs.
Proof. exact c27_merge_back. Qed.
Print Assumptions C27_merging_the_components_back.

(** Seven tensors, two components with contractions and one without. *)
Definition p3 : path := [(1, 3); (0, 4); (0, 3); (2, 1)].
Example C27_applies :
  performs 7 p3 [C (T 1) (T 3); C (T 0) (T 6); C (C (T 1) (T 3)) (T 2); C (C (T 0) (T 6)) (T 5)]
    [T 4; C (C (T 1) (T 3)) (T 2); C (C (T 0) (T 6)) (T 5)] /\
  split_cc 7 p3 true = Ok ([[]; [(0, 2); (0, 1)]; [(0, 2); (0, 1)]], [[4]; [2; 1; 3]; [5; 0; 6]]) /\
  split_cc 7 p3 false = Ok ([[]; [(1, 3); (1, 5)]; [(0, 6); (4, 5)]], [[4]; [2; 1; 3]; [5; 0; 6]]).
Proof. repeat split. Qed.
