(** C23: contract (tnco.utils.tn.contract); C25: contraction of slices. *)
From Coq Require Import List Arith ZArith NArith Lia Permutation.
Import ListNotations.
From Verif Require Import M_Base M_Path M_PyTree M_OSet M_Tensor M_Contract S_Path S_Random S_Network S_PyTree S_Fuse S_Tensor S_Contract S_Slice.
From Verif Require Import P_ContractMain P_ContractThm P_Slice P_Keeps Props_Tensor.

(** C23: with a complete path, contract returns a single tensor. Its indices are, without
    repetitions, the output indices and those that occur in one tensor only. Its
    entries are the sums, over all values of all other indices, of the product of
    the entries of all tensors. For all networks (also with hyper-indices) and
    arrays over a commutative semiring, and any iteration order [arr] of Python
    sets. *)
Theorem C23_complete_path_is_einsum (K : Type) (A : alg K) arr p ts output arrays dims (dim : nat -> nat) cs c :
  semiring A -> (forall l, Permutation (arr l) l) -> (forall xs, In xs ts -> NoDup xs) ->
  Forall (@well_shaped K) arrays -> shaped dim arrays ts -> dims_fit ts (Some arrays) dims -> output_fits ts output -> performs (length ts) p cs [c] ->
  exists zs out' az, contract A arr p ts output (Some arrays) dims = Ok ([zs], out', Some [az]) /\
    NoDup out' /\ (forall x, In x out' <-> is_output ts output x) /\
    NoDup zs /\ (forall x, In x zs <-> (exists t, has ts t x) /\ (is_output ts output x \/ lonely ts x)) /\
    well_shaped az /\ shape az = map dim zs /\
    forall ks v, NoDup ks -> (forall x, In x ks <-> (exists t, has ts t x) /\ ~ In x zs) -> in_range dim zs v ->
      entry_at A az zs v = sum_over A dim ks (network A arrays ts) v.
Proof. exact (fun SR Harr => @contract_complete K A SR arr Harr p ts output arrays dims dim cs c). Qed.
Print Assumptions C23_complete_path_is_einsum.

(** The result does not depend on the path: two complete paths give tensors with the
    same indices, up to their order, and the same entries. *)
Theorem C23_path_independent (K : Type) (A : alg K) arr p q ts output arrays dims cs c cs' c' :
  semiring A -> (forall l, Permutation (arr l) l) -> (forall xs, In xs ts -> NoDup xs) ->
  Forall (@well_shaped K) arrays -> dims_fit ts (Some arrays) dims -> output_fits ts output ->
  performs (length ts) p cs [c] -> performs (length ts) q cs' [c'] ->
  exists dim zs out az zs' out' az', shaped dim arrays ts /\
    contract A arr p ts output (Some arrays) dims = Ok ([zs], out, Some [az]) /\ contract A arr q ts output (Some arrays) dims = Ok ([zs'], out', Some [az']) /\
    (forall x, In x out <-> In x out') /\ Permutation zs zs' /\ forall v, in_range dim zs v -> entry_at A az zs v = entry_at A az' zs' v.
Proof. exact (fun SR Harr => @contract_path_independent K A SR arr Harr p q ts output arrays dims cs c cs' c'). Qed.
Print Assumptions C23_path_independent.

(** Any path, complete or not: each tensor [c] that is left has the indices that stay
    and its entries are the sums, over its other indices, of the product of the
    tensors it is made of. *)
Theorem C23_any_path_is_einsum (K : Type) (A : alg K) arr p ts output arrays dims (dim : nat -> nat) ts' out' ar' :
  semiring A -> (forall l, Permutation (arr l) l) -> (forall xs, In xs ts -> NoDup xs) ->
  Forall (@well_shaped K) arrays -> shaped dim arrays ts -> contract A arr p ts output (Some arrays) dims = Ok (ts', out', ar') ->
  exists cs rest ars, performs (length ts) p cs rest /\ ar' = Some ars /\ length ts' = length rest /\ length ars = length rest /\
    NoDup out' /\ (forall x, In x out' <-> is_output ts output x) /\
    forall i c, nth_error rest i = Some c -> exists zs az, nth_error ts' i = Some zs /\ nth_error ars i = Some az /\
      NoDup zs /\ (forall x, In x zs <-> stays ts (match output with Some o => o | None => [] end) (tensors c) x) /\
      well_shaped az /\ shape az = map dim zs /\
      forall ks v, NoDup ks -> (forall x, In x ks <-> (exists t, In t (tensors c) /\ has ts t x) /\ ~ In x zs) -> in_range dim zs v ->
        entry_at A az zs v = sum_over A dim ks (product A arrays ts (tensors c)) v.
Proof.
  intros SR Harr HN HW HS H. destruct (contract_result SR Harr HN HW HS H) as (cs & rest & ars & H1 & H2 & H3 & H4 & H5 & H6 & _ & H7). exists cs, rest, ars. auto 10.
Qed.
Print Assumptions C23_any_path_is_einsum.

(** contract raises exactly when the dimensions or the shapes of the arrays are missing
    or inconsistent, the output is not given for a network with hyper-indices or
    has unknown indices, or the path is not valid. *)
Theorem C23_accepted_inputs (K : Type) (A : alg K) arr p ts output arrays dims :
  semiring A -> (forall l, Permutation (arr l) l) -> (forall xs, In xs ts -> NoDup xs) -> (forall l, arrays = Some l -> Forall (@well_shaped K) l) ->
  (exists r, contract A arr p ts output arrays dims = Ok r) <->
  dims_fit ts arrays dims /\ output_fits ts output /\ exists cs rest, performs (length ts) p cs rest.
Proof. exact (fun SR Harr => @contract_accepts K A SR arr Harr p ts output arrays dims). Qed.
Print Assumptions C23_accepted_inputs.

(** Without arrays, contract returns the same indices as with arrays. *)
Theorem C23_indices_without_arrays (K : Type) (A : alg K) arr p ts output arrays dims d ts' out' ar' :
  contract A arr p ts output (Some arrays) dims = Ok (ts', out', ar') -> (forall t x, has ts t x -> exists k, dim_is d x k) ->
  contract A arr p ts output None (Some d) = Ok (ts', out', None).
Proof. exact (@contract_inds_only K A arr p ts output arrays dims d ts' out' ar'). Qed.
Print Assumptions C23_indices_without_arrays.

(** C25: [sl] are the sliced indices. The network that is sliced at the values [w] can be
    contracted with the same path; its tensors have the indices of the tensors of
    the unsliced network, without the sliced ones; and each entry of the
    unsliced contraction is the sum of the entries of the contractions of the
    slices: over all values of the sliced indices that the unsliced contraction
    sums over, at the given values of those that it keeps (the outputs). *)
Theorem C25_slicing_is_exact (K : Type) (A : alg K) arr (dim : nat -> nat) sl ts arrays p output dims ts' out' ar' :
  semiring A -> (forall l, Permutation (arr l) l) -> (forall xs, In xs ts -> NoDup xs) ->
  Forall (@well_shaped K) arrays -> shaped dim arrays ts -> contract A arr p ts output (Some arrays) dims = Ok (ts', out', ar') ->
  exists ars cs rest ss' sout' (res : (nat -> nat) -> list (nda K) -> list (nda K)), ar' = Some ars /\ performs (length ts) p cs rest /\
    (forall w bs, slices_of A dim sl w ts arrays bs ->
       contract A arr p (map (unsliced sl) ts) (option_map (unsliced sl) output) (Some bs) None = Ok (ss', sout', Some (res w bs))) /\
    (forall x, In x sout' <-> In x out' /\ ~ In x sl) /\
    length ts' = length rest /\ length ss' = length rest /\ length ars = length rest /\
    forall i c, nth_error rest i = Some c -> exists zs az zs', nth_error ts' i = Some zs /\ nth_error ars i = Some az /\ nth_error ss' i = Some zs' /\
      NoDup zs' /\ (forall x, In x zs' <-> In x zs /\ ~ In x sl) /\
      forall (bs : (nat -> nat) -> list (nda K)) ks v, (forall w, slices_of A dim sl w ts arrays (bs w)) -> NoDup ks ->
        (forall x, In x ks <-> In x sl /\ (exists t, In t (tensors c) /\ has ts t x) /\ ~ In x zs) -> in_range dim zs v ->
        entry_at A az zs v = sum_over A dim ks (fun w => entry_at A (nth i (res w (bs w)) (mkA [] [])) zs' w) v.
Proof. exact (fun SR Harr HN HW HS => @slicing_exact K A SR arr Harr dim sl ts HN arrays HW HS p output dims ts' out' ar'). Qed.
Print Assumptions C25_slicing_is_exact.

(** Every network can be sliced. *)
Theorem C25_slices_exist (K : Type) (A : alg K) (dim : nat -> nat) sl ts (arrays : list (nda K)) w :
  (forall xs, In xs ts -> NoDup xs) -> length arrays = length ts -> exists bs, slices_of A dim sl w ts arrays bs.
Proof. exact (@slices_exist K A dim sl w ts arrays). Qed.
Print Assumptions C25_slices_exist.

(** Whatever the path, complete or not: the sum over all values of the indices that
    are not outputs is the same before and after contract, and so are the outputs. *)
Theorem C23_value_kept (K : Type) (A : alg K) (arr : list nat -> list nat) (dim : nat -> nat) (ts : list (list nat)) (arrays : list (nda K)) p output dims ts' out' ar' :
  semiring A -> (forall l, Permutation (arr l) l) -> (forall xs, In xs ts -> NoDup xs) -> Forall (@well_shaped K) arrays -> shaped dim arrays ts ->
  contract A arr p ts (Some output) (Some arrays) dims = Ok (ts', out', ar') ->
  exists ars, ar' = Some ars /\ shaped dim ars ts' /\ Forall (@well_shaped K) ars /\ (forall xs, In xs ts' -> NoDup xs) /\ NoDup out' /\ (forall x, In x out' <-> In x output) /\
    (forall x, In x (concat ts') -> In x (concat ts)) /\ (forall x, In x output -> In x (concat ts) -> In x (concat ts')) /\
    (forall x, lonely ts' x -> In x output \/ lonely ts x) /\
    forall ks ks' v, NoDup ks -> NoDup ks' -> (forall x, In x ks <-> In x (concat ts) /\ ~ In x output) -> (forall x, In x ks' <-> In x (concat ts') /\ ~ In x output) ->
      in_range dim output v -> sum_over A dim ks' (network A ars ts') v = sum_over A dim ks (network A arrays ts) v.
Proof. exact (fun SR Harr HN HW HS => @contract_keeps_value K A SR dim arr Harr ts arrays HN HW HS p output dims ts' out' ar'). Qed.
Print Assumptions C23_value_kept.

(** A network with a hyper-index 7 in three tensors, the output index 4, and index 3 in a
    single tensor; two complete paths, and slices at 5 and 4. *)
Definition net_ts : list (list nat) := [[7; 3; 5]; [5; 7; 4]; [7; 4]].
Definition net_arrays : list (nda nat) := [ex_ax; ex_ay; mkA [2; 3] [1; 2; 3; 4; 5; 6]].
Definition cut5 (w : nat) : list (nda nat) := [mkA [2; 1] [1 + w; 3 + w]; mkA [2; 3] (if w =? 0 then [1; 0; 2; 5; 1; 1] else [3; 0; 4; 2; 2; 1]); mkA [2; 3] [1; 2; 3; 4; 5; 6]].
Example C23_applies : (forall l : list nat, Permutation (rev l) l) /\ (forall xs, In xs net_ts -> NoDup xs) /\
  Forall (@well_shaped nat) net_arrays /\ shaped ex_dim net_arrays net_ts /\ dims_fit net_ts (Some net_arrays) None /\ output_fits net_ts (Some [4]) /\
  performs 3 [(0, 1); (0, 1)] [C (T 0) (T 1); C (C (T 0) (T 1)) (T 2)] [C (C (T 0) (T 1)) (T 2)] /\
  contract nat_alg (@rev nat) [(0, 1); (0, 1)] net_ts (Some [4]) (Some net_arrays) None = Ok ([[4; 3]], [4], Some [mkA [3; 1] [99; 55; 72]]) /\
  contract nat_alg (@rev nat) [(2, 0); (1, 0)] net_ts (Some [4]) (Some net_arrays) None = Ok ([[4; 3]], [4], Some [mkA [3; 1] [99; 55; 72]]) /\
  contract nat_alg (@rev nat) [(0, 1); (0, 1)] net_ts None (Some net_arrays) None = Err Throw /\
  contract nat_alg (@rev nat) [(0, 3)] net_ts (Some [4]) (Some net_arrays) None = Err Oob /\
  map (fun w => contract nat_alg (@rev nat) [(0, 1); (0, 1)] (map (unsliced [5]) net_ts) (option_map (unsliced [5]) (Some [4])) (Some (cut5 w)) None) [0; 1] =
    [Ok ([[4; 3]], [4], Some [mkA [3; 1] [61; 15; 24]]); Ok ([[4; 3]], [4], Some [mkA [3; 1] [38; 40; 48]])].
Proof.
  split; [intros l; symmetry; apply Permutation_rev|].
  split. { intros xs H. repeat (destruct H as [<-|H]; [repeat constructor; simpl; intuition discriminate|]). destruct H. }
  split; [repeat constructor|]. split; [repeat constructor|]. split; [exists ex_dim; repeat constructor|].
  split; [intros x [<-|[]]; exists 1, [5; 7; 4]; simpl; auto|]. split; [reflexivity|].
  repeat (split; [vm_compute; reflexivity|]). vm_compute. reflexivity.
Qed.
