(** C64: the names of the indices do not matter. *)
From Coq Require Import List Arith Bool Lia ZArith Permutation.
Import ListNotations.
From Verif Require Import M_Base M_Bitset M_Tree M_CTree M_Cost M_Opt M_InfMem M_FinWidth M_Path M_PyTree M_PyNodes M_Random
  M_App M_Parallel M_Tensor M_Contract M_TnApp M_LoadTn M_Seed S_Seed S_Random S_Rename P_PathMain P_RenameLoad P_RenameCall
  Props_LoadTn Props_App Props_FinWidth Props_Random Props_Tensor Props_Seed.
Set Implicit Arguments.

Section Names.
Variables (P R B K : Type) (g : prng P) (next32 : P -> nat * P) (py_seed : nat -> P) (cpp_seed : nat -> R) (A : alg K) (eqb : K -> K -> bool) (lg : N -> Z).
Variable f : nat -> nat.

(** The same call with other names, in the same circumstances. *)
Definition renamed (x x' : environment * call B K) : Prop :=
  let '((arr, pick, es), c) := x in
  exists arr', follows f arr arr' /\ x' = ((arr', pick, es), rename_call f c).

(** In any sequence of calls of optimize on an optimizer: with other names, what is
    loaded is the same network with these names, and the results have the same costs
    and paths; what raises raises the same. Missing: that it be so too when a set of
    the new names lists them in another order, as different hashes make it do. *)
Theorem C64_names_infinite_memory_partial (rule : B -> rand R) seed calls calls' : injective f -> Forall2 renamed calls calls' ->
  let results l := session (im_in g next32 py_seed cpp_seed A eqb lg rule) l (new_optimizer py_seed seed) in
  results calls' = map (map_res (fun e => (rename_object f (fst e), snd e))) (results calls).
Proof.
  intros Hf H results. unfold results. apply session_map with (f := f) (q := fun e e' => let '(arr, pick, es) := e in exists arr', follows f arr arr' /\ e' = (arr', pick, es)).
  - intros [[arr pick] es] e' o c (arr' & Ha & ->). exact (im_call_map Hf g next32 py_seed cpp_seed A eqb lg pick Ha rule es o c).
  - induction H as [|[[[arr pick] es] c] x' l l' (arr' & Ha & ->) H IH]; constructor; auto; cbn; eauto.
Qed.
(** With a maximal width also the sliced indices are the same, under the new names. *)
Theorem C64_names_finite_width_partial mx (fr0 : frand R) (rule : B -> frand R) u seed calls calls' : injective f -> Forall2 renamed calls calls' ->
  let results l := session (fw_in g next32 py_seed cpp_seed A eqb lg mx fr0 rule u) l (new_optimizer py_seed seed) in
  results calls' = map (map_res (fun e => (rename_object f (fst e), map (rename_result f) (snd e)))) (results calls).
Proof.
  intros Hf H results. unfold results. apply session_map with (f := f) (q := fun e e' => let '(arr, pick, es) := e in exists arr', follows f arr arr' /\ e' = (arr', pick, es)).
  - intros [[arr pick] es] e' o c (arr' & Ha & ->). exact (fw_call_map Hf g next32 py_seed cpp_seed A eqb lg pick Ha mx fr0 rule u es o c).
  - induction H as [|[[[arr pick] es] c] x' l l' (arr' & Ha & ->) H IH]; constructor; auto; cbn; eauto.
Qed.
(** contract with other names gives the same arrays, along every path. *)
Theorem C64_names_contract arr arr' p ts out (arrays : option (list (nda K))) d : injective f -> follows f arr arr' ->
  contract A arr' p (map (map f) ts) (option_map (map f) out) arrays (option_map (rename_dims f) d) =
  map_res (fun e => (map (map f) (fst (fst e)), map f (snd (fst e)), snd e)) (contract A arr p ts out arrays d).
Proof. intros Hf Ha. exact (contract_map Hf A Ha p ts out arrays d). Qed.
End Names.
Print Assumptions C64_names_infinite_memory_partial.
Print Assumptions C64_names_finite_width_partial.
Print Assumptions C64_names_contract.

(** Two calls on a network in which tensors are fused; the names are doubled, and sets
    list their elements backwards. *)
Example C64_applies :
  let f := fun x => 2 * x + 1 in
  let calls := [((@rev nat, ex_pick, rounds [0; 1] 60), call_of 2 []); ((@rev nat, ex_pick, rounds [0; 1; 2] 60), call_of 3 [tt; tt])] in
  let calls' := map (fun x => (fst x, rename_call f (snd x))) calls in
  let results l := session (im_in ex_g next7 id id nat_alg Nat.eqb lg2 rule1) l (new_optimizer id 5) in
  injective f /\ Forall2 (renamed f) calls calls' /\
  exists tn a b tn' c d e, results calls' = [Ok (tn, [a; b]); Ok (tn', [c; d; e])] /\ length (n_list (o_net tn)) < 8 /\ length (ir_paths a) = 2 /\ ir_cost a <> ir_cost b.
Proof.
  cbv zeta. split; [intros x y H; lia|]. split.
  { repeat constructor; exists (@rev nat); split; auto; intros l; symmetry; apply map_rev. }
  do 7 eexists. split; [vm_compute; reflexivity|]. split; [vm_compute; lia|]. split; [reflexivity|vm_compute; discriminate].
Qed.
Example C64_finite_width_applies :
  let f := fun x => 2 * x + 1 in
  let calls := [((@rev nat, ex_pick, rounds [0] 60), call_of 1 [tt; tt])] in
  let results l := session (fw_in ex_g next7 id id nat_alg Nat.eqb lg2 3 (frule1 tt) frule1 1) l (new_optimizer id 5) in
  exists tn a tn' b, results calls = [Ok (tn, [a])] /\ results (map (fun x => (fst x, rename_call f (snd x))) calls) = [Ok (tn', [b])] /\
    fr_slices a <> [] /\ fr_slices b = map f (fr_slices a).
Proof. cbv zeta. do 4 eexists. split; [vm_compute; reflexivity|]. split; [vm_compute; reflexivity|]. split; [vm_compute; discriminate|reflexivity]. Qed.

(** In one Python session, in which sets of small integers list them in increasing order:
    with the names 0 .. 7 the other way round the result has another cost. *)
Definition backwards (x : nat) : nat := if x <=? 7 then 7 - x else x.
Theorem C64_names_refuted : exists (c : call unit nat) seed es tn tn' r r',
  injective backwards /\ in_full (sort, ex_pick, es) /\
  fst (im_in ex_g next7 id id nat_alg Nat.eqb lg2 rule1 (sort, ex_pick, es) (new_optimizer id seed) c) = Ok (tn, [r]) /\
  fst (im_in ex_g next7 id id nat_alg Nat.eqb lg2 rule1 (sort, ex_pick, es) (new_optimizer id seed) (rename_call backwards c)) = Ok (tn', [r']) /\ ir_cost r <> ir_cost r'.
Proof.
  exists (mkCall (network_of shares_two [0; 1]) true (Some 4%Z) [tt] None 1 None), 141, (rounds [0] 40). do 4 eexists.
  split. { intros x y. unfold backwards. destruct (Nat.leb_spec x 7), (Nat.leb_spec y 7); lia. }
  assert (HT : ~ In Tick (rounds [0] 40)) by (cbn; intuition discriminate).
  split; [split; [split; [|exact ex_pick_ok]|exact HT]|].
  { exact sort_perm. }
  split; [vm_compute; reflexivity|]. split; [vm_compute; reflexivity|]. vm_compute. discriminate.
Qed.
Print Assumptions C64_names_refuted.
