(** Loading, optimizing and contracting a tensor network. *)
From Coq Require Import List Arith NArith ZArith Lia Permutation Bool.
Import ListNotations.
From Verif Require Import P_Base P_Opt P_PyMain.
From Verif Require Import M_Base M_Bitset M_Tree M_CTree M_Cost M_Opt M_InfMem M_FinWidth M_Path M_PyTree M_PyNodes M_OSet M_Random M_Fuse M_Tensor M_Contract M_Decompose M_App M_TnApp M_LoadTn.
From Verif Require Import S_Tree S_Opt S_FinWidth S_Path S_PyTree S_Random S_Network S_Fuse S_Tensor S_Contract S_Slice S_Decompose S_App S_TnApp S_LoadTn.
From Verif Require Import P_Path P_Split P_PathMain P_PyBuild P_PyTens P_OSet P_Sum P_Tensordot P_ContractMain P_ContractThm P_DecomposeNet P_Keeps P_Slice P_App P_AppMain P_EndToEnd P_TnApp P_LoadTn P_LoadTnMain.
From Verif Require Import M_Path M_PyTree.
Set Implicit Arguments.
Unset Strict Implicit.
Local Open Scope nat_scope.
Local Notation has := S_Random.has.

Section Run.
Variable K : Type.
Variable A : alg K.
Hypothesis SR : semiring A.
Variable arr : list nat -> list nat.
Hypothesis Harr : forall l, Permutation (arr l) l.
Variables (o o' : object K) (l l' : list (nda K)) (f : nat -> nat).
Hypothesis L : loaded A o o' l l' f.
Hypothesis NE : n_list (o_net o) <> [].
Local Notation n := (o_net o).
Local Notation n' := (o_net o').
Local Notation ts := (inds_of (o_net o')).
Local Notation d := (py_dims (n_dims (o_net o'))).
Let FN : facts n' := built_facts (ld_built L).

Lemma sparse_nil : n_sparse n' = [] <-> n_sparse n = [].
Proof.
  pose proof (ld_sparse L) as H. split; intros E; rewrite E in H.
  - destruct (n_sparse n) as [|x s]; auto. exfalso. destruct (proj2 (H x) (or_introl eq_refl)).
  - destruct (n_sparse n') as [|x s]; auto. exfalso. destruct (proj1 (H x) (or_introl eq_refl)).
Qed.

Variable np : option Z.
Hypothesis Hnp : forall k, np = Some k -> (1 <= k)%Z.
Hypothesis Hgiven : n_sparse n <> [] -> np <> None.
Hypothesis Hconn : n_sparse n = [] \/ one_component (inds_of n).

Lemma conn' : n_sparse n' = [] \/ one_component ts.
Proof.
  destruct (n_sparse n) as [|x s] eqn:E; [left; apply sparse_nil; auto|]. right. rewrite (ld_same L); [|rewrite E; discriminate]. destruct Hconn as [H|H]; [congruence|auto].
Qed.
Lemma ts_nonempty : ts <> [].
Proof. intros E. apply NE. apply (ld_empty L). apply length_zero_iff_nil. rewrite <- inds_length, E. auto. Qed.
Lemma net_ok : S_App.network_ok ts d (fun x => N.of_nat (size n' x)) (n_sparse n') np.
Proof.
  constructor; auto.
  - apply (ld_plain L).
  - intros t x Hx. assert (Hc : In x (concat ts)) by (apply has_concat; eauto). split; [apply py_dims_is; auto|]. pose proof (f_pos FN Hc). lia.
  - intros H. apply Hgiven. intros E. apply H, sparse_nil, E.
  - intros x Hx. apply has_concat, (f_sparse FN). auto.
Qed.

(** The contraction along a complete path. Lonely indices that are not outputs are left,
    and have to be summed. *)
Lemma any_path p cs t : performs (length ts) p cs [t] ->
  exists zs os az, contract A arr p ts (Some (n_out n')) (Some l') (Some d) = Ok ([zs], os, Some [az]) /\ NoDup zs /\
    (forall x, In x zs <-> In x (n_out n') \/ lonely ts x) /\ well_shaped az /\ shape az = map (size n') zs /\
    forall ks v v', NoDup ks -> (forall x, In x ks <-> lonely ts x /\ ~ In x (n_out n')) -> in_range (size n) (n_out n) v -> (forall y, In y (n_out n) -> v' (f y) = v y) ->
      value A n l v = sum_over A (size n') ks (entry_at A az zs) v'.
Proof.
  intros P. destruct (arrays_shaped FN (ld_arrays L)) as [S W].
  destruct (@contract_complete K A SR arr Harr p ts (Some (n_out n')) l' (Some d) (size n') cs t) as (zs & out' & az & E & _ & _ & Nz & Iz & Wz & Sz & Vz); auto.
  { apply (ld_plain L). } { exists (size n'). split; auto. intros i x Hx. apply py_dims_is; auto. apply has_concat. eauto. } { intros x Hx. apply has_concat, (f_out FN). auto. }
  exists zs, out', az. split; auto. split; auto.
  assert (ZI : forall x, In x zs <-> In x (n_out n') \/ lonely ts x).
  { intros x. rewrite Iz. cbn [is_output]. split; [tauto|]. intros H. split; auto. destruct H as [H|(i & Hi)]; [apply has_concat, (f_out FN); auto|]. exists i. apply Hi. auto. }
  split; auto. split; auto. split; auto. intros ks v v' Nk Ik Hv E'.
  rewrite <- (@ld_value K A o o' l l' f L v v' Hv E'). unfold value.
  set (k2 := filter (fun x => negb (memb x zs)) (unique (concat ts))).
  assert (N2 : NoDup k2) by (apply NoDup_filter, unique_nodup).
  assert (I2 : forall x, In x k2 <-> In x (concat ts) /\ ~ In x zs) by (intros x; unfold k2; rewrite filter_In, unique_in, negb_true_iff, memb_nIn; tauto).
  assert (PM : Permutation (summed n') (ks ++ k2)).
  { apply NoDup_Permutation; [apply nodup_summed|apply NoDup_app; split; [auto|]; split; [auto|]; intros x H1 H2; apply I2 in H2; apply Ik in H1; apply (proj2 H2), ZI; tauto|].
    intros x. rewrite in_summed, in_app_iff, I2, Ik, ZI. split.
    - intros [H1 H2]. destruct (in_dec Nat.eq_dec x zs) as [H3|H3]; [apply ZI in H3; tauto|right; split; auto; rewrite <- ZI; auto].
    - intros [[H1 H2]|[H1 H2]]; [|tauto]. split; auto. destruct H1 as (i & Hi). apply has_concat. exists i. apply Hi. auto. }
  rewrite (@so_perm K A SR (size n') _ _ (network A l' ts) (concat ts) (@network_depends K A l' ts) PM v'), so_app.
  apply so_ext. intros w Hw1 Hw2. symmetry. apply Vz; auto; [intros x; rewrite I2, <- has_concat; tauto|].
  intros x Hx. destruct (in_dec Nat.eq_dec x ks) as [Hk|Hk]; [apply Hw2; auto|]. rewrite Hw1 by auto. assert (Ho : In x (n_out n')). { apply ZI in Hx. destruct Hx as [|Hx]; auto. destruct (in_dec Nat.eq_dec x (n_out n')); auto. exfalso. apply Hk, Ik. auto. }
  apply (ld_out L) in Ho. destruct Ho as (y & Hy & ->). rewrite E' by auto. rewrite (@ld_dim K A o o' l l' f L y Hy). apply Hv. auto.
Qed.

Theorem value_im (P R B : Type) (g : prng P) pick (rule : B -> rand R) betas n_steps r r0 stop : prng_ok g -> pick_ok pick ->
  exists res zs os az, im_core ts d (n_out n') (n_sparse n') np g pick rule betas n_steps r r0 stop = Ok res /\
    contract A arr (ir_path res) ts (Some (n_out n')) (Some l') (Some d) = Ok ([zs], os, Some [az]) /\ NoDup zs /\
    (forall x, In x zs <-> In x (n_out n') \/ lonely ts x) /\ well_shaped az /\ shape az = map (size n') zs /\
    forall ks v v', NoDup ks -> (forall x, In x ks <-> lonely ts x /\ ~ In x (n_out n')) -> in_range (size n) (n_out n) v -> (forall y, In y (n_out n) -> v' (f y) = v y) ->
      value A n l v = sum_over A (size n') ks (entry_at A az zs) v'.
Proof.
  intros Hg Hp. destruct (@im_core_ok ts d (n_out n') (n_sparse n') np _ net_ok P R B g pick rule betas n_steps r r0 stop Hg Hp conn') as (res & comps & extra & E1 & _ & (rest & P1 & P2) & _).
  destruct P2 as (_ & t & ->). { pose proof ts_nonempty. destruct ts; [congruence|cbn; lia]. }
  destruct (any_path P1) as (zs & os & az & H). exists res, zs, os, az. split; auto.
Qed.

Theorem value_fw (P R B : Type) (g : prng P) pick lg mx (fr0 : frand R) (rule : B -> frand R) betas n_steps u r r0 stop :
  prng_ok g -> pick_ok pick -> log_like lg -> shuffles fr0 -> (forall b, shuffles (rule b)) -> (0 <= mx)%Z -> 0 < u ->
  exists res zs os (az : (nat -> nat) -> list (nda K) -> nda K),
    fw_core ts d (n_out n') (n_sparse n') np g pick lg mx fr0 rule betas n_steps u r r0 stop = Ok res /\
    (forall w, exists bs, slices_of A (size n') (fr_slices res) w ts l' bs) /\
    (forall w bs, slices_of A (size n') (fr_slices res) w ts l' bs ->
       contract A arr (fr_path res) (map (unsliced (fr_slices res)) ts) (Some (unsliced (fr_slices res) (n_out n'))) (Some bs) None = Ok ([zs], os, Some [az w bs])) /\
    NoDup zs /\ (forall x, In x zs <-> (In x (n_out n') \/ lonely ts x) /\ ~ In x (fr_slices res)) /\
    forall (bs : (nat -> nat) -> list (nda K)) k1 k2 v v', (forall w, slices_of A (size n') (fr_slices res) w ts l' (bs w)) ->
      NoDup k1 -> (forall x, In x k1 <-> lonely ts x /\ ~ In x (n_out n')) ->
      NoDup k2 -> (forall x, In x k2 <-> In x (fr_slices res) /\ ~ lonely ts x /\ ~ In x (n_out n')) ->
      in_range (size n) (n_out n) v -> (forall y, In y (n_out n) -> v' (f y) = v y) ->
      value A n l v = sum_over A (size n') (k1 ++ k2) (fun w => entry_at A (az w (bs w)) zs w) v'.
Proof.
  intros Hg Hp Hl Hf0 Hfr Hmx Hu. destruct (arrays_shaped FN (ld_arrays L)) as [S W]. pose proof ts_nonempty as Ne. pose proof (ld_plain L) as N.
  destruct (@fw_core_ok ts d (n_out n') (n_sparse n') np _ net_ok P R B g pick lg mx fr0 rule betas n_steps u r r0 stop Hg Hp Hl Hf0 Hfr Hmx Hu Ne conn') as (res & comps & extra & cz & E1 & _ & (rest & P1 & P2) & Hk & _ & _ & Hsl & _).
  destruct P2 as (_ & t & ->). { destruct ts; [congruence|cbn; lia]. }
  assert (Hh : forall x, In x (fr_slices res) -> In x (concat ts)).
  { intros x Hx. apply has_concat. apply Hsl in Hx. destruct Hx as (sl & Hin & Hx). clear -Hk Hin Hx. induction Hk as [|k ks sl' sls z zs Hs Hc Hp IH]; [destruct Hin|].
    destruct Hin as [->|Hin]; auto. destruct (Hs x Hx) as (t & _ & Ht). eauto. }
  destruct (any_path P1) as (zs & os' & az & EC & Nz & Iz & Wz & Sz & V).
  destruct (@slicing_exact K A SR arr Harr (size n') (fr_slices res) ts N l' W S (fr_path res) (Some (n_out n')) (Some d) _ _ _ EC) as (ars & cs & rest & ss' & sout' & h & Ea & P3 & C3 & _ & L1 & L2 & L3 & X).
  inversion Ea; subst ars. clear Ea. assert (RR : rest = [t]) by (unfold performs in *; rewrite P1 in P3; congruence). subst rest.
  destruct (X 0 t eq_refl) as (zs0 & az0 & zs' & X1 & X2 & X3 & Nz' & Iz' & X4). inversion X1; subst zs0. inversion X2; subst az0. clear X1 X2.
  destruct ss' as [|s [|]]; try discriminate. inversion X3; subst s. clear X3.
  exists res, zs', sout', (fun w bs => nth 0 (h w bs) (mkA [] [])). split; auto. split; [intros w; apply slices_exist; auto; apply (forall2_len S)|]. split.
  { intros w bs Hb. pose proof (C3 w bs Hb) as C4. cbn [option_map] in C4. rewrite C4. f_equal. f_equal. f_equal.
    assert (LH : length (h w bs) = 1). { destruct (contract_result SR Harr) with (ts := map (unsliced (fr_slices res)) ts) (arrays := bs) (output := Some (unsliced (fr_slices res) (n_out n'))) (p := fr_path res) (dims := @None pydims) (dim := size n') (ts' := [zs']) (out' := sout') (ar' := Some (h w bs)) as (c2 & r2 & a2 & P4 & Ea & M1 & M2 & _); auto.
      - intros xs Hx. apply in_map_iff in Hx. destruct Hx as (ys & <- & Hy). apply NoDup_filter. auto.
      - apply (sliced_shape Hb).
      - apply (sliced_shape Hb).
      - inversion Ea; subst. cbn in M1. lia. }
    destruct (h w bs) as [|a [|]]; try discriminate. auto. }
  split; auto. split; [intros x; rewrite Iz', Iz; tauto|].
  intros bs k1 k2 v v' Hb N1 I1 N2 I2 Hv E'. rewrite (V k1 v v') by auto. rewrite so_app. apply so_ext. intros w Hw1 Hw2. apply X4; auto.
  - intros x. rewrite I2, Iz. split; [|tauto]. intros (H1 & H2 & H3). split; auto. split; [|tauto].
    apply Hh, has_concat in H1. destruct H1 as (i & Hi). exists i. split; auto.
    destruct (contract_result SR Harr N W S EC) as (cs' & rest' & ars' & P4 & _ & _ & _ & _ & _ & PM & _).
    assert (RR : rest' = [t]) by (unfold performs in *; rewrite P1 in P4; congruence). subst rest'. cbn [alltens flat_map] in PM. rewrite app_nil_r in PM. apply (Permutation_in _ (Permutation_sym PM)). apply in_seq.
    destruct Hi as (xs & Hi & _). assert (i < length ts) by (apply nth_error_Some; rewrite Hi; discriminate). lia.
  - intros x Hx. destruct (in_dec Nat.eq_dec x k1) as [Hk1|Hk1]; [apply Hw2; auto|]. rewrite Hw1 by auto. assert (Ho : In x (n_out n')). { apply Iz in Hx. destruct Hx as [|Hx]; auto. destruct (in_dec Nat.eq_dec x (n_out n')); auto. exfalso. apply Hk1, I1. auto. }
    apply (ld_out L) in Ho. destruct Ho as (y & Hy & ->). rewrite E' by auto. rewrite (@ld_dim K A o o' l l' f L y Hy). apply Hv. auto.
Qed.
End Run.
