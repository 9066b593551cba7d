(** contract: the final statements. *)
From Coq Require Import List Arith ZArith NArith Bool Lia Permutation.
Import ListNotations.
From Verif Require Import P_Base P_Opt P_PyMain.
From Verif Require Import M_Base M_Path M_PyTree M_OSet M_Tensor M_Contract S_Path S_Random S_Network S_PyTree S_Fuse S_Tensor S_Contract.
From Verif Require Import P_Path P_Split P_PathMain P_PyBuild P_PyTens P_RandColor P_RandLoop P_RandComp P_RandMain P_Forest P_Fuse P_OSet P_Sum P_Array P_Tensordot P_Contract P_ContractMain.
Set Implicit Arguments.
Unset Strict Implicit.
Local Open Scope nat_scope.

(** The indices do not depend on the arrays. *)
Lemma tensordot_same (K : Type) (A : alg K) ax xs ay ys hyper az zs : tensordot A ax xs ay ys hyper = Ok (az, zs) -> tensordot_inds xs ys hyper = Ok zs.
Proof.
  unfold tensordot, tensordot_inds. cbv zeta. destruct (group (ofs xs) (ofs ys) hyper) as [g|]; [|discriminate]. cbn [bind].
  repeat (match goal with |- context [bind ?e _] => destruct e; [|discriminate]; cbn [bind] end). intros E. inversion E. auto.
Qed.
Lemma loop_same (K : Type) (A : alg K) arr out p : forall ts l h ts' ar', contract_loop A arr out p ts (Some l) h = Ok (ts', ar') ->
  contract_loop A arr out p ts None h = Ok (ts', None).
Proof.
  induction p as [|(x, y) p IH]; intros ts l h ts' ar'; cbn [contract_loop]; [intros E; inversion E; auto|].
  destruct (sort2 x y) as [lo hi]. destruct (lo =? hi); [discriminate|]. destruct (pop ts hi) as [[ys t1]|]; [|discriminate]. cbn [bind].
  destruct (pop t1 lo) as [[xs t2]|]; [|discriminate]. cbn [bind]. cbv zeta. destruct (existsb _ _); [discriminate|].
  destruct (pop l hi) as [[ay l1]|]; [|discriminate]. cbn [bind]. destruct (pop l1 lo) as [[ax l2]|]; [|discriminate]. cbn [bind].
  destruct (tensordot A ax xs ay ys _) as [[az zs]|] eqn:E; [|discriminate]. cbn [bind]. apply tensordot_same in E. rewrite E. cbn [bind]. apply IH.
Qed.
Theorem contract_inds_only (K : Type) (A : alg K) arr p ts output arrays dims d ts' out' ar' :
  contract A arr p ts output (Some arrays) dims = Ok (ts', out', ar') -> (forall t x, has ts t x -> exists k, dim_is d x k) ->
  contract A arr p ts output None (Some d) = Ok (ts', out', None).
Proof.
  intros H Hd. unfold contract in *. destruct (check_dims_ok (K := K) ts None (Some d)) as [[_ ->]|[D _]]; [|exfalso; apply D; exact Hd]. cbn [bind] in *.
  destruct (check_dims ts (Some arrays) dims); [|discriminate]. cbn [bind] in H. cbv zeta in *.
  destruct (match output with None => _ | Some _ => _ end) as [out|]; [|discriminate]. cbn [bind] in *. destruct (forallb _ _); cbn [negb] in *; [|discriminate].
  destruct (contract_loop A arr out p ts (Some arrays) _) as [(tt1, aa1)|] eqn:E; [|discriminate]. cbn [bind] in H. inversion H; subst. rewrite (loop_same E). cbn [bind]. auto.
Qed.

Section Thm.
Variable K : Type.
Variable A : alg K.
Hypothesis SR : semiring A.
Variable arr : list nat -> list nat.
Hypothesis Harr : forall l, Permutation (arr l) l.

Lemma pick_dim ts (arrays : option (list (nda K))) dims : exists dim, forall l, arrays = Some l -> dims_fit ts arrays dims -> shaped dim l ts.
Proof.
  destruct (check_dims_ok ts arrays dims) as [[H _]|[H _]]; [|exists (fun _ => 0); tauto].
  destruct arrays as [l|]; [|exists (fun _ => 0); discriminate]. destruct dims as [d|]; simpl in H.
  - destruct H as (dim & H & _). exists dim. intros l' E _. inversion E; subst. auto.
  - destruct H as (dim & H). exists dim. intros l' E _. inversion E; subst. auto.
Qed.

Theorem contract_accepts p ts output arrays dims : (forall xs, In xs ts -> NoDup xs) -> (forall l, arrays = Some l -> Forall (@well_shaped K) l) ->
  (exists r, contract A arr p ts output arrays dims = Ok r) <->
  dims_fit ts arrays dims /\ output_fits ts output /\ exists cs rest, performs (length ts) p cs rest.
Proof.
  intros HN HW. destruct (pick_dim ts arrays dims) as (dim & Hdim).
  destruct (contract_ok SR Harr HN p output (dims := dims) HW Hdim) as [(D & O & cs & rest & P & F & h & ar' & E & _)|(N & e & E)].
  - rewrite E. split; [|eauto]. intros _. split; auto. split; eauto.
  - rewrite E. split; [intros (r & H); discriminate|tauto].
Qed.

(** What the value of one tensor of the result means. *)
Definition holds (dim : nat -> nat) (arrays : list (nda K)) ts output (c : term) zs az : Prop :=
  NoDup zs /\ (forall x, In x zs <-> stays ts (outs output) (tensors c) x) /\ well_shaped az /\ shape az = map dim zs /\
  forall ks v, NoDup ks -> (forall x, In x ks <-> (exists t, In t (tensors c) /\ has ts t x) /\ ~ In x zs) -> in_range dim zs v ->
    entry_at A az zs v = sum_over A dim ks (product A arrays ts (tensors c)) v.

Lemma contract_result p ts output arrays dims (dim : nat -> nat) ts' out' ar' : (forall xs, In xs ts -> NoDup xs) ->
  Forall (@well_shaped K) arrays -> shaped dim arrays ts -> contract A arr p ts output (Some arrays) dims = Ok (ts', out', ar') ->
  exists cs rest ars, performs (length ts) p cs rest /\ ar' = Some ars /\ length ts' = length rest /\ length ars = length rest /\
    NoDup out' /\ (forall x, In x out' <-> is_output ts output x) /\ Permutation (alltens rest) (seq 0 (length ts)) /\
    forall i c, nth_error rest i = Some c -> exists zs az, nth_error ts' i = Some zs /\ nth_error ars i = Some az /\ holds dim arrays ts output c zs az.
Proof.
  intros HN HW HS H.
  destruct (contract_ok SR Harr HN p output (arrays := Some arrays) (dims := dims) (dim := dim)) as [(D & O & cs & rest & P & F & h & ar & E & Er & G & Ha & V)|(N & e & E)].
  { intros l E. inversion E; subst. auto. } { intros l E _. inversion E; subst. auto. }
  2:{ rewrite E in H. discriminate. }
  rewrite E in H. inversion H; subst ts' out' ar. clear H. specialize (V arrays eq_refl). destruct ar' as [ars|]; [|destruct Ha as [Ha _]; discriminate (Ha eq_refl)].
  cbn [values] in V. exists cs, rest, ars. split; auto. split; auto. rewrite <- Er, !map_length. split; auto. split; [apply (forall2_len V)|].
  split; [apply NoDup_filter'; unfold out_of; destruct output; [apply unique_nodup|apply NoDup_filter', unique_nodup]|]. split; [|split].
  - intros x. rewrite filter_In, memb_In, <- (out_of_in HN x O). split; [tauto|]. intros Hx. split; auto. pose proof (proj1 (out_of_in HN x O) Hx) as Ho.
    assert (Ht : exists t, has ts t x). { unfold is_output, output_fits in *. destruct output as [o|]; [auto|]. destruct Ho as (t & Ht). exists t. apply Ht. auto. }
    destruct Ht as (t & Ht). assert (It : In t (alls F)). { apply (Permutation_in _ (Permutation_sym (fg_perm G))). apply in_seq. pose proof (has_lt (ts := ts) Ht). lia. }
    apply in_alls in It. destruct It as (X & a & I1 & I2). apply in_concat. exists X. split; [apply in_map_iff; exists (X, a); auto|].
    apply (fg_item G I1). split; [eauto|]. auto.
  - exact (fg_perm G).
  - intros i c Hc. rewrite nth_error_map in Hc. destruct (nth_error F i) as [(zs, c')|] eqn:EF; [|discriminate]. simpl in Hc. inversion Hc; subst c'.
    destruct (forall2_nth_l V EF) as (az & Ea & (W1 & W2 & W3)). cbn [fst snd] in *. exists zs, az. rewrite nth_error_map, EF. split; auto. split; auto.
    destruct (fg_item G (nth_error_In _ _ EF)) as [Nz Iz]. split; auto. split; [intros x; rewrite Iz; apply stays_out_of; auto|]. split; auto. split; auto.
    intros ks v Nk Ik Hv. rewrite W3 by auto. apply (@so_perm _ A SR dim) with (xs := inds ts (tensors c)); [apply prd_depends|].
    apply NoDup_Permutation; auto; [apply n_inner|]. intros x. rewrite (in_inner dim), Ik. tauto.
Qed.

Theorem contract_complete p ts output arrays dims (dim : nat -> nat) cs c : (forall xs, In xs ts -> NoDup xs) ->
  Forall (@well_shaped K) arrays -> shaped dim arrays ts -> dims_fit ts (Some arrays) dims -> output_fits ts output -> performs (length ts) p cs [c] ->
  exists zs out' az, contract A arr p ts output (Some arrays) dims = Ok ([zs], out', Some [az]) /\
    NoDup out' /\ (forall x, In x out' <-> is_output ts output x) /\
    NoDup zs /\ (forall x, In x zs <-> (exists t, has ts t x) /\ (is_output ts output x \/ lonely ts x)) /\
    well_shaped az /\ shape az = map dim zs /\
    forall ks v, NoDup ks -> (forall x, In x ks <-> (exists t, has ts t x) /\ ~ In x zs) -> in_range dim zs v ->
      entry_at A az zs v = sum_over A dim ks (network A arrays ts) v.
Proof.
  intros HN HW HS D O P. assert (Acc : exists r, contract A arr p ts output (Some arrays) dims = Ok r).
  { apply contract_accepts; auto; [intros l E; inversion E; subst; auto|]. split; auto. split; eauto. }
  destruct Acc as (((ts', out'), ar') & E). destruct (contract_result HN HW HS E) as (cs' & rest & ars & P' & -> & L1 & L2 & No & Io & Pt & R).
  assert (Er : rest = [c]) by (unfold performs in *; congruence). subst rest. destruct (R 0 c eq_refl) as (zs & az & E1 & E2 & Nz & Iz & W1 & W2 & W3).
  destruct ts' as [|z [|? ?]]; simpl in L1, E1; try discriminate. destruct ars as [|a [|? ?]]; simpl in L2, E2; try discriminate. inversion E1; inversion E2; subst z a.
  unfold alltens in Pt. simpl in Pt. rewrite app_nil_r in Pt.
  assert (Hh : forall x, (exists t, In t (tensors c) /\ has ts t x) <-> exists t, has ts t x).
  { intros x. split; [intros (t & _ & Ht); eauto|]. intros (t & Ht). exists t. split; auto. apply (Permutation_in _ (Permutation_sym Pt)). apply in_seq. pose proof (has_lt (ts := ts) Ht). lia. }
  exists zs, out', az. split; auto. split; auto. split; auto. split; auto. split; [|split; [|split]]; auto.
  - intros x. rewrite Iz. unfold stays. rewrite Hh. unfold outs, is_output. split.
    + intros [A1 A2]. split; auto. destruct A2 as [A2|[A2|(u & U1 & U2 & _)]]; auto; [destruct output; [auto|destruct A2]|].
      exfalso. apply U2. apply (Permutation_in _ (Permutation_sym Pt)). apply in_seq. lia.
    + intros [A1 A2]. split; auto. destruct output; tauto.
  - intros ks v Nk Ik Hv. rewrite (W3 ks v); auto; [|intros x; rewrite Ik, Hh; tauto]. apply so_ext. intros w _ _. unfold network. apply (prd_perm SR). auto.
Qed.

Theorem contract_path_independent p q ts output arrays dims cs c cs' c' : (forall xs, In xs ts -> NoDup xs) ->
  Forall (@well_shaped K) arrays -> dims_fit ts (Some arrays) dims -> output_fits ts output -> performs (length ts) p cs [c] -> performs (length ts) q cs' [c'] ->
  exists dim zs out az zs' out' az', shaped dim arrays ts /\
    contract A arr p ts output (Some arrays) dims = Ok ([zs], out, Some [az]) /\ contract A arr q ts output (Some arrays) dims = Ok ([zs'], out', Some [az']) /\
    (forall x, In x out <-> In x out') /\ Permutation zs zs' /\ forall v, in_range dim zs v -> entry_at A az zs v = entry_at A az' zs' v.
Proof.
  intros HN HW D O P Q. destruct (pick_dim ts (Some arrays) dims) as (dim & Hdim). pose proof (Hdim arrays eq_refl D) as HS.
  destruct (contract_complete HN HW HS D O P) as (zs & out & az & E1 & A1 & A2 & A3 & A4 & A5 & A6 & A7).
  destruct (contract_complete HN HW HS D O Q) as (zs' & out' & az' & E1' & B1 & B2 & B3 & B4 & B5 & B6 & B7).
  exists dim, zs, out, az, zs', out', az'. split; auto. split; auto. split; auto. split; [intros x; rewrite A2, B2; tauto|].
  assert (Pz : Permutation zs zs') by (apply NoDup_Permutation; auto; intros x; rewrite A4, B4; tauto). split; auto.
  intros v Hv. set (ks := filter (fun x => negb (memb x zs)) (unique (concat ts))).
  assert (Ik : forall x, In x ks <-> (exists t, has ts t x) /\ ~ In x zs). { intros x. unfold ks. rewrite filter_In, unique_in, in_concat_has, negb_true_iff, memb_nIn. tauto. }
  assert (Nk : NoDup ks) by (apply NoDup_filter', unique_nodup).
  rewrite (A7 ks v), (B7 ks v); auto.
  - intros x. rewrite Ik. split; intros [H1 H2]; split; auto; intros H3; apply H2; [apply (Permutation_in _ (Permutation_sym Pz))|apply (Permutation_in _ Pz)]; auto.
  - intros x Hx. apply Hv. apply (Permutation_in _ (Permutation_sym Pz)). auto.
Qed.
End Thm.
