(** Contracting the slices. *)
From Coq Require Import List Arith ZArith NArith Bool Lia Permutation.
Import ListNotations.
From Verif Require Import P_Base P_Opt P_PyMain.
From Verif Require Import M_Base M_Path M_PyTree M_OSet M_Tensor M_Contract S_Path S_Random S_Network S_PyTree S_Fuse S_Tensor S_Contract S_Slice.
From Verif Require Import P_Path P_Split P_PathMain P_PyBuild P_PyTens P_RandColor P_RandLoop P_RandComp P_RandMain P_Forest P_Fuse P_OSet P_Sum P_Array P_Tensordot P_Contract P_ContractMain P_ContractThm.
Set Implicit Arguments.
Unset Strict Implicit.
Local Open Scope nat_scope.

Lemma in_unsliced S xs x : In x (unsliced S xs) <-> In x xs /\ ~ In x S.
Proof. unfold unsliced. rewrite filter_In, negb_true_iff, memb_nIn. tauto. Qed.
Lemma has_unsliced S ts t x : has (map (unsliced S) ts) t x <-> has ts t x /\ ~ In x S.
Proof.
  unfold has. split.
  - intros (ys & E & I). rewrite nth_error_map in E. destruct (nth_error ts t) as [xs|]; [|discriminate]. simpl in E. inversion E; subst. apply in_unsliced in I. destruct I. eauto.
  - intros [(xs & E & I) N]. exists (unsliced S xs). rewrite nth_error_map, E. split; auto. apply in_unsliced. auto.
Qed.
Lemma lonely_unsliced S ts x : lonely (map (unsliced S) ts) x <-> lonely ts x /\ ~ In x S.
Proof.
  split.
  - intros (t & H). assert (Hx : has ts t x /\ ~ In x S) by (apply has_unsliced, H; auto). split; [|tauto]. exists t. intros u. rewrite <- (H u), has_unsliced. tauto.
  - intros [(t & H) N]. exists t. intros u. rewrite has_unsliced, H. tauto.
Qed.
Lemma stays_unsliced S ts o l x : stays (map (unsliced S) ts) (unsliced S o) l x <-> stays ts o l x /\ ~ In x S.
Proof.
  unfold stays. rewrite map_length, in_unsliced, lonely_unsliced. split.
  - intros [(t & H1 & H2) H3]. apply has_unsliced in H2. destruct H2 as [H2 N]. split; auto. split; [eauto|]. destruct H3 as [H3|[H3|(u & U1 & U2 & U3)]]; try tauto.
    right. right. exists u. apply has_unsliced in U3. tauto.
  - intros [[(t & H1 & H2) H3] N]. split; [exists t; rewrite has_unsliced; auto|]. destruct H3 as [H3|[H3|(u & U1 & U2 & U3)]]; try tauto.
    right. right. exists u. rewrite has_unsliced. auto.
Qed.
Lemma three_unsliced S ts x : in_three (map (unsliced S) ts) x -> in_three ts x.
Proof. intros (a & b & c & N & H1 & H2 & H3). apply has_unsliced in H1, H2, H3. exists a, b, c. tauto. Qed.

(** There is a slice for every array. *)
Lemma slice_exists (K : Type) (A : alg K) dim S w xs (a : nda K) : NoDup xs -> exists b, slice_of A dim S w xs a b.
Proof.
  intros HN. set (ys := unsliced S xs). exists (mkA (map dim ys) (map (fun ix => entry A a (map (fun x => if memb x S then w x else nth (position ys x) ix 0) xs)) (indices (map dim ys)))).
  split; [apply well_map|]. split; auto. intros v Hv Hw. fold ys in Hv |- *. unfold entry_at. rewrite entry_map by (apply valid_dims; auto). f_equal. apply map_ext_in. intros x Hx.
  destruct (memb x S) eqn:M; [apply memb_In in M; symmetry; auto|]. apply memb_nIn in M. assert (Iy : In x ys) by (apply in_unsliced; auto).
  destruct (position_in Iy) as [P1 P2]. apply nth_error_nth with (d := 0). rewrite nth_error_map, P1. auto.
Qed.
Lemma slices_exist (K : Type) (A : alg K) dim S w ts : forall (arrays : list (nda K)), (forall xs, In xs ts -> NoDup xs) -> length arrays = length ts -> exists bs, slices_of A dim S w ts arrays bs.
Proof.
  induction ts as [|xs ts IH]; intros [|a arrays] HN L; simpl in L; try discriminate.
  - exists []. split; auto. split; auto. intros [|t]; discriminate.
  - destruct (IH arrays) as (bs & B1 & B2 & B3); [intros; apply HN; simpl; auto|lia|]. destruct (@slice_exists K A dim S w xs a) as (b & Hb); [apply HN; simpl; auto|].
    exists (b :: bs). split; simpl; auto. split; [simpl; auto|]. intros [|t] ys a' b' E1 E2 E3; simpl in *; [inversion E1; inversion E2; inversion E3; subst; auto|eauto].
Qed.

Lemma nth_forall2 (A B : Type) (P : A -> B -> Prop) l : forall k, length l = length k -> (forall i a b, nth_error l i = Some a -> nth_error k i = Some b -> P a b) -> Forall2 P l k.
Proof.
  induction l as [|a l IH]; intros [|b k] L H; simpl in L; try discriminate; constructor; [apply (H 0); auto|]. apply IH; auto. intros i. apply (H (Datatypes.S i)).
Qed.
Lemma nth_some (A : Type) (l : list A) i : i < length l -> exists a, nth_error l i = Some a.
Proof. intros H. destruct (nth_error l i) eqn:E; eauto. apply nth_error_None in E. lia. Qed.

Section Slice.
Variable K : Type.
Variable A : alg K.
Hypothesis SR : semiring A.
Variable arr : list nat -> list nat.
Hypothesis Harr : forall l, Permutation (arr l) l.
Variable dim : nat -> nat.
Variable sl : list nat.
Variable ts : list (list nat).
Hypothesis HN : forall xs, In xs ts -> NoDup xs.
Variable arrays : list (nda K).
Hypothesis HW : Forall (@well_shaped K) arrays.
Hypothesis HS : shaped dim arrays ts.

Lemma sliced_shape w bs : slices_of A dim sl w ts arrays bs -> Forall (@well_shaped K) bs /\ shaped dim bs (map (unsliced sl) ts).
Proof.
  intros (L1 & L2 & H). split.
  - apply Forall_forall. intros b Hb. apply In_nth_error in Hb. destruct Hb as (i & Eb). assert (Li : i < length bs) by (apply nth_error_Some; congruence).
    destruct (nth_some (l := ts) (i := i)) as (xs & Ex); [lia|]. destruct (nth_some (l := arrays) (i := i)) as (a & Ea); [lia|]. apply (H i xs a b); auto.
  - unfold shaped. apply nth_forall2; [rewrite map_length; auto|]. intros i b ys Eb Ey. rewrite nth_error_map in Ey. destruct (nth_error ts i) as [xs|] eqn:Ex; [|discriminate]. simpl in Ey. inversion Ey; subst.
    assert (Li : i < length bs) by (apply nth_error_Some; congruence). destruct (nth_some (l := arrays) (i := i)) as (a & Ea); [lia|]. apply (H i xs a b); auto.
Qed.
Lemma sliced_product w bs l v : slices_of A dim sl w ts arrays bs -> (forall x t, In t l -> has ts t x -> ~ In x sl -> v x < dim x) -> (forall x, In x sl -> v x = w x) ->
  product A bs (map (unsliced sl) ts) l v = product A arrays ts l v.
Proof.
  intros (L1 & L2 & H) Hr Hv. unfold product. f_equal. apply map_ext_in. intros t Ht. destruct (Nat.lt_ge_cases t (length ts)) as [Lt|Lt].
  - destruct (nth_some Lt) as (xs & Ex). destruct (nth_some (l := arrays) (i := t)) as (a & Ea); [lia|]. destruct (nth_some (l := bs) (i := t)) as (b & Eb); [lia|].
    assert (Ey : nth_error (map (unsliced sl) ts) t = Some (unsliced sl xs)) by (rewrite nth_error_map, Ex; auto).
    rewrite (nth_error_nth _ _ _ Ex), (nth_error_nth _ _ _ Ea), (nth_error_nth _ _ _ Eb), (nth_error_nth _ _ _ Ey). apply (H t xs a b); auto.
    intros x Hx. apply in_unsliced in Hx. destruct Hx as [Hx Nx]. apply (Hr x t); auto. exists xs. auto.
  - rewrite !nth_overflow by (rewrite ?map_length; lia). auto.
Qed.

Theorem slicing_exact p output dims ts' out' ar' : contract A arr p ts output (Some arrays) dims = Ok (ts', out', ar') ->
  exists ars cs rest ss' sout' (res : (nat -> nat) -> list (nda K) -> list (nda K)), ar' = Some ars /\ performs (length ts) p cs rest /\
    (forall w bs, slices_of A dim sl w ts arrays bs ->
       contract A arr p (map (unsliced sl) ts) (option_map (unsliced sl) output) (Some bs) None = Ok (ss', sout', Some (res w bs))) /\
    (forall x, In x sout' <-> In x out' /\ ~ In x sl) /\
    length ts' = length rest /\ length ss' = length rest /\ length ars = length rest /\
    forall i c, nth_error rest i = Some c -> exists zs az zs', nth_error ts' i = Some zs /\ nth_error ars i = Some az /\ nth_error ss' i = Some zs' /\
      NoDup zs' /\ (forall x, In x zs' <-> In x zs /\ ~ In x sl) /\
      forall (bs : (nat -> nat) -> list (nda K)) ks v, (forall w, slices_of A dim sl w ts arrays (bs w)) -> NoDup ks ->
        (forall x, In x ks <-> In x sl /\ (exists t, In t (tensors c) /\ has ts t x) /\ ~ In x zs) -> in_range dim zs v ->
        entry_at A az zs v = sum_over A dim ks (fun w => entry_at A (nth i (res w (bs w)) (mkA [] [])) zs' w) v.
Proof.
  intros H. set (ts2 := map (unsliced sl) ts). set (o2 := option_map (unsliced sl) output).
  assert (HN2 : forall xs, In xs ts2 -> NoDup xs). { intros xs Hx. apply in_map_iff in Hx. destruct Hx as (ys & <- & Hy). apply NoDup_filter'. auto. }
  assert (Acc : dims_fit ts (Some arrays) dims /\ output_fits ts output /\ exists cs rest, performs (length ts) p cs rest).
  { apply (contract_accepts SR Harr); eauto. intros l E. inversion E; subst. auto. }
  destruct Acc as (D & O & _).
  destruct (contract_result SR Harr HN HW HS H) as (cs & rest & ars & P & Ea & L1 & L2 & No & Io & Pt & R).
  assert (P2 : performs (length ts2) p cs rest) by (unfold ts2; rewrite map_length; auto).
  assert (O2 : output_fits ts2 o2).
  { unfold o2, output_fits. destruct output as [o|]; simpl in *.
    - intros x Hx. apply in_unsliced in Hx. destruct Hx as [Hx Nx]. destruct (O x Hx) as (t & Ht). exists t. apply has_unsliced. auto.
    - intros x Hx. apply (O x). apply (three_unsliced Hx). }
  assert (C2 : forall w bs, slices_of A dim sl w ts arrays bs -> exists t2 u2 r2, contract A arr p ts2 o2 (Some bs) None = Ok (t2, u2, Some r2)).
  { intros w bs Hs. destruct (sliced_shape Hs) as [W2 S2]. assert (E : exists r, contract A arr p ts2 o2 (Some bs) None = Ok r).
    { apply (contract_accepts SR Harr); auto; [intros l E; inversion E; subst; auto|]. split; [exists dim; auto|]. split; eauto. }
    destruct E as (((t2, u2), r2) & E). destruct (contract_result SR Harr HN2 W2 S2 E) as (_ & _ & r3 & _ & -> & _). eauto. }
  assert (Ar : length arrays = length ts) by apply (forall2_len HS).
  destruct (slices_exist A dim sl (fun _ => 0) HN Ar) as (bs0 & Hs0). destruct (C2 _ _ Hs0) as (ss' & sout' & r0 & E0).
  assert (Hall : forall t x, has ts2 t x -> exists k, dim_is (PyInt 1%N) x k) by (intros; exists 1%N; simpl; auto).
  pose proof (contract_inds_only E0 Hall) as I0.
  set (res := fun (w : nat -> nat) bs => match contract A arr p ts2 o2 (Some bs) None with Ok (_, _, Some r) => r | _ => [] end).
  assert (C3 : forall w bs, slices_of A dim sl w ts arrays bs -> contract A arr p ts2 o2 (Some bs) None = Ok (ss', sout', Some (res w bs))).
  { intros w bs Hs. destruct (C2 w bs Hs) as (t2 & u2 & r2 & E). unfold res. rewrite E. pose proof (contract_inds_only E Hall) as I2. rewrite I0 in I2. inversion I2. auto. }
  exists ars, cs, rest, ss', sout', res. split; auto. split; auto. split; [exact C3|].
  destruct (sliced_shape Hs0) as [W0 S0]. destruct (contract_result SR Harr HN2 W0 S0 E0) as (cs0 & rest0 & ars0 & P0 & _ & M1 & M2 & No0 & Io0 & _ & R0).
  assert (Er : rest0 = rest) by (unfold performs in *; congruence). subst rest0.
  split. { intros x. rewrite Io0, Io. unfold o2, ts2, is_output. destruct output as [o|]; simpl; [apply in_unsliced|apply lonely_unsliced]. }
  split; auto. split; auto. split; auto. intros i c Hc. destruct (R i c Hc) as (zs & az & Z1 & Z2 & Nz & Iz & Wz & Sz & Vz). destruct (R0 i c Hc) as (zs' & az0 & Z1' & _ & Nz' & Iz' & _).
  assert (Izz : forall x, In x zs' <-> In x zs /\ ~ In x sl).
  { intros x. rewrite Iz', Iz. unfold ts2, o2. replace (outs (option_map (unsliced sl) output)) with (unsliced sl (outs output)) by (destruct output; auto). apply stays_unsliced. }
  exists zs, az, zs'. split; auto. split; auto. split; auto. split; auto. split; auto.
  intros bs ks v Hbs Nk Ik Hv.
  set (ks' := filter (fun x => negb (memb x zs) && negb (memb x sl)) (unique (inds ts (tensors c)))).
  assert (Ik' : forall x, In x ks' <-> (exists t, In t (tensors c) /\ has ts t x) /\ ~ In x zs /\ ~ In x sl).
  { intros x. unfold ks'. rewrite filter_In, unique_in, (in_inds dim), andb_true_iff, !negb_true_iff, !memb_nIn. tauto. }
  assert (Nk' : NoDup ks') by (apply NoDup_filter', unique_nodup).
  transitivity (sum_over A dim (ks ++ ks') (product A arrays ts (tensors c)) v).
  - apply Vz; auto.
    + apply NoDup_app. split; auto. split; auto. intros x Hx. rewrite Ik'. apply Ik in Hx. tauto.
    + intros x. rewrite in_app_iff, Ik, Ik'. destruct (in_dec Nat.eq_dec x sl); tauto.
  - rewrite so_app. apply so_ext. intros w W1 W2. pose proof (C3 w (bs w) (Hbs w)) as Ew. destruct (sliced_shape (Hbs w)) as [Ww Sw].
    destruct (contract_result SR Harr HN2 Ww Sw Ew) as (cs1 & rest1 & ars1 & P1 & Ers & _ & _ & _ & _ & _ & R1). assert (Er : rest1 = rest) by (unfold performs in *; congruence). subst rest1.
    inversion Ers; subst ars1. destruct (R1 i c Hc) as (zs1 & az1 & Y1 & Y2 & _ & _ & _ & _ & Y3). rewrite Z1' in Y1. inversion Y1; subst zs1.
    rewrite (nth_error_nth _ _ _ Y2). rewrite (Y3 ks' w); auto.
    + apply so_ext. intros u U1 U2. symmetry. apply (@sliced_product w); auto.
      * intros x t Ht Hx Nx. destruct (in_dec Nat.eq_dec x ks') as [I|I]; [apply U2; auto|]. rewrite U1 by auto. rewrite W1 by (rewrite Ik; tauto). apply Hv.
        rewrite Ik' in I. destruct (in_dec Nat.eq_dec x zs) as [J|J]; auto. exfalso. apply I. split; [eauto|auto].
      * intros x Hx. apply U1. rewrite Ik'. tauto.
    + intros x. rewrite Ik', Izz. unfold ts2.
      assert (J : (exists t, In t (tensors c) /\ has (map (unsliced sl) ts) t x) <-> (exists t, In t (tensors c) /\ has ts t x) /\ ~ In x sl).
      { split; [intros (t & T1 & T2); apply has_unsliced in T2; split; [exists t|]; tauto|]. intros ((t & T1 & T2) & N). exists t. rewrite has_unsliced. auto. }
      rewrite J. tauto.
    + intros x Hx. apply Izz in Hx. rewrite W1; [apply Hv; tauto|]. rewrite Ik. tauto.
Qed.
End Slice.
