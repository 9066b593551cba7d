(** load_tn for a TensorNetwork keeps the tensor that the network stands for. *)
From Coq Require Import List Arith NArith ZArith Lia Permutation Bool.
Import ListNotations.
From Verif Require Import P_Base P_Opt P_PyMain.
From Verif Require Import M_Base M_Path M_PyTree M_OSet M_Random M_Fuse M_Tensor M_Contract M_Decompose M_TnApp M_LoadTn.
From Verif Require Import S_Path S_PyTree S_Random S_Network S_Fuse S_Tensor S_Contract S_Decompose S_TnApp S_LoadTn.
From Verif Require Import P_Path P_Split P_PathMain P_PyBuild P_PyTens P_OSet P_Fuse P_Sum P_Contract P_ContractMain P_ContractThm P_DecomposeNet P_DecomposeSum P_Keeps P_TnApp P_LoadTn.
From Verif Require Import M_Path M_PyTree.
Set Implicit Arguments.
Unset Strict Implicit.
Local Open Scope nat_scope.
Local Notation has := S_Random.has.

Lemma provided_some (K : Type) (l : list (nda K)) : provided (map Some l) = l.
Proof. unfold provided. induction l as [|a l IH]; cbn [map flat_map]; auto. rewrite IH. auto. Qed.
Lemma provided_none (K X : Type) (l : list X) : @provided K (map (fun _ => None) l) = [].
Proof. induction l; auto. Qed.

Lemma network_depends (K : Type) (A : alg K) (ar : list (nda K)) us : depends_on (concat us) (network A ar us).
Proof.
  intros v w H. unfold network, product. f_equal. apply map_ext_in. intros t Ht. unfold entry_at. f_equal. apply map_ext_in. intros x Hx. apply H. apply in_concat. exists (nth t us []). split; auto. apply nth_In. apply in_seq in Ht. lia.
Qed.

Section Main.
Variable K : Type.
Variable A : alg K.
Hypothesis SR : semiring A.
Variable eqb : K -> K -> bool.
Hypothesis EQ : forall x y, eqb x y = true <-> x = y.
Variable R : Type.
Variable g : prng R.
Hypothesis Hg : prng_ok g.
Variable lg : N -> Z.
Variable arr : list nat -> list nat.
Hypothesis Harr : forall l, Permutation (arr l) l.

Lemma shaped_nth dim (l : list (nda K)) ts : shaped dim l ts -> Forall (@well_shaped K) l ->
  forall i xs a, nth_error ts i = Some xs -> nth_error (map Some l) i = Some (Some a) -> shape a = map dim xs /\ well_shaped a.
Proof.
  unfold shaped. intros S. induction S as [|a xs l ts Ha S IH]; intros W [|i] xs' a' H1 H2; cbn in *; try discriminate; inversion W; subst; [inversion H1; inversion H2; subst; auto|eauto].
Qed.
Lemma arrays_shaped n l : facts n -> arrays_are n l -> shaped (size n) l (inds_of n) /\ Forall (@well_shaped K) l.
Proof.
  intros F H. unfold arrays_are, shaped, inds_of in *. pose proof (f_array F) as FA. revert l H. generalize (size n) FA. clear. intros dim FA. induction (n_list n) as [|t ts IH]; intros [|a l] H; try discriminate; cbn [map] in *; [split; constructor|].
  inversion H. destruct (FA t a (or_introl eq_refl)) as [S W]; auto. destruct (IH (fun t' a' Ht => FA t' a' (or_intror Ht)) l) as [I1 I2]; auto.
Qed.

(** Fusing. *)
Lemma py_dims_is n x : facts n -> In x (concat (inds_of (K := K) n)) -> dim_is (py_dims (n_dims n)) x (N.of_nat (size n x)).
Proof.
  intros F Hx. pose proof (proj2 (f_get F x _) (conj Hx eq_refl)) as E. unfold py_dims. cbn [dim_is]. revert E. induction (n_dims n) as [|[k d] l IH]; cbn [map dict_get fst snd]; [discriminate|].
  destruct (_ =? _); auto. intros E. inversion E. subst. f_equal. lia.
Qed.
Lemma fuse_succeeds n ts out w r : facts n -> (forall xs, In xs ts -> NoDup xs) -> (forall x, In x (concat ts) -> In x (concat (inds_of (K := K) n))) -> (forall x, In x out -> In x (concat ts)) ->
  exists p fs cs rest, fuse g lg ts (py_dims (n_dims n)) w (Some out) [] r = Ok (p, fs) /\ performs (length ts) p cs rest.
Proof.
  intros F N I O. destruct (@fuse_accepts R g lg ts (py_dims (n_dims n)) w (Some out) [] r Hg N) as (p & fs & cs & rest & E & P & _); [|exists p, fs, cs, rest; auto].
  intros [(x & [] & _)|[(x & H1 & H)|[(H & _)|(o & H & x & Hx & H')]]]; [|discriminate|].
  - apply (H (N.of_nat (size n x))). apply py_dims_is; auto. apply I, has_concat. auto.
  - inversion H; subst o. apply O, has_concat in Hx. destruct Hx as (t & Ht). apply (H' t Ht).
Qed.

Lemma tags_length p : forall us l cs rest l', perform us p = Some (cs, rest) -> length l = length us -> fuse_tags p l = Ok l' -> length l' = length rest.
Proof.
  intros us l cs rest l' H L E. destruct (@fuse_tags_ok (fun _ _ => True)) with (p := p) (us := us) (l := l) (cs := cs) (rest := rest) as (l2 & E2 & F); auto.
  { clear H E. revert l L. induction us as [|u us IH]; intros [|a l] L; try discriminate; constructor; auto. }
  rewrite E in E2. inversion E2; subst. symmetry. apply (forall2_len F).
Qed.

Section Object.
Variables (o : object K) (l : list (nda K)).
Local Notation n := (o_net o).
Hypothesis HB : built n.
Hypothesis HP : plain n.
Hypothesis HT : length (o_tags o) = length (n_list n).
Hypothesis HA : arrays_are n l.
Let FN : facts n := built_facts HB.
Local Notation dim := (size n).
Local Notation so := (sum_over A dim).
Local Notation ts := (inds_of n).

Lemma lens : length l = length (n_list n).
Proof. pose proof (f_equal (@length _) HA) as E. rewrite !map_length in E. auto. Qed.

(** The state after one of the two steps: [h] says which values of the outputs correspond. *)
Record stage (f : nat -> nat) (ts1 : list (list nat)) (l1 : list (nda K)) (out1 : list nat) : Prop := {
  st_shaped : shaped dim l1 ts1;
  st_well : Forall (@well_shaped K) l1;
  st_nodup : forall xs, In xs ts1 -> NoDup xs;
  st_inds : forall x, In x (concat ts1) -> In x (concat ts);
  st_out : forall x, In x out1 <-> exists y, In y (n_out n) /\ x = f y;
  st_outs : forall x, In x out1 -> In x (concat ts1);
  st_empty : ts1 = [] <-> ts = [];
  st_dim : forall y, In y (n_out n) -> dim (f y) = dim y;
  st_value : forall ks v v', NoDup ks -> (forall x, In x ks <-> In x (concat ts1) /\ ~ In x out1) -> in_range dim (n_out n) v -> (forall y, In y (n_out n) -> v' (f y) = v y) ->
    so ks (network A l1 ts1) v' = value A n l v }.

Lemma sum_value ks v v' : NoDup ks -> (forall x, In x ks <-> In x (concat ts) /\ ~ In x (n_out n)) -> (forall y, In y (n_out n) -> v' y = v y) -> so ks (network A l ts) v' = value A n l v.
Proof.
  intros N I E. unfold value. assert (P : Permutation ks (summed n)) by (apply NoDup_Permutation; auto; [apply nodup_summed|]; intros x; rewrite I, in_summed; tauto).
  rewrite (@so_perm K A SR dim ks (summed n) (network A l ts) (concat ts) (@network_depends K A l ts) P v').
  apply (@so_depends K A dim (summed n) (network A l ts) (concat ts) v' v (@network_depends K A l ts)). intros x Hx Hn. apply E. destruct (in_dec Nat.eq_dec x (n_out n)) as [|Hno]; auto. exfalso. apply Hn. apply in_summed. auto.
Qed.

Lemma stage_none : stage (fun x => x) ts l (n_out n).
Proof.
  destruct (arrays_shaped FN HA) as [S W]. constructor; auto.
  - intros x. split; [eauto|]. intros (y & Hy & ->). auto.
  - intros x Hx. apply (f_out FN). auto.
  - tauto.
  - intros ks v v' N I _ E. apply sum_value; auto.
Qed.

Lemma stage_merge bs us m : decompose_network A eqb l ts = Ok (bs, us, m) -> harmless ts us (sent m) -> exists out, mapM (dict_get m) (n_out n) = Ok out /\ stage (sent m) us bs (unique out) /\
  (forall v y y', in_range dim (n_out n) v -> In y (n_out n) -> In y' (n_out n) -> sent m y = sent m y' -> v y <> v y' -> value A n l v = zero A).
Proof.
  intros E [H1 H2]. destruct (arrays_shaped FN HA) as [S W].
  destruct (@P_DecomposeNet.network_ok K A SR eqb EQ dim l ts S W HP) as [[E' _]|(bs' & us' & m' & E' & Ws & Ss & HU & HM & HR & _)]; [congruence|]. rewrite E in E'. inversion E'; subst bs' us' m'. clear E'.
  assert (G : forall y, In y (n_out n) -> dict_get m y = Ok (sent m y)).
  { intros y Hy. apply (f_out FN), has_concat, HM in Hy. destruct Hy as (z & Hz). unfold sent. rewrite Hz. auto. }
  exists (map (sent m) (n_out n)). split; [apply mapM_get; auto|].
  assert (OI : forall x, In x (unique (map (sent m) (n_out n))) <-> exists y, In y (n_out n) /\ x = sent m y).
  { intros x. rewrite unique_in, in_map_iff. split; intros (y & H3 & H4); exists y; auto. }
  assert (HO : forall y, In y (n_out n) -> exists t, has ts t y) by (intros y Hy; apply has_concat, (f_out FN); auto).
  assert (SUM : forall ks v, NoDup ks -> (forall x, In x ks <-> In x (concat us) /\ ~ In x (unique (map (sent m) (n_out n)))) -> in_range dim (n_out n) v ->
    (forall v', (forall y, In y (n_out n) -> v' (sent m y) = v y) -> so (summed n) (network A l ts) v = so ks (network A bs us) v') /\
    (forall y y', In y (n_out n) -> In y' (n_out n) -> sent m y = sent m y' -> v y <> v y' -> so (summed n) (network A l ts) v = zero A)).
  { intros ks v Nk Ik Hv. apply (@network_sum K A eqb dim l ts bs us m (n_out n) (summed n) ks v SR EQ S W HP E); auto.
    - apply nodup_summed.
    - intros x. rewrite in_summed, <- has_concat. tauto.
    - intros x. rewrite Ik, OI, <- has_concat. split.
      + intros [(t & Ht) Hn]. split; [destruct (HU t x Ht) as (y & Hy); eauto|]. intros y Hy Ex. apply Hn. eauto.
      + intros [(t & y & Hy & ->) Hn]. split; [apply (H1 t y Hy)|]. intros (y' & Hy' & Ex). apply (Hn y' Hy' Ex). }
  split.
  - constructor; auto.
    + intros x Hx. apply has_concat in Hx. destruct Hx as (t & Ht). destruct (HU t x Ht) as (y & Hy & ->). destruct (HR t y Hy) as (Hh & _). apply has_concat. auto.
    + intros x Hx. apply OI in Hx. destruct Hx as (y & Hy & ->). apply has_concat. destruct (HO y Hy) as (t & Ht). apply (H1 t y Ht).
    + pose proof (forall2_len S) as L0. pose proof (forall2_len Ss) as L1. pose proof E as E2. unfold decompose_network in E2. apply bind_ok in E2. destruct E2 as ([[b2 u2] h] & E2 & E3).
      assert (L2 : forall (ar : list (nda K)) us0 b2 u2 h, decompose_all A eqb ar us0 = Ok (b2, u2, h) -> length ar = length us0 -> length b2 = length us0).
      { clear. induction ar as [|a ar IH]; intros [|xs us0] b2 u2 h H L; try discriminate; cbn [decompose_all] in H; [inversion H; auto|].
        apply bind_ok in H. destruct H as ([[b ys] h1] & _ & H). apply bind_ok in H. destruct H as ([[bs1 us1] h2] & E & H). inversion H; subst. cbn [length] in *. f_equal. eapply IH; eauto. }
      specialize (L2 _ _ _ _ _ E2 L0). apply bind_ok in E3. destruct E3 as ([st c2i] & _ & E3). apply bind_ok in E3. destruct E3 as (ms & _ & E3). apply bind_ok in E3. destruct E3 as (vs & _ & E3). inversion E3; subst.
      split; intros E5; apply length_zero_iff_nil; rewrite <- length_zero_iff_nil in E5; lia.
    + intros y Hy. destruct (HO y Hy) as (t & Ht). apply (HR t y Ht).
    + intros ks v v' Nk Ik Hv E'. destruct (SUM ks v Nk Ik Hv) as [E1 _]. symmetry. unfold value. apply E1. auto.
  - intros v y y' Hv H3 H4 H5 H6. set (ks := filter (fun x => negb (memb x (unique (map (sent m) (n_out n))))) (unique (concat us))).
    assert (Nk : NoDup ks) by (apply NoDup_filter, unique_nodup).
    assert (Ik : forall x, In x ks <-> In x (concat us) /\ ~ In x (unique (map (sent m) (n_out n)))) by (intros x; unfold ks; rewrite filter_In, unique_in, negb_true_iff, memb_nIn; tauto).
    destruct (SUM ks v Nk Ik Hv) as [_ E1]. unfold value. apply (E1 y y'); auto.
Qed.

Lemma stage_fuse f ts1 l1 out1 p cs rest : stage f ts1 l1 out1 -> performs (length ts1) p cs rest ->
  exists ts2 out2 l2, contract A arr p ts1 (Some out1) (Some l1) (Some (py_dims (n_dims n))) = Ok (ts2, out2, Some l2) /\ stage f ts2 l2 out2 /\ length ts2 = length rest /\ length l2 = length rest.
Proof.
  intros [S W N I O O1 Em D V] P.
  assert (Acc : exists z, contract A arr p ts1 (Some out1) (Some l1) (Some (py_dims (n_dims n))) = Ok z).
  { apply (contract_accepts SR Harr); auto; [intros k E3; inversion E3; subst; auto|]. split; [|split; [intros x Hx; apply has_concat; auto|eauto]].
    exists dim. split; auto. intros t x Hx. apply py_dims_is; auto. apply I, has_concat. eauto. }
  destruct Acc as (((ts2, out2), ar2) & E). destruct (contract_keeps_value SR Harr N W S E) as (l2 & -> & S2 & W2 & N2 & No2 & Io2 & I2 & O2 & _ & V2).
  destruct (contract_result SR Harr N W S E) as (cs' & rest' & ars & P' & Ea & L1 & L2 & _). inversion Ea; subst ars. clear Ea. assert (Er : rest' = rest) by (unfold performs in *; congruence). subst rest'.
  exists ts2, out2, l2. split; auto. split; [|auto]. constructor; auto.
  - intros x. rewrite Io2. auto.
  - intros x Hx. apply Io2 in Hx. apply O2; auto.
  - rewrite <- Em. split; intros Z.
    + subst ts2. destruct rest; [|discriminate]. destruct ts1 as [|x ts0]; auto. exfalso.
      destruct (contract_result SR Harr N W S E) as (c2 & r & a2 & P2 & _ & _ & _ & _ & _ & PM & _). assert (r = []) by (unfold performs in *; congruence). subst r. cbn in PM. apply Permutation_length in PM. discriminate.
    + subst ts1. cbn [length] in P. unfold performs in P. cbn in P. destruct p as [|[a b] p]; [inversion P; subst; destruct ts2; auto; discriminate|].
      cbn [perform] in P. destruct (a =? b); [discriminate|]. destruct a; discriminate.
  - intros ks v v' Nk Ik Hv E'. set (ks1 := filter (fun x => negb (memb x out1)) (unique (concat ts1))).
    assert (Nk1 : NoDup ks1) by (apply NoDup_filter, unique_nodup).
    assert (Ik1 : forall x, In x ks1 <-> In x (concat ts1) /\ ~ In x out1) by (intros x; unfold ks1; rewrite filter_In, unique_in, negb_true_iff, memb_nIn; tauto).
    rewrite <- (V ks1 v v'); auto. apply V2; auto; [intros x; rewrite Ik, Io2; tauto|]. intros x Hx. apply O in Hx. destruct Hx as (y & Hy & ->). rewrite D, E' by auto. apply Hv. auto.
Qed.
End Object.

Lemma nil_length (X : Type) (l : list X) : (length l =? 0) = true <-> l = [].
Proof. destruct l; cbn; split; congruence. Qed.

Lemma inds_length n : length (inds_of n) = length (n_list (K := K) n).
Proof. apply map_length. Qed.

Lemma finish o l f ts2 l2 out2 tags2 hyper fp : built (o_net o) -> stage o l f ts2 l2 out2 -> length tags2 = length ts2 -> (n_sparse (o_net o) <> [] -> ts2 = inds_of (o_net o)) ->
  (forall v y y', in_range (size (o_net o)) (n_out (o_net o)) v -> In y (n_out (o_net o)) -> In y' (n_out (o_net o)) -> f y = f y' -> v y <> v y' -> value A (o_net o) l v = zero A) ->
  exists n', (let! (Ts, gs) := remake (n_dims (o_net o)) ts2 (map Some l2) tags2 in let! n' := make_network Ts (Some out2) (Some (n_sparse (o_net o))) in Ok (mkO n' gs hyper fp)) = Ok (mkO n' (map default_tag tags2) hyper fp) /\
    loaded A o (mkO n' (map default_tag tags2) hyper fp) l l2 f.
Proof.
  intros HB St L Hs Z. pose proof (built_facts HB) as FN. destruct St as [S W N I O O1 Em D V].
  pose proof (forall2_len S) as LS.
  destruct (@rebuild K (o_net o) ts2 (map Some l2) tags2 out2 hyper fp FN) as (n' & E & B & EI & EA & EO & ES & EZ); auto.
  { rewrite map_length. lia. } { intros i xs a H1 H2. exact (shaped_nth S W H1 H2). }
  { intros x Hx. rewrite Hs; [apply (f_sparse FN); auto|]. intros X. rewrite X in Hx. destruct Hx. }
  exists n'. split; auto. assert (AE : arrays_are n' l2) by (unfold arrays_are; rewrite EA; apply firstn_all2; rewrite map_length; lia).
  constructor; cbn [o_net o_tags]; auto.
  - unfold plain. rewrite EI. auto.
  - rewrite map_length, L, <- EI. apply inds_length.
  - intros x. rewrite EO. auto.
  - intros x Hx. rewrite EI in Hx. auto.
  - intros y Hy. rewrite EZ; [apply D; auto|]. apply O1, O. eauto.
  - intros Ns. rewrite EI. auto.
  - rewrite <- !length_zero_iff_nil, <- !inds_length, !length_zero_iff_nil, EI. auto.
  - intros v v' Hv E'. rewrite <- (V (summed n') v v'); auto; [|apply nodup_summed|].
    + unfold value. rewrite EI. apply sum_dim. intros x Hx. apply in_summed in Hx. rewrite EI in Hx. apply EZ. tauto.
    + intros x. rewrite in_summed, EI, EO. tauto.
Qed.

Theorem load_ok o l dec f width r : built (o_net o) -> plain (o_net o) -> length (o_tags o) = length (n_list (o_net o)) -> arrays_are (o_net o) l -> merging A eqb dec o f ->
  (forall w, width = Some w -> (0 < w)%Z -> n_sparse (o_net o) = [] -> o_path o = None) ->
  exists o' l', load_tn A eqb g lg arr o dec width r = Ok o' /\ loaded A o o' l l' f.
Proof.
  intros HB HP HT HA M HW. pose proof (built_facts HB) as FN. pose proof (lens HA) as LL.
  unfold load_tn. fold (inds_of (o_net o)). unfold arrays_are in HA. rewrite HA, provided_some, map_length. fold (arrays_are (o_net o) l) in HA.
  set (sp := negb (length (n_sparse (o_net o)) =? 0)).
  assert (SP : sp = false <-> n_sparse (o_net o) = []). { unfold sp. rewrite negb_false_iff. apply nil_length. }
  rewrite Nat.ltb_irrefl, Nat.eqb_refl, orb_true_r. cbn [negb]. rewrite andb_true_r, orb_false_r.
  (* the first step *)
  assert (ST1 : exists ts1 l1 out1 tags1 hyper1,
    (if dec && negb sp then
       let! (d, m) := decompose_network A eqb l (inds_of (o_net o)) in let! out := mapM (dict_get m) (n_out (o_net o)) in
       match o_hyper o with Some _ => Err Throw | None => Ok (map Some (fst d), snd d, unique out, map (fun _ => None) (fst d), Some m) end
     else Ok (map Some l, inds_of (o_net o), n_out (o_net o), map Some (o_tags o), o_hyper o)) = Ok (map Some l1, ts1, out1, tags1, hyper1) /\
    stage o l f ts1 l1 out1 /\ length tags1 = length ts1 /\ (sp = true -> ts1 = inds_of (o_net o)) /\
    (forall v y y', in_range (size (o_net o)) (n_out (o_net o)) v -> In y (n_out (o_net o)) -> In y' (n_out (o_net o)) -> f y = f y' -> v y <> v y' -> value A (o_net o) l v = zero A)).
  { destruct M as [Hd|l0 bs us m Hd Hsp Hh HA0 E Hm].
    - replace (dec && negb sp) with false. 2:{ destruct Hd as [->|Hd]; auto. destruct sp; [rewrite andb_false_r; auto|]. exfalso. apply Hd, SP. auto. }
      exists (inds_of (o_net o)), l, (n_out (o_net o)), (map Some (o_tags o)), (o_hyper o). split; auto. split; [apply stage_none; auto|]. split; [rewrite map_length, inds_length; auto|]. split; auto. intros v y y' _ _ _ -> H. congruence.
    - assert (l0 = l). { unfold arrays_are in *. rewrite HA in HA0. clear -HA0. revert l0 HA0. induction l as [|a l IH]; intros [|b k] H; try discriminate; auto. inversion H. f_equal; auto. } subst l0.
      apply SP in Hsp. rewrite Hd, Hsp. cbn [andb negb]. destruct (stage_merge HB HP HT HA E Hm) as (out & Eo & St & Z). rewrite E. cbn [bind]. rewrite Eo. cbn [bind fst snd]. rewrite Hh.
      exists us, bs, (unique out), (map (fun _ => None) bs), (Some m). split; auto. split; auto. split; [rewrite map_length; apply (forall2_len (st_shaped St))|]. split; [discriminate|auto]. }
  destruct ST1 as (ts1 & l1 & out1 & tags1 & hyper1 & E1 & St & LT & Sp1 & Z). rewrite E1. cbn [bind]. clear E1.
  assert (NOF : (n_sparse (o_net o) <> [] -> ts1 = inds_of (o_net o)) -> exists o' l', (let! (Ts, gs) := remake (n_dims (o_net o)) ts1 (map Some l1) tags1 in let! n' := make_network Ts (Some out1) (Some (n_sparse (o_net o))) in Ok (mkO n' gs hyper1 (o_path o))) = Ok o' /\ loaded A o o' l l' f).
  { intros Hs. destruct (@finish o l f ts1 l1 out1 tags1 hyper1 (o_path o)) as (n' & E & H); auto. eauto. }
  assert (SPI : forall us, (sp = true -> us = inds_of (o_net o)) -> n_sparse (o_net o) <> [] -> us = inds_of (o_net o)).
  { intros us Hu Hn. apply Hu. destruct sp; auto. exfalso. apply Hn, SP. auto. }
  destruct sp; [cbn [bind]; apply NOF, SPI; auto|]. destruct width as [w|]; [|cbn [bind]; apply NOF, SPI; auto].
  destruct (Z.ltb_spec 0 w) as [Hw|Hw]; [|cbn [bind]; apply NOF, SPI; auto].
  destruct (@fuse_succeeds (o_net o) ts1 out1 w r FN) as (p & fs & cs & rest & Ef & P); [apply St|apply St|apply St|]. rewrite Ef. cbn [bind].
  assert (TG : exists tags2, fuse_tags p tags1 = Ok tags2 /\ length tags2 = length rest).
  { destruct (@fuse_tags_ok (fun _ _ => True)) with (p := p) (us := map T (seq 0 (length ts1))) (l := tags1) (cs := cs) (rest := rest) as (l2 & E2 & F); auto.
    { assert (L : length (map T (seq 0 (length ts1))) = length tags1) by (rewrite map_length, seq_length; auto). revert L. generalize (map T (seq 0 (length ts1))). clear. intros us. revert tags1. induction us as [|u us IH]; intros [|a k] L; try discriminate; constructor; auto. }
    exists l2. split; auto. symmetry. apply (forall2_len F). }
  destruct TG as (tags2 & Et & Lt).
  rewrite (HW w eq_refl Hw (proj1 SP eq_refl)).
  destruct (stage_fuse HB St P) as (ts2 & out2 & l2 & Ec & St2 & L2 & L3).
  assert (FIN : exists o' l', (let! (Ts, gs) := remake (n_dims (o_net o)) ts2 (map Some l2) tags2 in let! n' := make_network Ts (Some out2) (Some (n_sparse (o_net o))) in Ok (mkO n' gs hyper1 (Some p))) = Ok o' /\ loaded A o o' l l' f).
  { destruct (@finish o l f ts2 l2 out2 tags2 hyper1 (Some p)) as (n' & E & H); auto; [congruence|apply SPI; discriminate|]. eauto. }
  destruct (length l =? 0) eqn:L0.
  - (* no tensors *)
    apply nil_length in L0. subst l. assert (T1 : ts1 = []). { apply (st_empty St). apply length_zero_iff_nil. rewrite inds_length. auto. } subst ts1.
    assert (L1 : l1 = []). { apply length_zero_iff_nil. apply (forall2_len (st_shaped St)). } subst l1.
    assert (O1 : out1 = []). { destruct out1 as [|x out1]; auto. destruct (st_outs St (or_introl eq_refl)). } subst out1.
    cbn [length] in P. unfold performs in P. cbn in P. destruct p as [|[a b] p]; [|cbn [perform] in P; destruct (a =? b); [discriminate|destruct a; discriminate]].
    inversion P; subst. destruct ts2; [|discriminate]. destruct l2; [|discriminate]. 
    assert (X : contract A arr [] [] (Some []) None (Some (py_dims (n_dims (o_net o)))) = Ok ([], [], None)) by reflexivity. rewrite X. cbn [bind]. rewrite Et. cbn [bind fst snd].
    assert (Y : out2 = []). { destruct out2 as [|x out2]; auto. destruct (st_outs St2 (or_introl eq_refl)). } subst out2. exact FIN.
  - rewrite provided_some, Ec. cbn [bind]. rewrite Et. cbn [bind fst snd]. exact FIN.
Qed.
End Main.
