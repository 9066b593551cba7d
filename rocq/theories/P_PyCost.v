(** The cost functions of the cost models, by the names of the indices (C73). *)
From Coq Require Import QArith ZArith NArith List Permutation Lia Bool.
From Verif Require Import P_Base P_Opt P_PyMain.
From Verif Require Import M_Base M_Bitset M_Tree M_CTree M_Cost M_Opt M_InfMem M_FinWidth M_Path M_PyTree M_PyNodes M_PyViews M_App
  S_Tree S_Opt S_FinWidth S_PyTree S_Network S_App.
From Verif Require Import P_Bitset P_Path P_Split P_Tree P_Shape P_TreeProps P_TreeValid P_TreeMain P_Cost P_OptCost P_InfMem P_InfMemMain P_InfMemFinal P_FinWidth P_FinWidthOpt P_FinWidthMain P_FinWidthFinal
  P_PyBuild P_PyNodes P_AppNames P_App P_AppMain P_ContractMain.
From Verif Require Import M_Alike S_Alike P_Alike M_PyCost S_PyCost.
Import ListNotations.
Set Implicit Arguments. Unset Strict Implicit.
Local Open Scope nat_scope.
Local Notation core := M_PyTree.core.
Local Notation nodes := M_CTree.nodes.

(** ** Names and positions *)
Lemma bits_ok order xs : incl xs order -> exists b, name_bits order xs = Ok b /\ length b = length order /\ forall i, btest b i = true <-> In i (map (rf order) xs).
Proof.
  intros H. unfold name_bits. rewrite rank_all_ok by auto. cbn [bind].
  destruct (@of_positions_ok (map (rf order) xs) (length order)) as (b & E & L & T); [|eauto].
  intros i Hi. apply in_map_iff in Hi. destruct Hi as (x & <- & Hx). destruct (rf_ok (H x Hx)) as (_ & E). eapply nth_error_lt; eauto.
Qed.
Lemma lists_named order (p : nat -> bool) (Q : nat -> Prop) : (forall x, Q x -> In x order) ->
  (forall i, p i = true <-> exists x, i = rf order x /\ Q x) -> lists (named order p) Q.
Proof.
  intros HQ Hp. split.
  - unfold named. assert (G : forall l, NoDup l -> (forall i, In i l -> p i = true) -> NoDup (map (fun i => nth i order 0) l)).
    { induction l as [|i l IH]; simpl; intros H1 H2; [constructor|]. inversion H1; subst. constructor; [|apply IH; auto].
      intros I. apply in_map_iff in I. destruct I as (j & E & Hj).
      assert (Hi : p i = true) by auto. assert (Hj' : p j = true) by auto. apply Hp in Hi, Hj'. destruct Hi as (x & -> & Hx). destruct Hj' as (y & -> & Hy).
      destruct (rf_ok (HQ _ Hx)) as (_ & Ex). destruct (rf_ok (HQ _ Hy)) as (_ & Ey). rewrite (nth_error_nth _ _ _ Ex), (nth_error_nth _ _ _ Ey) in E. subst. auto. }
    apply G; [apply NoDup_filter; apply seq_NoDup|]. intros i Hi. apply filter_In in Hi. tauto.
  - intros x. rewrite named_in. split.
    + intros (i & Ei & Hi). apply Hp in Hi. destruct Hi as (y & -> & Hy). destruct (rf_ok (HQ _ Hy)) as (_ & Ey). rewrite Ey in Ei. injection Ei as <-. auto.
    + intros Hx. exists (rf order x). split; [apply rf_ok; auto|]. apply Hp. eauto.
Qed.

Lemma with_sparse_in m xs x : In x (with_sparse m xs) <-> In x xs \/ In x (sparse_of m).
Proof. unfold with_sparse, sparse_of. destruct (pm_sparse m) as [l|]; [rewrite unique_in, in_app_iff|]; simpl; tauto. Qed.
Lemma with_sparse_nodup m xs : NoDup xs -> NoDup (with_sparse m xs).
Proof. unfold with_sparse. destruct (pm_sparse m); auto. intros _. apply unique_nodup. Qed.

Lemma dims_in_ok d order dim : (forall x, In x order -> dim_is d x (dim x)) ->
  exists dd, dims_in d order = Ok dd /\ (forall i x, nth_error order i = Some x -> dimension dd i = Z.of_N (dim x)) /\
    ((forall x, In x order -> dim x <> 0%N) -> order <> [] -> dims_positive dd).
Proof.
  intros H. unfold dims_in. destruct d as [l|k].
  - assert (F : forallb (fun x => memb x (map fst l)) order = true).
    { apply forallb_forall. intros x Hx. apply memb_In. specialize (H x Hx). cbn in H. clear - H. induction l as [|(j, u) l IH]; simpl in *; [discriminate|].
      destruct (Nat.eqb_spec x j); auto. }
    rewrite F. cbn [negb]. assert (E : dims_of (PyDict l) order = Ok (map dim order)).
    { apply dims_of_val. clear F. induction order as [|x order IH]; simpl; constructor; [apply H; simpl; auto|]. apply IH. intros y Hy. apply H. simpl. auto. }
    rewrite E. cbn [bind]. exists (DVec (map dim order)). split; auto. split.
    + intros i x Hx. cbn. rewrite (nth_error_nth (map dim order) i 1%N (x := dim x)); auto. rewrite nth_error_map, Hx. auto.
    + intros Hp _ i. cbn. destruct (nth_error order i) as [x|] eqn:E1.
      * rewrite (nth_error_nth (map dim order) i 1%N (x := dim x)) by (rewrite nth_error_map, E1; auto). specialize (Hp x (nth_error_In _ _ E1)). lia.
      * rewrite nth_overflow; [lia|]. rewrite map_length. apply nth_error_None. auto.
  - exists (DInt k). split; auto. split.
    + intros i x Hx. cbn. apply nth_error_In in Hx. specialize (H x Hx). cbn in H. congruence.
    + intros Hp Hn i. cbn. destruct order as [|x order]; [congruence|]. specialize (H x (or_introl eq_refl)). cbn in H. specialize (Hp x (or_introl eq_refl)). lia.
Qed.
Lemma dims_in_missing d order x : In x order -> (forall k, ~ dim_is d x k) -> dims_in d order = Err Throw.
Proof.
  intros Hx H. unfold dims_in. destruct d as [l|k]; [|exfalso; apply (H k); reflexivity].
  destruct (forallb (fun x => memb x (map fst l)) order) eqn:F; [|reflexivity]. exfalso. rewrite forallb_forall in F. specialize (F x Hx). apply memb_In in F.
  clear - F H. cbn in H. induction l as [|(j, u) l IH]; simpl in *; [tauto|]. destruct (Nat.eqb_spec x j); [apply (H u); auto|]. apply IH; auto. destruct F; [congruence|auto].
Qed.

(** The model; repeated names are fine without sparse indices. *)
Lemma core_ok m order : model_valid m -> (NoDup order \/ pm_sparse m = None) -> incl (sparse_of m) order ->
  exists k, pm_core m order = Ok k /\ model_is order (sparse_of m) (pm_projs m) k.
Proof.
  intros (V1 & V2) [HN|HN] Hi.
  - apply get_core_ok; auto.
  - exists Simple. unfold pm_core, sparse_of. rewrite HN. split; reflexivity.
Qed.
Lemma fcore_ok m order : model_valid (pf_model m) -> (0 <= pf_max m)%Z -> (NoDup order \/ pm_sparse (pf_model m) = None) -> incl (sparse_of (pf_model m)) order ->
  exists k, pf_core m order = Ok k /\ model_is order (sparse_of (pf_model m)) (pm_projs (pf_model m)) (fm_cm k).
Proof.
  intros V Hmax HN Hi. destruct (core_ok V HN Hi) as (k & E & Hm). unfold pf_core. rewrite E. cbn [bind]. exists (mkFM k (pf_max m)). split; auto.
  unfold fmodel_make. apply Z.ltb_ge in Hmax. rewrite Hmax. destruct k as [|b np]; auto. destruct Hm as (_ & Enp & _). apply (proj1 V) in Enp.
  destruct (Z.eqb_spec np 0); [lia|auto].
Qed.

Section Costs.
Variables (order sparse : list nat) (np : option Z) (dim : nat -> N) (dd : dims_t).
Hypothesis Hdd : forall i x, nth_error order i = Some x -> dimension dd i = Z.of_N (dim x).
Hypothesis Hnp : forall k, np = Some k -> (1 <= k)%Z.

Lemma ccost_values k a b c l (Q : nat -> Prop) : model_is order sparse np k -> length a = length order -> length b = length order ->
  (forall x, Q x -> In x order) -> (forall i, btest a i || btest b i = true <-> exists x, i = rf order x /\ Q x) -> lists l Q ->
  ccost_of k a b c dd = values sparse np dim l.
Proof.
  intros Hm La Lb HQ Hp HL. rewrite (@values_perm sparse np dim l (named order (fun i => btest a i || btest b i))).
  2:{ apply lists_perm with (P := Q); auto. apply lists_named; auto. }
  rewrite (values_named Hdd Hnp _ Hm). rewrite (ccost_prod c dd (model_ok Hnp Hm) La Lb). destruct k as [|sp q]; reflexivity.
Qed.
Lemma width_values lg k b l (Q : nat -> Prop) : log_like lg -> model_is order sparse np (fm_cm k) -> length b = length order ->
  (forall x, Q x -> In x order) -> (forall i, btest b i = true <-> exists x, i = rf order x /\ Q x) -> lists l Q ->
  width_of lg k b dd = width sparse np dim lg l.
Proof.
  intros Hl Hm Lb HQ Hp HL. rewrite (@width_perm sparse np dim lg l (named order (mem b))).
  2:{ apply lists_perm with (P := Q); auto. apply lists_named; auto. }
  rewrite (width_named Hdd Hnp (mem b) Hl Hm). apply width_spec; auto. apply (model_ok Hnp Hm).
Qed.
End Costs.

(** ** The functions *)
Lemma in_rf order xs i : In i (map (rf order) xs) <-> exists x, i = rf order x /\ In x xs.
Proof. rewrite in_map_iff. split; intros (x & E & H); exists x; auto. Qed.

Lemma py_ccost_ok m xs ys zs d dim l : model_valid m -> dims_give d m (xs ++ ys ++ zs) dim -> lists l (fun x => In x xs \/ In x ys) ->
  py_ccost m xs ys zs d = Ok (values (sparse_of m) (pm_projs m) dim l).
Proof.
  intros V Hd HL. unfold py_ccost. set (order := with_sparse m (unique (xs ++ ys ++ zs))).
  assert (HO : forall x, In x order <-> In x (xs ++ ys ++ zs) \/ In x (sparse_of m)) by (intros x; unfold order; rewrite with_sparse_in, unique_in; tauto).
  assert (HN : NoDup order) by (apply with_sparse_nodup, unique_nodup).
  destruct (@dims_in_ok d order dim) as (dd & E & Hdd & _). { intros x Hx. apply HO in Hx. apply Hd. auto. }
  rewrite E. cbn [bind]. destruct (core_ok V (or_introl HN)) as (k & Ek & Hk); [intros x Hx; apply HO; auto|]. rewrite Ek. cbn [bind].
  assert (Ix : incl xs order) by (intros x Hx; apply HO; rewrite !in_app_iff; auto).
  assert (Iy : incl ys order) by (intros x Hx; apply HO; rewrite !in_app_iff; auto).
  assert (Iz : incl zs order) by (intros x Hx; apply HO; rewrite !in_app_iff; auto).
  destruct (bits_ok Ix) as (a & Ea & La & Ta). destruct (bits_ok Iy) as (b & Eb & Lb & Tb). destruct (bits_ok Iz) as (c & Ec & _).
  rewrite Ea, Eb, Ec. cbn [bind]. f_equal. apply (@ccost_values order (sparse_of m) (pm_projs m) dim dd Hdd (proj1 V) k a b c l (fun x => In x xs \/ In x ys)); auto.
  - intros x [H|H]; auto.
  - intros i. rewrite orb_true_iff, Ta, Tb, !in_rf. split; [intros [(x & -> & H)|(x & -> & H)]; eauto|]. intros (x & -> & [H|H]); eauto.
Qed.
Lemma py_fccost_ok m xs ys zs d sl dim l : model_valid (pf_model m) -> (0 <= pf_max m)%Z -> dims_give d (pf_model m) (xs ++ ys ++ zs ++ sl) dim -> incl zs (xs ++ ys) ->
  lists l (fun x => In x xs \/ In x ys \/ In x sl) ->
  py_fccost m xs ys zs d sl = Ok (values (sparse_of (pf_model m)) (pm_projs (pf_model m)) dim l).
Proof.
  intros V Hmax Hd Hz HL. unfold py_fccost.
  assert (F : forallb (fun z => memb z (xs ++ ys)) zs = true) by (apply forallb_forall; intros z H; apply memb_In; auto). rewrite F. cbn [negb].
  set (order := with_sparse (pf_model m) (unique (xs ++ ys ++ zs ++ sl))).
  assert (HO : forall x, In x order <-> In x (xs ++ ys ++ zs ++ sl) \/ In x (sparse_of (pf_model m))) by (intros x; unfold order; rewrite with_sparse_in, unique_in; tauto).
  assert (HN : NoDup order) by (apply with_sparse_nodup, unique_nodup).
  destruct (@dims_in_ok d order dim) as (dd & E & Hdd & _). { intros x Hx. apply HO in Hx. apply Hd. auto. }
  rewrite E. cbn [bind]. destruct (fcore_ok V Hmax (or_introl HN)) as (k & Ek & Hk); [intros x Hx; apply HO; auto|]. rewrite Ek. cbn [bind].
  assert (Ix : incl xs order) by (intros x Hx; apply HO; rewrite !in_app_iff; auto).
  assert (Iy : incl ys order) by (intros x Hx; apply HO; rewrite !in_app_iff; auto).
  assert (Iz : incl zs order) by (intros x Hx; apply HO; rewrite !in_app_iff; auto).
  assert (Is : incl sl order) by (intros x Hx; apply HO; rewrite !in_app_iff; auto).
  destruct (bits_ok Ix) as (a & Ea & La & Ta). destruct (bits_ok Iy) as (b & Eb & Lb & Tb). destruct (bits_ok Iz) as (c & Ec & _). destruct (bits_ok Is) as (s & Es & Ls & Ts).
  rewrite Ea, Eb, Ec, Es. cbn [bind]. f_equal.
  change (fcost_of k a b c dd s) with (ccost_of (fm_cm k) (bor a b) s c dd).
  apply (@ccost_values order (sparse_of (pf_model m)) (pm_projs (pf_model m)) dim dd Hdd (proj1 V) (fm_cm k) (bor a b) s c l (fun x => In x xs \/ In x ys \/ In x sl)); auto.
  - rewrite bor_len; congruence.
  - intros x [H|[H|H]]; auto.
  - intros i. rewrite orb_true_iff, bor_test by congruence. rewrite orb_true_iff, Ta, Tb, Ts, !in_rf.
    split; [intros [[(x & -> & H)|(x & -> & H)]|(x & -> & H)]; eauto|]. intros (x & -> & [H|[H|H]]); eauto.
Qed.
Lemma with_sparse_cases m xs : NoDup (with_sparse m xs) \/ pm_sparse m = None.
Proof. unfold with_sparse. destruct (pm_sparse m); [left; apply unique_nodup|auto]. Qed.
Lemma py_width_ok lg m xs d dim l : log_like lg -> model_valid (pf_model m) -> (0 <= pf_max m)%Z -> dims_give d (pf_model m) xs dim -> lists l (fun x => In x xs) ->
  py_width lg m xs d = Ok (width (sparse_of (pf_model m)) (pm_projs (pf_model m)) dim lg l).
Proof.
  intros Hl V Hmax Hd HL. unfold py_width. set (order := with_sparse (pf_model m) xs).
  assert (HO : forall x, In x order <-> In x xs \/ In x (sparse_of (pf_model m))) by (intros x; apply with_sparse_in).
  destruct (@dims_in_ok d order dim) as (dd & E & Hdd & _). { intros x Hx. apply HO in Hx. apply Hd. auto. }
  rewrite E. cbn [bind]. destruct (fcore_ok V Hmax (@with_sparse_cases (pf_model m) xs)) as (k & Ek & Hk); [intros x Hx; apply HO; auto|]. fold order in Ek, Hk. rewrite Ek. cbn [bind].
  assert (Ix : incl xs order) by (intros x Hx; apply HO; auto).
  destruct (bits_ok Ix) as (a & Ea & La & Ta). rewrite Ea. cbn [bind]. f_equal.
  apply (@width_values order (sparse_of (pf_model m)) (pm_projs (pf_model m)) dim dd Hdd (proj1 V) lg k a l (fun x => In x xs)); auto.
  intros i. rewrite Ta, in_rf. tauto.
Qed.

Lemma unique_aux_prefix xs : forall seen ys, NoDup xs -> (forall x, In x xs -> ~ In x seen) -> exists r, unique_aux seen (xs ++ ys) = xs ++ r.
Proof.
  induction xs as [|x xs IH]; intros seen ys HN HS; simpl; [eauto|]. inversion HN; subst.
  assert (F : memb x seen = false) by (apply memb_nIn, HS; simpl; auto). rewrite F.
  destruct (IH (x :: seen) ys) as (r & ->); auto; [|exists r; auto]. intros y Hy [<-|H]; [auto|]. apply (HS y); simpl; auto.
Qed.
Lemma rank_with_sparse m xs x : NoDup xs \/ pm_sparse m = None -> In x xs -> rank xs x = Ok (rf (with_sparse m xs) x).
Proof.
  intros HN Hx. destruct (rf_ok Hx) as (E & E'). rewrite E. f_equal. unfold with_sparse. destruct (pm_sparse m) as [sp|]; [|auto]. destruct HN as [HN|HN]; [|discriminate].
  unfold unique. destruct (@unique_aux_prefix xs [] sp HN) as (r & ->); [intros y _ H; exact H|].
  assert (E2 : rank (xs ++ r) x = Ok (rf xs x)) by (unfold rank in *; apply index_app; [apply Nat.eqb_eq|auto|exact E']).
  unfold rf at 2. rewrite E2. auto.
Qed.
Lemma py_dwidth_ok lg m xs d dim x l l' : log_like lg -> model_valid (pf_model m) -> (0 <= pf_max m)%Z -> dims_give d (pf_model m) xs dim ->
  (forall y, In y xs \/ In y (sparse_of (pf_model m)) -> dim y <> 0%N) -> NoDup xs \/ pm_sparse (pf_model m) = None -> In x xs ->
  lists l (fun y => In y xs) -> lists l' (fun y => In y xs /\ y <> x) ->
  py_dwidth lg m xs d x = Ok (width (sparse_of (pf_model m)) (pm_projs (pf_model m)) dim lg l' - width (sparse_of (pf_model m)) (pm_projs (pf_model m)) dim lg l)%Z.
Proof.
  intros Hl V Hmax Hd Hpos HN Hx HL HL'. unfold py_dwidth. rewrite (proj2 (memb_In x xs) Hx). cbn [negb].
  rewrite (@rank_with_sparse (pf_model m) xs x HN Hx). cbn [bind]. set (order := with_sparse (pf_model m) xs).
  assert (HO : forall x, In x order <-> In x xs \/ In x (sparse_of (pf_model m))) by (intros y; apply with_sparse_in).
  destruct (@dims_in_ok d order dim) as (dd & E & Hdd & Hdp). { intros y Hy. apply HO in Hy. apply Hd. auto. }
  rewrite E. cbn [bind]. destruct (fcore_ok V Hmax (@with_sparse_cases (pf_model m) xs)) as (k & Ek & Hk); [intros y Hy; apply HO; auto|]. fold order in Ek, Hk. rewrite Ek. cbn [bind].
  assert (Ix : incl xs order) by (intros y Hy; apply HO; auto).
  destruct (bits_ok Ix) as (a & Ea & La & Ta). rewrite Ea. cbn [bind]. f_equal.
  assert (Hin : In x order) by auto. destruct (rf_ok Hin) as (_ & Ex).
  assert (Lx : rf order x < length a) by (rewrite La; eapply nth_error_lt; eauto).
  assert (Hp : dims_positive dd). { apply Hdp; [intros y Hy; apply Hpos, HO; auto|]. intros H. rewrite H in Hin. destruct Hin. }
  pose proof (@dw_exact lg k a dd (length order) (rf order x) (model_ok (proj1 V) Hk) Hl Hp La ltac:(rewrite <- La; exact Lx)) as D.
  rewrite (@width_values order (sparse_of (pf_model m)) (pm_projs (pf_model m)) dim dd Hdd (proj1 V) lg k a l (fun x => In x xs) Hl Hk La) in D; auto.
  2:{ intros i. rewrite Ta, in_rf. tauto. }
  rewrite (@width_values order (sparse_of (pf_model m)) (pm_projs (pf_model m)) dim dd Hdd (proj1 V) lg k (bflip a (rf order x)) l' (fun y => In y xs /\ y <> x) Hl Hk) in D; auto; [|rewrite bflip_len; auto|intros y (Hy & _); auto|].
  2:{ intros i. rewrite bflip_test by auto. destruct (Nat.eqb_spec (rf order x) i) as [<-|Hne].
      - assert (T : btest a (rf order x) = true) by (apply Ta, in_rf; eauto). rewrite T. cbn. split; [discriminate|]. intros (y & Ey & Hy & Hyx).
        destruct (rf_ok (Ix y Hy)) as (_ & Eq). rewrite <- Ey in Eq. congruence.
      - rewrite xorb_false_l, Ta, in_rf. split; [intros (y & -> & H)|intros (y & -> & H & _); eauto]. exists y. split; [auto|split; [auto|]]. intros ->. apply Hne. auto. }
  lia.
Qed.

(** ** What is rejected *)
Lemma py_ccost_missing m xs ys zs d : dim_missing d m (xs ++ ys ++ zs) -> py_ccost m xs ys zs d = Err Throw.
Proof.
  intros (x & Hx & H). unfold py_ccost. rewrite (@dims_in_missing d _ x); auto. rewrite with_sparse_in, unique_in. auto.
Qed.
Lemma py_fccost_missing m xs ys zs d sl : dim_missing d (pf_model m) (xs ++ ys ++ zs ++ sl) \/ ~ incl zs (xs ++ ys) -> py_fccost m xs ys zs d sl = Err Throw.
Proof.
  intros H. unfold py_fccost. destruct (forallb (fun z => memb z (xs ++ ys)) zs) eqn:F; [|reflexivity]. cbn [negb]. destruct H as [(x & Hx & H)|H].
  - rewrite (@dims_in_missing d _ x); auto. rewrite with_sparse_in, unique_in. auto.
  - exfalso. apply H. intros z Hz. rewrite forallb_forall in F. apply memb_In. auto.
Qed.
Lemma py_width_missing lg m xs d : dim_missing d (pf_model m) xs -> py_width lg m xs d = Err Throw.
Proof. intros (x & Hx & H). unfold py_width. rewrite (@dims_in_missing d _ x); auto. apply with_sparse_in. auto. Qed.
Lemma py_dwidth_missing lg m xs d x : dim_missing d (pf_model m) xs \/ ~ In x xs -> py_dwidth lg m xs d x = Err Throw.
Proof.
  intros H. unfold py_dwidth. destruct (memb x xs) eqn:F; [|reflexivity]. cbn [negb]. destruct H as [(y & Hy & H)|H]; [|apply memb_In in F; tauto].
  apply memb_In in F. destruct (rf_ok F) as (E & _). rewrite E. cbn [bind]. rewrite (@dims_in_missing d _ y); auto. apply with_sparse_in. auto.
Qed.

(** ** The costs of an optimizer *)
Lemma sums_app cost ms ms' k k' : sums cost ms k -> sums cost ms' k' -> sums cost (ms ++ ms') (k + k').
Proof. induction 1 as [|a b c ms x k Hx H IH]; intros H'; [exact H'|]. cbn [app]. rewrite <- Z.add_assoc. constructor; auto. Qed.
Lemma sums_tree t q T cost f : unfolds t q T ->
  (forall p a b q, nth_error t p = Some (mkNode (Some a) (Some b) q) -> cost a b p = Ok (f p a b)) -> sums cost (merges T) (bt_cost f T).
Proof.
  intros HU H. revert q HU. induction T as [p|p l IHl r IHr]; simpl; intros q HU; [constructor|].
  destruct HU as (Hn & Ul & Ur). rewrite <- Z.add_assoc. apply sums_app; [eapply IHl; eauto|]. apply sums_app; [eapply IHr; eauto|].
  replace (f p (top l) (top r)) with (f p (top l) (top r) + 0)%Z by lia. constructor; [eapply H; eauto|constructor].
Qed.
Lemma core_given m order k : good_projs m -> pm_core m order = Ok k -> model_valid m /\ incl (sparse_of m) order.
Proof.
  intros G. unfold pm_core, get_core, model_valid. fold (sparse_of m). destruct (sparse_of m) as [|x l]; [intros _; split; [split; auto; congruence|intros x []]|].
  destruct (pm_projs m) as [np|] eqn:E; [|discriminate]. destruct (forallb (fun x0 => memb x0 order) (x :: l)) eqn:F; [|discriminate]. intros _. split; [split; [|discriminate]|].
  - intros j Ej. apply G. congruence.
  - intros y Hy. rewrite forallb_forall in F. apply memb_In. auto.
Qed.

Section OnTree.
Variables (t : pytree) (c : ctree) (m : pmodel) (k : cmodel).
Hypothesis O : over t c.
Hypothesis W : well_formed (nodes c).
Hypothesis Ek : pm_core m (inds_order t) = Ok k.
Hypothesis G : good_projs m.
Let order := inds_order t.
Let t' := mkPT c (n_tensors t) (tensors_pos t) (inds_order t).
Let dimf (x : nat) : N := Z.to_N (dimension (dims c) (rf order x)).

Lemma tree_dims i x : nth_error order i = Some x -> dimension (dims c) i = Z.of_N (dimf x) /\ dict_get (py_dims t') x = Ok (dimf x).
Proof.
  intros Hx. assert (Ei : rf order x = i) by (apply rf_of; auto; apply (ov_nodup O)). unfold dimf. rewrite Ei.
  assert (Hnn : (0 <= dimension (dims c) i)%Z) by (unfold dimension; destruct (dims c); lia). rewrite Z2N.id by auto. split; auto.
  destruct (ov_dims O) as (ds & Ld & Ec & Ed). pose proof (expand_dims Ld) as EX. rewrite <- Ec, <- Ed in EX.
  unfold py_dims, t'. cbn [M_PyTree.core inds_order]. rewrite EX.
  pose proof (dict_combine_all (ov_nodup O) Ld) as F. fold order in F, Ld |- *.
  assert (Li : i < length order) by (eapply nth_error_lt; eauto).
  assert (En : dict_get (combine order ds) x = Ok (nth i ds 1%N)).
  { clear - F Hx. revert F. generalize (combine order ds) as cc. intros cc F. revert i Hx. induction F as [|y v l l' Hy F IH]; intros [|i] Hx; try discriminate; simpl in *; [injection Hx as <-; auto|auto]. }
  rewrite En. f_equal. rewrite <- EX. fold order. unfold dimension. destruct (dims c) as [z|l]; [|rewrite N2Z.id; auto].
  rewrite N2Z.id. rewrite nth_indep with (d' := z) by (rewrite repeat_length; auto). apply nth_repeat.
Qed.
Lemma tree_inds v : v < length (nodes c) -> exists xs, py_inds t' v = Ok xs /\ forall x, In x xs <-> exists i, nth_error order i = Some x /\ btest (ix (inds c) v) i = true.
Proof.
  intros Hv. assert (W' := W). apply wf_iff in W'. destruct (valid_core W' (ov_valid O)) as (HC & _).
  unfold py_inds, t'. cbn [M_PyTree.core inds_order]. unfold get. rewrite (nth_error_nth' (inds c) []) by (rewrite (co_len HC); auto). cbn [bind].
  assert (L : length (ix (inds c) v) = length order) by (apply (ov_len O); apply nth_In; rewrite (co_len HC); auto).
  destruct (names_of_ok L) as (xs & E & H). exists xs. split; auto.
Qed.
Lemma tree_give xs : incl xs order -> dims_give (PyDict (py_dims t')) m xs dimf.
Proof.
  intros H x Hx. destruct (core_given G Ek) as (_ & Hs). assert (Hi : In x order) by (destruct Hx; auto). cbn. destruct (In_nth_error _ _ Hi) as (i & Ei). eapply tree_dims; eauto.
Qed.
Lemma tree_model : model_is order (sparse_of m) (pm_projs m) k.
Proof.
  destruct (core_given G Ek) as (V & Hs). destruct (core_ok V (or_introl (ov_nodup O)) Hs) as (k' & E & H). rewrite Ek in E. injection E as <-. exact H.
Qed.
Lemma rank_iff (b : bitset) (Q : nat -> Prop) : length b = length order -> (forall x, Q x <-> exists i, nth_error order i = Some x /\ btest b i = true) ->
  forall i, btest b i = true <-> exists x, i = rf order x /\ Q x.
Proof.
  intros L H i. split.
  - intros Hb. assert (Li : i < length order) by (rewrite <- L; apply btest_lt; auto). exists (nth i order 0).
    assert (E : nth_error order i = Some (nth i order 0)) by (apply nth_error_nth'; auto). split; [symmetry; apply rf_of; auto; apply (ov_nodup O)|]. apply H. eauto.
  - intros (x & -> & Hx). apply H in Hx. destruct Hx as (j & Ej & Hj). assert (E : rf order x = j) by (apply rf_of; auto; apply (ov_nodup O)). rewrite E. auto.
Qed.

Lemma tree_step n p a b : P_Opt.core (nodes c) (inds c) n -> kids2 (nodes c) p a b -> exists A B P, py_inds t' a = Ok A /\ py_inds t' b = Ok B /\ py_inds t' p = Ok P /\
  incl P (A ++ B) /\ incl A order /\ incl B order /\
  (forall i, btest (ix (inds c) p) i || btest (ix (inds c) a) i = true <-> exists x, i = rf order x /\ (In x A \/ In x B)) /\
  length (ix (inds c) p) = length order /\ length (ix (inds c) a) = length order.
Proof.
  intros HC K. destruct (kids2_lt (co_wf HC) K) as (L1 & L2 & L3). pose proof (co_loc HC K) as HL.
  destruct (tree_inds L2) as (A & EA & HA). destruct (tree_inds L3) as (B & EB & HB). destruct (tree_inds L1) as (P & EP & HP).
  assert (Lx : forall v, v < length (nodes c) -> length (ix (inds c) v) = length order) by (intros v Hv; apply (ov_len O); apply nth_In; rewrite (co_len HC); auto).
  exists A, B, P. do 3 (split; [auto|]). split.
  { intros x Hx. apply HP in Hx. destruct Hx as (i & Ei & Hi). apply in_app_iff. rewrite HA, HB. specialize (HL i). rewrite Hi in HL.
    destruct (btest (ix (inds c) a) i) eqn:E1; [left; eauto|]. destruct (btest (ix (inds c) b) i) eqn:E2; [right; eauto|]. exfalso. simpl in HL. intuition congruence. }
  split. { intros x Hx. apply HA in Hx. destruct Hx as (i & Ei & _). eapply nth_error_In; eauto. }
  split. { intros x Hx. apply HB in Hx. destruct Hx as (i & Ei & _). eapply nth_error_In; eauto. }
  split; [|auto].
  intros i. rewrite <- bor_test by (rewrite !Lx; auto). revert i. apply rank_iff; [rewrite bor_len; rewrite !Lx; auto|].
  intros x. rewrite HA, HB. split.
  - intros [(i & Ei & Hi)|(i & Ei & Hi)]; exists i; split; auto; rewrite bor_test by (rewrite !Lx; auto); specialize (HL i); rewrite Hi in *;
      destruct (btest (ix (inds c) p) i), (btest (ix (inds c) a) i), (btest (ix (inds c) b) i); simpl in *; intuition congruence.
  - intros (i & Ei & Hi). rewrite bor_test in Hi by (rewrite !Lx; auto). specialize (HL i).
    destruct (btest (ix (inds c) a) i) eqn:E1; [left; eauto|]. destruct (btest (ix (inds c) b) i) eqn:E2; [right; eauto|]. exfalso.
    destruct (btest (ix (inds c) p) i); simpl in *; intuition congruence.
Qed.
Lemma lists_of_list (l : list nat) (Q : nat -> Prop) : (forall x, In x l <-> Q x) -> lists (unique l) Q.
Proof. intros H. split; [apply unique_nodup|]. intros x. rewrite unique_in. auto. Qed.

Lemma tree_sums T : tree_of (nodes c) T ->
  sums (fun a b p => let! A := py_inds t' a in let! B := py_inds t' b in let! P := py_inds t' p in py_ccost m A B P (PyDict (py_dims t'))) (merges T) (code_cost k c T).
Proof.
  intros HT. assert (W' := W). apply wf_iff in W'. destruct (valid_core W' (ov_valid O)) as (HC & _). destruct HT as (HU & _).
  apply (@sums_tree _ _ _ _ (fun p a b => ccost_of k (nth p (inds c) []) (nth a (inds c) []) (nth b (inds c) []) (dims c)) HU).
  intros p a b q Hn. assert (K : kids2 (nodes c) p a b) by (exists q; auto).
  destruct (tree_step HC K) as (A & B & P & -> & -> & -> & IP & IA & IB & HI & L1 & L2). cbn [bind].
  destruct (core_given G Ek) as (V & Hs).
  assert (HL : lists (unique (A ++ B)) (fun x => In x A \/ In x B)) by (apply lists_of_list; intros x; apply in_app_iff).
  assert (IPo : incl P order) by (intros x Hx; apply IP in Hx; apply in_app_iff in Hx; destruct Hx; auto).
  rewrite (@py_ccost_ok m A B P (PyDict (py_dims t')) dimf (unique (A ++ B)) V); auto.
  - f_equal. symmetry. apply (@ccost_values order (sparse_of m) (pm_projs m) dimf (dims c)) with (Q := fun x => In x A \/ In x B); auto.
    + intros i x Hx. apply (tree_dims Hx).
    + apply tree_model.
    + intros x [Hx|Hx]; auto.
  - apply tree_give. intros x. rewrite !in_app_iff. intros [|[|]]; auto.
Qed.
Lemma tree_width lg mx wt sl ss v xs ys : log_like lg -> (0 <= mx)%Z -> length sl = length order -> names_of order sl = Ok ss -> v < length (nodes c) -> py_inds t' v = Ok xs ->
  (forall x, In x ys <-> In x xs /\ ~ In x ss) ->
  py_width lg (mkPF mx m wt) ys (PyDict (py_dims t')) = Ok (width_of lg (mkFM k mx) (bdiff (ix (inds c) v) sl) (dims c)).
Proof.
  intros Hl Hmx Lsl Ess Hv Exs Hys. destruct (tree_inds Hv) as (xs' & E' & Hxs). rewrite Exs in E'. injection E' as <-.
  destruct (names_of_ok Lsl) as (ss' & E' & Hss). rewrite Ess in E'. injection E' as <-.
  assert (W' := W). apply wf_iff in W'. destruct (valid_core W' (ov_valid O)) as (HC & _).
  assert (L : length (ix (inds c) v) = length order) by (apply (ov_len O); apply nth_In; rewrite (co_len HC); auto).
  destruct (core_given G Ek) as (V & Hs).
  assert (Iy : incl ys order) by (intros x Hx; apply Hys in Hx; destruct Hx as (Hx & _); apply Hxs in Hx; destruct Hx as (i & Ei & _); eapply nth_error_In; eauto).
  assert (HL : lists (unique ys) (fun x => In x ys)) by (apply lists_of_list; intros x; tauto).
  rewrite (@py_width_ok lg (mkPF mx m wt) ys (PyDict (py_dims t')) dimf (unique ys) Hl V); auto; [|apply tree_give; auto].
  f_equal. symmetry. cbn [pf_model].
  apply (@width_values order (sparse_of m) (pm_projs m) dimf (dims c)) with (Q := fun x => In x ys); auto.
  - intros i x Hx. apply (tree_dims Hx).
  - apply tree_model.
  - rewrite bdiff_len; congruence.
  - apply rank_iff; [rewrite bdiff_len; congruence|]. intros x. rewrite Hys, Hxs, Hss. split.
    + intros ((i & Ei & Hi) & Hn). exists i. split; auto. rewrite bdiff_test by congruence. rewrite Hi. cbn. apply negb_true_iff. destruct (btest sl i) eqn:E; auto. exfalso. apply Hn. exists i. split; auto.
    + intros (i & Ei & Hi). rewrite bdiff_test in Hi by congruence. apply andb_true_iff in Hi. destruct Hi as (Hi & Hn). split; [eauto|]. intros (j & Ej & Hj).
      assert (i = j); [|subst; apply negb_true_iff in Hn; unfold mem in Hj; unfold btest in Hn; congruence].
      pose proof (ov_nodup O) as HN. rewrite NoDup_nth_error in HN. apply HN; [eapply nth_error_lt; eauto|]. fold order. congruence.
Qed.
Lemma tree_fsums mx sl ss T : (0 <= mx)%Z -> length sl = length order -> names_of order sl = Ok ss -> tree_of (nodes c) T -> forall wt,
  sums (fun a b p => let! A := py_inds t' a in let! B := py_inds t' b in let! P := py_inds t' p in py_fccost (mkPF mx m wt) A B P (PyDict (py_dims t')) ss) (merges T)
    (fcode_cost (mkFM k mx) c sl T).
Proof.
  intros Hmx Lsl Ess HT wt. assert (W' := W). apply wf_iff in W'. destruct (valid_core W' (ov_valid O)) as (HC & _). destruct HT as (HU & _).
  apply (@sums_tree _ _ _ _ (fun p a b => fw_ccost (mkFM k mx) (dims c) sl (nth p (inds c) []) (nth a (inds c) []) (nth b (inds c) [])) HU).
  intros p a b q Hn. assert (K : kids2 (nodes c) p a b) by (exists q; auto).
  destruct (tree_step HC K) as (A & B & P & -> & -> & -> & IP & IA & IB & HI & L1 & L2). cbn [bind].
  destruct (core_given G Ek) as (V & Hs). destruct (names_of_ok Lsl) as (ss' & E' & Hss). rewrite Ess in E'. injection E' as <-.
  assert (Is : incl ss order) by (intros x Hx; apply Hss in Hx; destruct Hx as (i & Ei & _); eapply nth_error_In; eauto).
  assert (HL : lists (unique (A ++ B ++ ss)) (fun x => In x A \/ In x B \/ In x ss)) by (apply lists_of_list; intros x; rewrite !in_app_iff; tauto).
  assert (IPo : incl P order) by (intros x Hx; apply IP in Hx; apply in_app_iff in Hx; destruct Hx; auto).
  rewrite (@py_fccost_ok (mkPF mx m wt) A B P (PyDict (py_dims t')) ss dimf (unique (A ++ B ++ ss)) V); auto.
  - f_equal. symmetry.
    change (fw_ccost (mkFM k mx) (dims c) sl (nth p (inds c) []) (nth a (inds c) []) (nth b (inds c) [])) with
      (ccost_of k (bor (ix (inds c) p) (ix (inds c) a)) sl (ix (inds c) b) (dims c)).
    apply (@ccost_values order (sparse_of m) (pm_projs m) dimf (dims c)) with (Q := fun x => In x A \/ In x B \/ In x ss); auto.
    + intros i x Hx. apply (tree_dims Hx).
    + apply tree_model.
    + rewrite bor_len; congruence.
    + intros x [Hx|[Hx|Hx]]; auto.
    + intros i. rewrite orb_true_iff, bor_test by congruence. rewrite HI, (@rank_iff sl (fun x => In x ss) Lsl Hss i). split.
      * intros [(x & -> & [H|H])|(x & -> & H)]; eauto 6.
      * intros (x & -> & [H|[H|H]]); eauto 6.
  - apply tree_give. intros x. rewrite !in_app_iff. intros [|[|[|]]]; auto.
Qed.
End OnTree.

Lemma im_sums (R : Type) (o : im_obj R) : im_lived o -> exists t mt ms mms k,
  get_ctree (io_tree o) (im_ct (io_state o)) = Ok t /\ get_ctree (io_tree o) (im_min_ct (io_state o)) = Ok mt /\
  get_contraction (nodes (core t)) = Ok ms /\ get_contraction (nodes (core mt)) = Ok mms /\
  im_total (io_state o) = Ok k /\ sums (im_contraction_cost (io_model o) t) ms k /\ sums (im_contraction_cost (io_model o) mt) mms (im_min (io_state o)).
Proof.
  intros L. pose proof (im_lived_facts L) as F. destruct L as [(p & ts & d & output & chk & t & m & r & ds & o0 & rds & Ht & W & G & H0 & Hr)].
  pose proof (over_make Ht) as O. unfold io_make in H0. destruct (pm_core m (inds_order t)) as [k|] eqn:Ek; [|discriminate]. cbn [bind] in H0.
  destruct (im_make (core t) k r ds None) as [s0|] eqn:E0; [|discriminate]. cbn [bind] in H0. injection H0 as <-.
  unfold io_run in Hr. cbn [io_state io_tree io_model] in Hr. destruct (im_run rds s0) as [s|] eqn:Er; [|discriminate]. cbn [bind] in Hr. injection Hr as <-.
  destruct F as [(n & HI) Hmin _ Em T1 T2]. cbn [io_state io_tree io_model] in *. rewrite Ek in Em. injection Em as ->.
  destruct (c08 W E0 Er) as (V1 & V2). destruct (c11 W E0 Er) as (S1 & _ & S2 & _). specialize (S2 eq_refl).
  pose proof (over_moves O W S1 V1) as O1. pose proof (over_moves O W S2 V2) as O2.
  destruct S1 as (_ & W1 & _). destruct S2 as (_ & W2 & _). pose proof W1 as (TT1 & HT1). pose proof W2 as (TT2 & HT2).
  do 5 eexists. split; [exact T1|]. split; [exact T2|]. split; [apply (get_contraction_ok HT1)|]. split; [apply (get_contraction_ok HT2)|].
  split; [apply (im_total_ok HI)|]. rewrite (tot_tree HI HT1). split; [apply (tree_sums O1 W1 Ek G HT1)|].
  assert (W2' := W2). apply wf_iff in W2'. destruct (valid_core W2' V2) as (HC2 & _). unfold the_min in Hmin. rewrite (get_cost_tree _ HC2 HT2) in Hmin. injection Hmin as <-.
  apply (tree_sums O2 W2 Ek G HT2).
Qed.
Lemma fw_sums (R : Type) lg n (o : fw_obj R) : fw_lived lg n o -> exists t mt sl msl ms mms k,
  get_ctree (fo_tree o) (fw_ct (fo_state o)) = Ok t /\ get_ctree (fo_tree o) (fw_min_ct (fo_state o)) = Ok mt /\
  slice_names (inds_order (fo_tree o)) (fw_sl (fo_state o)) = Ok sl /\ slice_names (inds_order (fo_tree o)) (fw_min_sl (fo_state o)) = Ok msl /\
  get_contraction (nodes (core t)) = Ok ms /\ get_contraction (nodes (core mt)) = Ok mms /\
  fw_total (fo_state o) = Ok k /\ sums (fw_contraction_cost (fo_model o) t sl) ms k /\ sums (fw_contraction_cost (fo_model o) mt msl) mms (fw_min (fo_state o)).
Proof.
  intros L. pose proof (fw_lived_facts L) as F. destruct L as [(fr & p & ts & d & output & chk & t & m & r & ds & skip & o0 & us & Hl & Hf & Hus & Ht & W & G & H0 & Hr)].
  pose proof (over_make Ht) as O. destruct (fo_make_inv O W G Hl Hf H0) as (b & fm & s0 & Hi & Eb & Em & HB & ->).
  unfold fo_run in Hr. cbn [fo_state fo_tree fo_model fo_skip] in Hr. destruct (fw_run lg us s0) as [s|] eqn:Er; [|discriminate]. cbn [bind] in Hr. injection Hr as <-.
  destruct F as [(n' & HI) Hmin _ Emm _ _ _ Ls Lms T1 T2]. cbn [fo_state fo_tree fo_model fo_skip] in *.
  destruct (pm_core (pf_model m) (inds_order t)) as [k|] eqn:Ek; [|discriminate]. cbn [bind] in Emm.
  assert (Efm : (0 <= pf_max m)%Z /\ fw_m s = mkFM k (pf_max m)).
  { unfold fmodel_make in Emm. destruct (Z.ltb_spec (pf_max m) 0); [discriminate|]. split; auto. destruct k as [|sp np]; [injection Emm as <-; reflexivity|]. destruct (np =? 0)%Z; [discriminate|]. injection Emm as <-. reflexivity. }
  destruct Efm as (Hmx & Efm).
  destruct (f08 HB Hus Er) as (V1 & V2). destruct (f11 HB Hus Er) as (S1 & _ & S2 & _). specialize (S2 eq_refl).
  pose proof (over_moves O W S1 V1) as O1. pose proof (over_moves O W S2 V2) as O2.
  destruct S1 as (_ & W1 & _). destruct S2 as (_ & W2 & _). pose proof W1 as (TT1 & HT1). pose proof W2 as (TT2 & HT2).
  destruct (names_of_ok Ls) as (sl & Es & _). destruct (names_of_ok Lms) as (msl & Ems & _). destruct m as [mx m wt]. cbn [pf_model pf_max] in *.
  do 7 eexists. split; [exact T1|]. split; [exact T2|]. split; [exact Es|]. split; [exact Ems|]. split; [apply (get_contraction_ok HT1)|]. split; [apply (get_contraction_ok HT2)|].
  split; [apply (fw_total_ok HI)|]. rewrite (ftot_tree HI HT1), Efm. split; [apply (tree_fsums O1 W1 Ek G Hmx Ls Es HT1)|].
  assert (W2' := W2). apply wf_iff in W2'. destruct (valid_core W2' V2) as (HC2 & _). unfold the_fmin in Hmin. rewrite (fget_cost_tree _ _ HC2 HT2), Efm in Hmin. injection Hmin as <-.
  apply (tree_fsums O2 W2 Ek G Hmx Lms Ems HT2).
Qed.
Lemma fw_widths (R : Type) lg n (o : fw_obj R) : fw_lived lg n o -> sparse_of (pf_model (fo_model o)) = [] \/ n = 0 ->
  exists t mt sl msl, get_ctree (fo_tree o) (fw_ct (fo_state o)) = Ok t /\ get_ctree (fo_tree o) (fw_min_ct (fo_state o)) = Ok mt /\
  slice_names (inds_order (fo_tree o)) (fw_sl (fo_state o)) = Ok sl /\ slice_names (inds_order (fo_tree o)) (fw_min_sl (fo_state o)) = Ok msl /\
  width_bounded lg (fo_model o) t sl /\ width_bounded lg (fo_model o) mt msl.
Proof.
  intros L Hc. pose proof (fw_lived_facts L) as F. destruct L as [(fr & p & ts & d & output & chk & t & m & r & ds & skip & o0 & us & Hl & Hf & Hus & Ht & W & G & H0 & Hr)].
  pose proof (over_make Ht) as O. destruct (fo_make_inv O W G Hl Hf H0) as (b & fm & s0 & Hi & Eb & Em & HB & ->).
  unfold fo_run in Hr. cbn [fo_state fo_tree fo_model fo_skip] in Hr. destruct (fw_run lg us s0) as [s|] eqn:Er; [|discriminate]. cbn [bind] in Hr. injection Hr as <-.
  destruct F as [(n' & HI) Hmin _ Emm _ _ _ Ls Lms T1 T2]. cbn [fo_state fo_tree fo_model fo_skip] in *.
  destruct (pm_core (pf_model m) (inds_order t)) as [k|] eqn:Ek; [|discriminate]. cbn [bind] in Emm, Em.
  assert (Efm : (0 <= pf_max m)%Z /\ fw_m s = mkFM k (pf_max m)).
  { unfold fmodel_make in Emm. destruct (Z.ltb_spec (pf_max m) 0); [discriminate|]. split; auto. destruct k as [|sp np]; [injection Emm as <-; reflexivity|]. destruct (np =? 0)%Z; [discriminate|]. injection Emm as <-. reflexivity. }
  destruct Efm as (Hmx & Efm). assert (Efm' : fm = mkFM k (pf_max m)) by congruence. subst fm.
  assert (Hk : k = Simple \/ n = 0).
  { destruct Hc as [Hc|Hc]; auto. left. unfold pm_core, get_core in Ek. fold (sparse_of (pf_model m)) in Ek. rewrite Hc in Ek. congruence. }
  destruct (f08 HB Hus Er) as (V1 & V2). destruct (f11 HB Hus Er) as (S1 & _ & S2 & _). specialize (S2 eq_refl).
  pose proof (over_moves O W S1 V1) as O1. pose proof (over_moves O W S2 V2) as O2.
  destruct S1 as (_ & W1 & _). destruct S2 as (_ & W2 & _).
  destruct (f17 HB Hk Hus Er) as (A1 & A2).
  destruct (names_of_ok Ls) as (sl & Es & _). destruct (names_of_ok Lms) as (msl & Ems & _). destruct m as [mx m wt]. cbn [pf_model pf_max] in *.
  assert (Gen : forall c bs l, over t c -> well_formed (nodes c) -> length bs = length (inds_order t) -> names_of (inds_order t) bs = Ok l ->
     all_fit lg k mx (n_inds (core t)) c (mem bs) -> width_bounded lg (mkPF mx m wt) (mkPT c (n_tensors t) (tensors_pos t) (inds_order t)) l).
  { clear - Ek G Hl Hmx O. intros c bs l O1 W1 Lb El HA v xs ys Hv Exs Hys. cbn [M_PyTree.core] in Hv.
    assert (W' := W1). apply wf_iff in W'. destruct (valid_core W' (ov_valid O1)) as (HC & _).
    eexists. split; [apply (tree_width O1 W1 Ek G wt Hl Hmx Lb El Hv Exs Hys)|]. cbn [pf_max].
    assert (L : length (ix (inds c) v) = length (inds_order t)) by (apply (ov_len O1); apply nth_In; rewrite (co_len HC); auto).
    pose proof (pm_core_ok G Ek) as Hcm.
    rewrite (@width_spec lg (mkFM k mx) (bdiff (ix (inds c) v) bs) (dims c) (length (inds_order t))); cbn [fm_cm]; auto; [|rewrite bdiff_len; congruence].
    rewrite <- (co_len HC) in Hv. specialize (HA v Hv). unfold node_fits in HA. rewrite (over_n_inds O) in HA. etransitivity; [|exact HA]. apply Z.eq_le_incl. apply set_width_ext. intros i Hi.
    change (mem (bdiff (ix (inds c) v) bs) i) with (btest (bdiff (ix (inds c) v) bs) i). rewrite bdiff_test by congruence. reflexivity. }
  do 4 eexists. split; [exact T1|]. split; [exact T2|]. split; [exact Es|]. split; [exact Ems|]. split; [exact (Gen _ _ _ O1 W1 Ls Es A1)|exact (Gen _ _ _ O2 W2 Lms Ems A2)].
Qed.

(** ** Too many indices that may not be sliced *)
Section Skips.
Variables (t : pytree) (m : pmodel) (k : cmodel).
Hypothesis O : over t (core t).
Hypothesis W : well_formed (nodes (core t)).
Hypothesis Ek : pm_core m (inds_order t) = Ok k.
Hypothesis G : good_projs m.
Local Notation order := (inds_order t).
Lemma skip_width lg mx wt skip b v xs ys : log_like lg -> (0 <= mx)%Z -> incl skip order -> name_bits order skip = Ok b -> v < length (nodes (core t)) -> py_inds t v = Ok xs ->
  (forall x, In x ys <-> In x xs /\ In x skip) ->
  py_width lg (mkPF mx m wt) ys (PyDict (py_dims t)) = Ok (width_of lg (mkFM k mx) (band (ix (inds (core t)) v) b) (dims (core t))).
Proof.
  intros Hl Hmx Hi Eb Hv Exs Hys. assert (W' := W). apply wf_iff in W'. destruct (valid_core W' (ov_valid O)) as (HC & _).
  assert (L : length (ix (inds (core t)) v) = length order) by (apply (ov_len O); apply nth_In; rewrite (co_len HC); auto).
  destruct (bits_ok Hi) as (b' & E' & Lb & Tb). rewrite Eb in E'. injection E' as <-.
  destruct (tree_inds O W Hv) as (xs' & E' & Hxs). replace (mkPT (core t) (n_tensors t) (tensors_pos t) (inds_order t)) with t in E' by (destruct t; reflexivity).
  rewrite Exs in E'. injection E' as <-.
  destruct (core_given G Ek) as (V & Hs).
  set (dimf := fun x => Z.to_N (dimension (dims (core t)) (rf order x))).
  assert (Iy : incl ys order) by (intros x Hx; apply Hys in Hx; destruct Hx; auto).
  assert (HL : lists (unique ys) (fun x => In x ys)) by (apply lists_of_list; intros x; tauto).
  assert (Hg : dims_give (PyDict (py_dims t)) m ys dimf).
  { pose proof (tree_give O Ek G Iy) as H. replace (mkPT (core t) (n_tensors t) (tensors_pos t) (inds_order t)) with t in H by (destruct t; reflexivity). exact H. }
  rewrite (@py_width_ok lg (mkPF mx m wt) ys (PyDict (py_dims t)) dimf (unique ys) Hl V); auto.
  f_equal. symmetry. cbn [pf_model].
  apply (@width_values order (sparse_of m) (pm_projs m) dimf (dims (core t))) with (Q := fun x => In x ys); auto.
  - intros i x Hx. apply (tree_dims O Hx).
  - apply (tree_model O Ek G).
  - rewrite band_len; congruence.
  - apply (rank_iff O); [rewrite band_len; congruence|]. intros x. rewrite Hys, Hxs. split.
    + intros ((i & Ei & Hx) & Hsk). exists i. split; auto. rewrite band_test by congruence. rewrite Hx. cbn. apply Tb, in_rf. exists x. split; auto. symmetry. apply rf_of; auto. apply (ov_nodup O).
    + intros (i & Ei & Hx). rewrite band_test in Hx by congruence. apply andb_true_iff in Hx. destruct Hx as (Hx & Hb). split; [eauto|]. apply Tb, in_rf in Hb. destruct Hb as (y & Ey & Hy).
      assert (E : rf order x = i) by (apply rf_of; auto; apply (ov_nodup O)). destruct (rf_ok (Hi y Hy)) as (_ & E1).  rewrite <- Ey in E1. congruence.
Qed.
End Skips.
Lemma fo_make_skips (R : Type) lg (fr : frand R) p ts d output chk t m maxnew (r : R) ds skip : pytree_make p ts d output chk = Ok t -> well_formed (nodes (core t)) ->
  log_like lg -> model_valid (pf_model m) -> (0 <= pf_max m)%Z -> incl (sparse_of (pf_model m)) (inds_order t) -> incl skip (inds_order t) ->
  (skips_too_wide lg m t skip -> fo_make lg fr t m maxnew r ds skip None None None = Err Throw) /\
  (~ skips_too_wide lg m t skip -> shuffles fr -> 1 < length (nodes (core t)) -> ctree_is_valid (core t) (negb ds) = true ->
   exists o, fo_make lg fr t m maxnew r ds skip None None None = Ok o).
Proof.
  intros Ht W Hl V Hmx Hs Hi. pose proof (over_make Ht) as O. destruct (core_ok V (or_introl (ov_nodup O)) Hs) as (k & Ek & _).
  assert (G : good_projs (pf_model m)) by exact (proj1 V).
  destruct (bits_ok Hi) as (b & Eb & Lb & _). destruct m as [mx m wt]. cbn [pf_model pf_max] in *.
  assert (Em : fmodel_make k mx = Ok (mkFM k mx)).
  { pose proof (pm_core_ok G Ek) as Hk. unfold fmodel_make. apply Z.ltb_ge in Hmx. rewrite Hmx. destruct k as [|sp np]; auto. destruct Hk as (_ & Hk). destruct (Z.eqb_spec np 0); [lia|auto]. }
  assert (F : forallb (fun x => memb x (inds_order t)) skip = true) by (apply forallb_forall; intros x Hx; apply memb_In; auto).
  unfold fo_make. rewrite F. cbn [negb opt_bits bind pf_model pf_max]. rewrite Eb, Ek. cbn [bind]. rewrite Em. cbn [bind].
  assert (W' := W). apply wf_iff in W'. destruct (valid_core W' (ov_valid O)) as (HC & _).
  assert (HH : skips_too_wide lg (mkPF mx m wt) t skip <-> existsb (fun xs => (mx <? width_of lg (mkFM k mx) (band xs b) (dims (core t)))%Z) (inds (core t)) = true).
  { rewrite existsb_exists. split.
    - intros (v & xs & ys & w & Hv & Exs & Hys & Ew & Hw). exists (ix (inds (core t)) v). split; [apply nth_In; rewrite (co_len HC); auto|].
      rewrite (skip_width O W Ek G wt Hl Hmx Hi Eb Hv Exs Hys) in Ew. injection Ew as <-. apply Z.ltb_lt. exact Hw.
    - intros (bs & Hbs & Hw). apply (In_nth _ _ []) in Hbs. destruct Hbs as (v & Hv' & <-). assert (Hv : v < length (nodes (core t))) by (rewrite <- (co_len HC); exact Hv'). apply Z.ltb_lt in Hw.
      destruct (tree_inds O W Hv) as (xs & Exs & _). replace (mkPT (core t) (n_tensors t) (tensors_pos t) (inds_order t)) with t in Exs by (destruct t; reflexivity).
      exists v, xs, (filter (fun x => memb x skip) xs). eexists. split; auto. split; [exact Exs|].
      assert (Hys : forall x, In x (filter (fun x => memb x skip) xs) <-> In x xs /\ In x skip) by (intros x; rewrite filter_In, memb_In; tauto).
      split; [exact Hys|]. split; [apply (skip_width O W Ek G wt Hl Hmx Hi Eb Hv Exs Hys)|exact Hw]. }
  split.
  - intros H. apply HH in H. unfold py_fw_make. cbn [fm_max]. rewrite H. reflexivity.
  - intros H Hf H1 Hval. assert (E : existsb (fun xs => (mx <? width_of lg (mkFM k mx) (band xs b) (dims (core t)))%Z) (inds (core t)) = false).
    { destruct (existsb _ _) eqn:E; auto. exfalso. apply H, HH. auto. }
    assert (Hcm : cmodel_ok (fm_cm (mkFM k mx)) (n_inds (core t))) by (rewrite (over_n_inds O); apply (pm_core_ok G Ek)).
    assert (Hsk : skips_fit lg (fm_cm (mkFM k mx)) (fm_max (mkFM k mx)) (n_inds (core t)) (core t) (mem b)).
    { intros v Hv. rewrite <- not_true_iff_false, existsb_exists in E. apply Z.le_ngt. intros Hlt. apply E. exists (ix (inds (core t)) v). split; [apply nth_In; auto|].
      assert (L : length (ix (inds (core t)) v) = length (inds_order t)) by (apply (ov_len O); apply nth_In; auto).
      apply Z.ltb_lt. rewrite (@width_spec lg (mkFM k mx) _ _ (n_inds (core t))); auto; [|rewrite (over_n_inds O), band_len; congruence].
      eapply Z.lt_le_trans; [exact Hlt|]. apply Z.eq_le_incl. apply set_width_ext. intros i _.
      change (mem (band (ix (inds (core t)) v) b) i) with (btest (band (ix (inds (core t)) v) b) i). rewrite band_test by congruence. reflexivity. }
    destruct (@f16_make R lg (mkFM k mx) fr (core t) maxnew r ds b Hcm Hl Hf W H1 Hval) as (s0 & E0 & _); auto; [rewrite (over_n_inds O); auto|].
    rewrite E0. cbn [bind]. eauto.
Qed.
