(** Costs and widths by position and by name. *)
From Coq Require Import Permutation.
From Verif Require Import P_Base P_Opt P_PyMain.
From Verif Require Import M_Base M_Bitset M_Tree M_CTree M_Cost M_FinWidth M_Path M_PyTree M_PyNodes M_App S_Tree S_Opt S_FinWidth S_Path S_PyTree S_Random S_Network S_App.
From Verif Require Import P_Bitset P_Path P_Split P_PathMain.
Set Implicit Arguments.
Unset Strict Implicit.

Lemma prod_list p f n : prod_over p f n = fold_right (fun i k => (f i * k)%Z) 1%Z (filter p (seq 0 n)).
Proof.
  induction n as [|n IH]; [reflexivity|]. rewrite seq_S, filter_app. simpl prod_over. rewrite IH. clear IH.
  cbn [Nat.add filter]. generalize (filter p (seq 0 n)) as l. intros l. destruct (p n); cbn [app].
  - induction l as [|a l IHl]; cbn [app fold_right]; [ring|]. rewrite <- IHl. ring.
  - rewrite app_nil_r. ring.
Qed.
Lemma sum_list p f n : sum_over p f n = fold_right (fun i k => (f i + k)%Z) 0%Z (filter p (seq 0 n)).
Proof.
  induction n as [|n IH]; [reflexivity|]. rewrite seq_S, filter_app. simpl sum_over. rewrite IH. clear IH.
  cbn [Nat.add filter]. generalize (filter p (seq 0 n)) as l. intros l. destruct (p n); cbn [app].
  - induction l as [|a l IHl]; cbn [app fold_right]; [ring|]. rewrite <- IHl. ring.
  - rewrite app_nil_r. ring.
Qed.

Section Names.
Variables (order sparse : list nat) (np : option Z) (dim : nat -> N) (dd : dims_t).
Hypothesis HN : NoDup order.
Hypothesis Hdd : forall i x, nth_error order i = Some x -> dimension dd i = Z.of_N (dim x).
Hypothesis Hnp : forall k, np = Some k -> (1 <= k)%Z.
Let n := length order.
Let nm (i : nat) : nat := nth i order 0.
Definition named (p : nat -> bool) : list nat := map nm (filter p (seq 0 n)).

Lemma nm_inj i j : i < n -> j < n -> nm i = nm j -> i = j.
Proof. intros Hi Hj E. apply (proj1 (NoDup_nth order 0) HN); auto. Qed.
Lemma nm_at i : i < n -> nth_error order i = Some (nm i).
Proof. intros H. apply nth_error_nth'. auto. Qed.
Lemma named_in p x : In x (named p) <-> exists i, nth_error order i = Some x /\ p i = true.
Proof.
  unfold named. rewrite in_map_iff. split.
  - intros (i & <- & Hi). apply filter_In in Hi. destruct Hi as (Hi & Hp). apply in_seq in Hi. exists i. split; auto. apply nm_at. lia.
  - intros (i & Ei & Hp). exists i. split; [apply nth_error_nth; auto|]. apply filter_In. split; auto. apply in_seq. apply nth_error_lt in Ei. fold n in Ei. lia.
Qed.
Lemma named_nodup p : NoDup (named p).
Proof.
  unfold named. assert (G : forall l, NoDup l -> (forall i, In i l -> i < n) -> NoDup (map nm l)).
  { induction l as [|i l IH]; simpl; intros H1 H2; [constructor|]. inversion H1; subst. constructor; [|apply IH; auto].
    intros I. apply in_map_iff in I. destruct I as (j & E & Hj). apply nm_inj in E; auto. subst. auto. }
  apply G; [apply NoDup_filter; apply seq_NoDup|]. intros i Hi. apply filter_In in Hi. destruct Hi as (Hi & _). apply in_seq in Hi. lia.
Qed.
Lemma named_filter p q : filter q (named p) = named (fun i => p i && q (nm i)).
Proof.
  unfold named. induction (seq 0 n) as [|i l IH]; simpl; auto. destruct (p i); simpl; [|auto]. destruct (q (nm i)); simpl; rewrite IH; auto.
Qed.
Lemma named_ext p q : (forall i, i < n -> p i = q i) -> named p = named q.
Proof. intros H. unfold named. f_equal. apply filter_ext_in. intros i Hi. apply in_seq in Hi. apply H. lia. Qed.

Lemma size_named p : S_App.size dim (named p) = prod_over p (dimension dd) n.
Proof.
  rewrite prod_list. unfold S_App.size, named. assert (G : forall l, (forall i, In i l -> i < n) ->
    fold_right (fun x k => (Z.of_N (dim x) * k)%Z) 1%Z (map nm l) = fold_right (fun i k => (dimension dd i * k)%Z) 1%Z l).
  { induction l as [|i l IH]; simpl; auto. intros H. rewrite IH by auto. rewrite (@Hdd i (nm i)) by (apply nm_at; auto). auto. }
  apply G. intros i Hi. apply filter_In in Hi. destruct Hi as (Hi & _). apply in_seq in Hi. lia.
Qed.
Lemma log_named lg p : log_size dim lg (named p) = sum_over p (log_dim lg dd) n.
Proof.
  rewrite sum_list. unfold log_size, named. assert (G : forall l, (forall i, In i l -> i < n) ->
    fold_right (fun x k => (lg (dim x) + k)%Z) 0%Z (map nm l) = fold_right (fun i k => (log_dim lg dd i + k)%Z) 0%Z l).
  { induction l as [|i l IH]; simpl; auto. intros H. rewrite IH by auto. f_equal.
    assert (E : dimension dd i = Z.of_N (dim (nm i))) by (apply Hdd, nm_at; auto). unfold dimension in E. unfold log_dim. destruct dd; f_equal; lia. }
  apply G. intros i Hi. apply filter_In in Hi. destruct Hi as (Hi & _). apply in_seq in Hi. lia.
Qed.

(** The cost model is the one of the indices [order]. *)
Definition model_is (m : cmodel) : Prop :=
  match m with
  | Simple => sparse = []
  | Sparse b k => length b = n /\ np = Some k /\ forall i, i < n -> nth i b false = sparse_index sparse (nm i)
  end.
Lemma model_ok m : model_is m -> cmodel_ok m n.
Proof. destruct m as [|b k]; simpl; auto. intros (A & B & _). split; auto. Qed.

Lemma values_named m p : model_is m ->
  values sparse np dim (named p) =
  match m with
  | Simple => prod_over p (dimension dd) n
  | Sparse sp k => prod_over (fun x => p x && negb (nth x sp false)) (dimension dd) n * Z.min (prod_over (fun x => p x && nth x sp false) (dimension dd) n) k
  end%Z.
Proof.
  intros Hm. unfold values. rewrite !named_filter, !size_named. destruct m as [|b k]; simpl in Hm.
  - assert (E : forall x, sparse_index sparse x = false) by (intros x; rewrite Hm; reflexivity).
    rewrite <- !size_named.
    rewrite (@named_ext (fun i => p i && dense_index sparse (nm i)) p).
    2:{ intros i _. unfold dense_index. rewrite E. apply andb_true_r. }
    rewrite (@named_ext (fun i => p i && sparse_index sparse (nm i)) (fun _ => false)).
    2:{ intros i _. rewrite E. apply andb_false_r. }
    assert (E0 : named (fun _ : nat => false) = []). { unfold named. induction (seq 0 n); simpl; auto. }
    rewrite E0. change (S_App.size dim []) with 1%Z.
    assert (1 <= projections np)%Z by (unfold projections; destruct np; [apply Hnp; auto|lia]). rewrite Z.min_l by auto. apply Z.mul_1_r.
  - destruct Hm as (L & Enp & Hs). unfold projections. rewrite Enp. rewrite <- !size_named. f_equal; [|f_equal]; f_equal; apply named_ext; intros i Hi; unfold dense_index; rewrite Hs by auto; auto.
Qed.
Lemma width_named lg m p : log_like lg -> model_is m -> width sparse np dim lg (named p) = set_width lg m dd n p.
Proof.
  intros Hl Hm. unfold width, set_width. rewrite !named_filter, !log_named. destruct m as [|b k]; simpl in Hm.
  - assert (E : forall x, sparse_index sparse x = false) by (intros x; rewrite Hm; reflexivity).
    rewrite <- !log_named.
    rewrite (@named_ext (fun i => p i && dense_index sparse (nm i)) p).
    2:{ intros i _. unfold dense_index. rewrite E. apply andb_true_r. }
    rewrite (@named_ext (fun i => p i && sparse_index sparse (nm i)) (fun _ => false)).
    2:{ intros i _. rewrite E. apply andb_false_r. }
    assert (E0 : named (fun _ : nat => false) = []). { unfold named. induction (seq 0 n); simpl; auto. }
    rewrite E0. change (log_size dim lg []) with 0%Z.
    assert (P1 : (1 <= projections np)%Z) by (unfold projections; destruct np; [apply Hnp; auto|lia]).
    assert (P2 : (0 <= lg (Z.to_N (projections np)))%Z) by (apply Hl; lia). lia.
  - destruct Hm as (L & Enp & Hs). unfold projections. rewrite Enp. rewrite <- !log_named. f_equal; [|f_equal]; f_equal; apply named_ext; intros i Hi; unfold dense_index; rewrite Hs by auto; auto.
Qed.
End Names.

(** The model that __get_core__ builds. *)
Lemma get_core_ok sparse np order : NoDup order -> (sparse <> [] -> np <> None) -> (forall x, In x sparse -> In x order) ->
  exists m, get_core sparse np order = Ok m /\ model_is order sparse np m.
Proof.
  intros HN Hg Hs. unfold get_core. destruct sparse as [|x0 sp0] eqn:Esp; [exists Simple; split; reflexivity|].
  destruct np as [k|]; [|exfalso; apply Hg; [discriminate|reflexivity]]. rewrite <- Esp in *.
  assert (F : forallb (fun x => memb x order) sparse = true) by (apply forallb_forall; intros x Hx; apply memb_In; auto).
  rewrite F. cbn [negb]. rewrite rank_all_ok by (intros x Hx; auto). cbn [bind].
  destruct (@of_positions_ok (map (rf order) sparse) (length order)) as (b & E & L & Hb).
  { intros i Hi. apply rf_in in Hi; auto. destruct Hi as (x & Ei & _). eapply nth_error_lt; eauto. }
  rewrite E. cbn [bind]. exists (Sparse b k). split; auto. simpl. split; auto. split; auto. intros i Hi.
  assert (G : nth i b false = true <-> sparse_index sparse (nth i order 0) = true).
  { change (btest b i = true <-> sparse_index sparse (nth i order 0) = true). rewrite Hb, rf_in; auto. unfold sparse_index. rewrite existsb_exists. split.
    - intros (x & Ex & Hx). exists x. split; auto. rewrite (nth_error_nth _ _ _ Ex). apply Nat.eqb_refl.
    - intros (x & Hx & Ex). apply Nat.eqb_eq in Ex. exists x. split; auto. rewrite <- Ex. apply nth_error_nth'. auto. }
  destruct (nth i b false), (sparse_index sparse (nth i order 0)); auto; [symmetry; apply G; auto|apply G; auto].
Qed.
