(** The connected components of get_random_contraction_path: two indices get the same
    colour if and only if a chain of tensors connects them. *)
From Coq Require Import List Arith Bool Lia Permutation.
Import ListNotations.
From Verif Require Import M_Base M_Path M_PyTree M_Random S_Path S_Random P_Path P_Split P_PathMain P_PyBuild.
Set Implicit Arguments.
Unset Strict Implicit.

Lemma get_nth (A : Type) (d : A) (l : list A) i : i < length l -> get l i = Ok (nth i l d).
Proof. intros H. unfold get. rewrite (nth_error_nth' l d H). auto. Qed.
Lemma get_all_nth (A : Type) (d : A) (l : list A) xs : (forall x, In x xs -> x < length l) -> get_all l xs = Ok (map (fun x => nth x l d) xs).
Proof.
  induction xs as [|x xs IH]; intros H; simpl; auto. rewrite (get_nth d) by (apply H; left; auto). cbn [bind].
  rewrite IH by (intros; apply H; right; auto). auto.
Qed.
Lemma upd_len (A : Type) (l : list A) : forall i x, length (upd l i x) = length l.
Proof. induction l as [|a l IH]; intros [|i] x; simpl; auto. Qed.
Lemma set_ok (A : Type) (l : list A) i x : i < length l -> set l i x = Ok (upd l i x).
Proof. intros H. unfold set. apply Nat.ltb_lt in H. rewrite H. auto. Qed.

Lemma set_all_ok ks v : forall l, (forall k, In k ks -> k < length l) -> exists l', set_all ks v l = Ok l' /\ length l' = length l /\
  forall j, nth j l' 0 = if memb j ks then v else nth j l 0.
Proof.
  induction ks as [|k ks IH]; intros l H; simpl; [exists l; auto|].
  rewrite set_ok by (apply H; left; auto). cbn [bind].
  destruct (IH (upd l k v)) as (l' & E & L & N). { intros i Hi. rewrite upd_len. apply H. right. auto. }
  exists l'. rewrite upd_len in L. repeat split; auto. intros j. rewrite N. unfold memb. simpl.
  fold (memb j ks). rewrite nth_upd by (apply H; left; auto). destruct (memb j ks); auto; [rewrite orb_true_r; auto|]. rewrite orb_false_r. auto.
Qed.

Inductive linked (ts : list (list nat)) : nat -> nat -> Prop :=
| lk_refl x : linked ts x x
| lk_step x y z xs : linked ts x y -> In xs ts -> In y xs -> In z xs -> linked ts x z.
Lemma linked_trans ts x y z : linked ts x y -> linked ts y z -> linked ts x z.
Proof. intros H K. induction K as [|a b c xs K IH A B D]; auto. apply lk_step with b xs; auto. Qed.
Lemma linked_sym ts x y : linked ts x y -> linked ts y x.
Proof. intros H. induction H as [|a b c xs K IH A B D]; [constructor|]. apply (@linked_trans ts c b a); auto. apply lk_step with c xs; auto. constructor. Qed.
Lemma linked_mono ts ts' x y : incl ts ts' -> linked ts x y -> linked ts' x y.
Proof. intros H K. induction K as [|a b c xs K IH A B D]; [constructor|]. apply lk_step with b xs; auto. Qed.

Section Colors.
Variable pick : list nat -> nat.
Hypothesis Hpick : pick_ok pick.
Variable m : nat.

Record cinv (done : list (list nat)) (c2i : list (list nat)) (i2c : list nat) : Prop := {
  ci_l1 : length c2i = m;
  ci_l2 : length i2c = m;
  ci_lt : forall x, x < m -> nth x i2c 0 < m;
  ci_in : forall x y, x < m -> In y (nth (nth x i2c 0) c2i []) <-> y < m /\ nth y i2c 0 = nth x i2c 0;
  ci_mono : forall xs x y, In xs done -> In x xs -> In y xs -> nth x i2c 0 = nth y i2c 0;
  ci_link : forall x y, x < m -> y < m -> nth x i2c 0 = nth y i2c 0 -> linked done x y
}.

Lemma color_step_ok xs done c2i i2c : cinv done c2i i2c -> (forall x, In x xs -> x < m) -> (forall xs x, In xs done -> In x xs -> x < m) ->
  exists c2i' i2c', color_step pick xs c2i i2c = Ok (c2i', i2c') /\ cinv (done ++ [xs]) c2i' i2c'.
Proof.
  intros I Hx Hd. destruct xs as [|x0 xs0] eqn:Exs.
  - exists c2i, i2c. split; auto. destruct I. constructor; auto.
    + intros ws x y H. apply in_app_iff in H. destruct H as [H|[<-|[]]]; eauto. intros [].
    + intros x y A B E. apply (@linked_mono done); auto. intros z Hz. apply in_app_iff. auto.
  - rewrite <- Exs in *. assert (Hne : In x0 xs) by (subst xs; left; auto).
    unfold color_step. rewrite Exs. rewrite <- Exs.
    rewrite (get_all_nth 0) by (rewrite (ci_l2 I); auto). cbn [bind]. cbv zeta.
    set (cs := unique (map (fun x => nth x i2c 0) xs)).
    assert (Hcs : forall c, In c cs <-> exists x, In x xs /\ nth x i2c 0 = c).
    { intros c. unfold cs. rewrite unique_in, in_map_iff. split; intros (x & A & B); exists x; auto. }
    rewrite (get_all_nth []). 2:{ intros c Hc. rewrite (ci_l1 I). apply Hcs in Hc. destruct Hc as (x & A & <-). apply (ci_lt I). auto. }
    cbn [bind]. set (all := unique (concat (map (fun c => nth c c2i []) cs))).
    assert (Hall : forall y, In y all <-> y < m /\ In (nth y i2c 0) cs).
    { intros y. unfold all. rewrite unique_in, in_concat. split.
      - intros (l & A & B). apply in_map_iff in A. destruct A as (c & <- & Hc). pose proof Hc as Hc'. apply Hcs in Hc. destruct Hc as (x & Hxx & <-).
        apply (ci_in I) in B; auto. destruct B as [B1 B2]. split; auto. rewrite B2. auto.
      - intros [B1 B2]. exists (nth (nth y i2c 0) c2i []). split; [apply in_map_iff; eauto|]. apply (ci_in I); auto. }
    assert (Hpk : In (pick cs) cs). { apply Hpick. intros E. assert (In (nth x0 i2c 0) cs) by (apply Hcs; eauto). rewrite E in H. destruct H. }
    assert (Hpl : pick cs < m). { apply Hcs in Hpk. destruct Hpk as (x & A & <-). apply (ci_lt I). auto. }
    rewrite set_ok by (rewrite (ci_l1 I); auto). cbn [bind].
    destruct (set_all_ok (ks := all) (pick cs) (l := i2c)) as (i2c' & E & L & N). { intros k Hk. rewrite (ci_l2 I). apply Hall in Hk. tauto. }
    rewrite E. cbn [bind]. eexists _, _. split; [reflexivity|].
    assert (N' : forall y, y < m -> (In (nth y i2c 0) cs /\ nth y i2c' 0 = pick cs) \/ (~ In (nth y i2c 0) cs /\ nth y i2c' 0 = nth y i2c 0)).
    { intros y Hy. rewrite N. destruct (memb y all) eqn:M.
      - left. apply memb_In in M. apply Hall in M. tauto.
      - right. split; auto. intros K. apply memb_nIn in M. apply M, Hall. auto. }
    assert (Hstart : forall x, In x xs -> linked (done ++ [xs]) x0 x).
    { intros x Hxx. eapply lk_step; [constructor| | |apply Hxx]; [apply in_app_iff; right; left; auto|auto]. }
    assert (Hsub : incl done (done ++ [xs])) by (intros z Hz; apply in_app_iff; auto).
    assert (Hlk : forall y, y < m -> In (nth y i2c 0) cs -> linked (done ++ [xs]) x0 y).
    { intros y Hy K. apply Hcs in K. destruct K as (x & Hxx & Exy). apply linked_trans with x; auto.
      apply (linked_mono Hsub). apply (ci_link I); auto. }
    constructor.
    + rewrite upd_len. apply I.
    + rewrite L. apply I.
    + intros x Hxm. destruct (N' x Hxm) as [[_ ->]|[_ ->]]; auto. apply (ci_lt I); auto.
    + intros x y Hxm. rewrite nth_upd by (rewrite (ci_l1 I); auto).
      destruct (N' x Hxm) as [[A ->]|[A ->]].
      * rewrite Nat.eqb_refl. rewrite Hall. split; intros [B1 B2]; split; auto; destruct (N' y B1) as [[K1 K2]|[K1 K2]]; auto; try tauto.
        rewrite K2 in B2. rewrite B2 in K1. tauto.
      * destruct (Nat.eqb_spec (nth x i2c 0) (pick cs)) as [K|K]; [rewrite K in A; tauto|].
        rewrite (ci_in I) by auto. split; intros [B1 B2]; split; auto; destruct (N' y B1) as [[K1 K2]|[K1 K2]]; try congruence.
    + intros xs' x y H Hxx Hy. apply in_app_iff in H. destruct H as [H|[<-|[]]].
      * assert (x < m) by eauto. assert (y < m) by eauto. pose proof (ci_mono I H Hxx Hy) as E2. rewrite !N.
        assert (E3 : memb x all = memb y all). { apply eq_true_iff_eq. rewrite !memb_In, !Hall. rewrite E2. tauto. }
        rewrite E3, E2. auto.
      * rewrite !N. rewrite (proj2 (memb_In x all)), (proj2 (memb_In y all)); auto; apply Hall; split; auto; apply Hcs; eauto.
    + intros x y Hxm Hy E2. destruct (N' x Hxm) as [[A1 A2]|[A1 A2]], (N' y Hy) as [[B1 B2]|[B1 B2]].
      * apply linked_trans with x0; auto. apply linked_sym; auto.
      * rewrite A2, B2 in E2. rewrite <- E2 in B1. tauto.
      * rewrite A2, B2 in E2. rewrite E2 in A1. tauto.
      * rewrite A2, B2 in E2. apply (linked_mono Hsub). apply (ci_link I); auto.
Qed.

Lemma color_loop_ok ts : forall done c2i i2c, cinv done c2i i2c -> (forall xs x, In xs (done ++ ts) -> In x xs -> x < m) ->
  exists c2i' i2c', color_loop pick ts c2i i2c = Ok i2c' /\ cinv (done ++ ts) c2i' i2c'.
Proof.
  induction ts as [|xs ts IH]; intros done c2i i2c I H.
  - exists c2i, i2c. rewrite app_nil_r. auto.
  - destruct (@color_step_ok xs done c2i i2c I) as (c2i1 & i2c1 & E & I1).
    + intros x Hx. apply (H xs); auto. apply in_app_iff. right. left. auto.
    + intros ys x Hys. apply H. apply in_app_iff. auto.
    + simpl. rewrite E. cbn [bind]. destruct (IH _ _ _ I1) as (c2i2 & i2c2 & E2 & I2).
      * intros ys x. rewrite <- app_assoc. apply H.
      * exists c2i2, i2c2. rewrite <- app_assoc in I2. auto.
Qed.

Lemma colors_ok ts : (forall xs x, In xs ts -> In x xs -> x < m) ->
  exists i2c, colors pick m ts = Ok i2c /\ length i2c = m /\
    (forall xs x y, In xs ts -> In x xs -> In y xs -> nth x i2c 0 = nth y i2c 0) /\
    (forall x y, x < m -> y < m -> nth x i2c 0 = nth y i2c 0 -> linked ts x y).
Proof.
  intros H. unfold colors. destruct (@color_loop_ok ts [] (map (fun x => [x]) (seq 0 m)) (seq 0 m)) as (c & i & E & I); auto.
  - constructor.
    + rewrite map_length, seq_length. auto.
    + apply seq_length.
    + intros x Hx. rewrite seq_nth; auto.
    + intros x y Hx. rewrite seq_nth by auto. rewrite (nth_indep _ [] [0]) by (rewrite map_length, seq_length; auto).
      rewrite (map_nth (fun x => [x]) (seq 0 m) 0). rewrite seq_nth by auto. simpl. split.
      * intros [<-|[]]. rewrite seq_nth by auto. auto.
      * intros [Hy E]. rewrite seq_nth in E by auto. left. simpl in E. auto.
    + intros xs x y [].
    + intros x y Hx Hy. rewrite !seq_nth by auto. simpl. intros ->. constructor.
  - exists i. split; auto. split; [apply I|]. split; [apply I|]. apply I.
Qed.
End Colors.

(** The groups partition the indices. *)
Lemma groups_ok i2c K : In K (groups i2c) <-> exists c, In c i2c /\ K = filter (fun x => nth x i2c 0 =? c) (seq 0 (length i2c)).
Proof. unfold groups. rewrite in_map_iff. split; intros (c & A & B); exists c; [rewrite unique_in in B; auto|rewrite unique_in; auto]. Qed.
Lemma groups_in i2c a K : nth_error (groups i2c) a = Some K -> exists c, nth_error (unique i2c) a = Some c /\
  forall x, In x K <-> x < length i2c /\ nth x i2c 0 = c.
Proof.
  unfold groups. intros H. rewrite nth_error_map in H. destruct (nth_error (unique i2c) a) as [c|] eqn:E; [|discriminate].
  exists c. split; auto. intros x. inversion H; subst. rewrite filter_In, in_seq, Nat.eqb_eq. split; intros [A B]; split; auto; lia.
Qed.
Lemma groups_disj i2c a b K K' x : nth_error (groups i2c) a = Some K -> nth_error (groups i2c) b = Some K' -> In x K -> In x K' -> a = b.
Proof.
  intros A B HA HB. apply groups_in in A. apply groups_in in B. destruct A as (c & Ea & Ha). destruct B as (c' & Eb & Hb).
  apply Ha in HA. apply Hb in HB. destruct HA as [H1 H2]. destruct HB as [_ H3]. rewrite H2 in H3. subst c'.
  apply (NoDup_nth_error (unique i2c)); [apply unique_nodup| |congruence]. apply nth_error_Some. congruence.
Qed.
Lemma groups_cover i2c x : x < length i2c -> exists a K, nth_error (groups i2c) a = Some K /\ In x K.
Proof.
  intros H. assert (A : In (nth x i2c 0) (unique i2c)) by (apply unique_in, nth_In; auto).
  apply In_nth_error in A. destruct A as (a & A). exists a. unfold groups. rewrite nth_error_map, A. simpl. eexists. split; [reflexivity|].
  apply filter_In. rewrite Nat.eqb_eq. split; auto. apply in_seq. lia.
Qed.
