(** Circuits as sums over the values of wires. *)
From Coq Require Import List Arith Lia Permutation Bool Ring.
Import ListNotations.
From Verif Require Import P_Base P_Opt P_PyMain.
From Verif Require Import M_Base M_Path M_PyTree M_OSet M_Tensor M_Contract M_Circuit S_Path S_PyTree S_Random S_Network S_Fuse S_Tensor S_Contract S_Circuit.
From Verif Require Import P_Path P_Split P_PathMain P_PyBuild P_PyTens P_OSet P_Sum P_Array P_Tensordot P_DecomposeSum.
From Verif Require Import M_Path M_PyTree.
Set Implicit Arguments.
Unset Strict Implicit.

Section Wires.
Variable K : Type.
Variable F : nums K.
Local Notation A := (n_alg F).
Hypothesis SR : semiring A.
Let SR1 : semi_ring_theory (zero A) (one A) (add A) (mul A) eq := SR.
Add Ring KR : SR1.
Local Notation two := (fun _ : nat => 2).
Notation so := (sum_over A two).

Lemma so_rename Q rho f qs : NoDup qs -> (forall q q', In q qs -> In q' Q -> rho q = rho q' -> q = q') -> depends_on Q f ->
  forall v W, (forall q, In q Q -> ~ In q qs -> v q = W (rho q)) -> so qs f v = so (map rho qs) (fun W' => f (fun q => W' (rho q))) W.
Proof.
  induction qs as [|q qs IH]; intros N HR D v W H.
  - simpl. apply D. intros q Hq. apply H; auto.
  - cbn [map sum_over]. apply sum_upto_ext. intros i _. inversion N; subst. apply IH; auto.
    + intros a b Ha. apply HR. right. auto.
    + intros q' Hq' Hn. unfold assign. destruct (Nat.eqb_spec q' q) as [->|Ne].
      * rewrite Nat.eqb_refl. auto.
      * destruct (Nat.eqb_spec (rho q') (rho q)) as [E|_]; [exfalso; apply Ne; symmetry; apply HR; auto; left; auto|].
        apply H; auto. intros [E|E]; auto.
Qed.

Lemma element_depends (g : nda K * list nat) v : depends_on (snd g) (fun w => element F g v w).
Proof. intros w w' H. unfold element. do 3 f_equal. f_equal. apply map_ext_in. auto. Qed.
Lemma element_ext (g : nda K * list nat) v v' w w' : (forall q, In q (snd g) -> v q = v' q) -> (forall q, In q (snd g) -> w q = w' q) -> element F g v w = element F g v' w'.
Proof. intros H H'. unfold element. rewrite (map_ext_in _ _ _ H), (map_ext_in _ _ _ H'). auto. Qed.

Lemma act_state Q g psi : incl (snd g) Q -> state_of Q psi -> state_of Q (act F g psi).
Proof.
  intros Hg HP v w H. unfold act.
  transitivity (so (snd g) (fun u => mul A (element F g w u) (psi u)) v).
  - apply so_ext. intros u _ _. f_equal. apply element_ext; auto.
  - apply so_depends with (xs := Q); [|intros; apply H; auto]. intros u u' Hu. rewrite (HP u u' Hu). f_equal. apply element_ext; auto.
Qed.
Lemma run_state Q gs : forall psi, (forall g, In g gs -> incl (snd g) Q) -> state_of Q psi -> state_of Q (run F gs psi).
Proof.
  induction gs as [|g gs IH]; intros psi Hg HP; [exact HP|]. cbn [run fold_left]. apply IH.
  - intros; apply Hg; right; auto.
  - apply act_state; auto. apply Hg. left. auto.
Qed.

Variable nm : nat -> nat -> nat.
Variable Q : list nat.
Variable L : nat -> nat.
Hypothesis D : forall q q' t t', In q Q -> In q' Q -> t <= L q -> t' <= L q' -> nm q t = nm q' t' -> q = q' /\ t = t'.

Definition step (cur : nat -> nat) (g : nda K * list nat) : nat -> nat := fun q => if memb q (snd g) then S (cur q) else cur q.
Definition rows (cur : nat -> nat) (g : nda K * list nat) := map (fun q => nm q (S (cur q))) (snd g).
Definition cols (cur : nat -> nat) (g : nda K * list nat) := map (fun q => nm q (cur q)) (snd g).
Definition gval (cur : nat -> nat) (g : nda K * list nat) (W : nat -> nat) : K :=
  element F g (fun q => W (nm q (S (cur q)))) (fun q => W (nm q (cur q))).
Fixpoint pprod (gs : list (nda K * list nat)) cur W : K :=
  match gs with [] => one A | g :: gs' => mul A (gval cur g W) (pprod gs' (step cur g) W) end.
Fixpoint inner (gs : list (nda K * list nat)) cur : list nat :=
  match gs with [] => [] | g :: gs' => inner gs' (step cur g) ++ cols cur g end.
Fixpoint wires (gs : list (nda K * list nat)) cur : list nat :=
  match gs with [] => [] | g :: gs' => rows cur g ++ cols cur g ++ wires gs' (step cur g) end.
Fixpoint fin (gs : list (nda K * list nat)) cur : nat -> nat :=
  match gs with [] => cur | g :: gs' => fin gs' (step cur g) end.

Lemma step_in cur (g : nda K * list nat) q : In q (snd g) -> step cur g q = S (cur q).
Proof. intros H. unfold step. rewrite (proj2 (memb_In _ _) H). auto. Qed.
Lemma step_out cur (g : nda K * list nat) q : ~ In q (snd g) -> step cur g q = cur q.
Proof. intros H. unfold step. rewrite (proj2 (memb_nIn _ _) H). auto. Qed.
Lemma step_le cur g q : cur q <= step cur g q.
Proof. unfold step. destruct (memb q (snd g)); lia. Qed.
Lemma fin_le gs : forall cur q, cur q <= fin gs cur q.
Proof. induction gs as [|g gs IH]; intros cur q; simpl; auto. pose proof (step_le cur g q). pose proof (IH (step cur g) q). lia. Qed.

Lemma gval_depends cur g : depends_on (rows cur g ++ cols cur g) (gval cur g).
Proof.
  intros v w H. unfold gval. apply element_ext; intros q Hq; apply H; apply in_app_iff; [left|right]; apply in_map_iff; eauto.
Qed.
Lemma pprod_depends gs : forall cur, depends_on (wires gs cur) (pprod gs cur).
Proof.
  induction gs as [|g gs IH]; intros cur v w H; simpl; auto. f_equal.
  - apply gval_depends. intros x Hx. apply H. simpl. rewrite !in_app_iff. apply in_app_iff in Hx. tauto.
  - apply IH. intros x Hx. apply H. simpl. rewrite !in_app_iff. tauto.
Qed.
Lemma wires_in gs : forall cur x, (forall g, In g gs -> incl (snd g) Q) -> In x (wires gs cur) -> exists q t, x = nm q t /\ In q Q /\ cur q <= t <= fin gs cur q.
Proof.
  induction gs as [|g gs IH]; intros cur x Hg H; [destruct H|]. simpl in H. rewrite !in_app_iff in H. pose proof (Hg g (or_introl eq_refl)) as G.
  destruct H as [H|[H|H]].
  - apply in_map_iff in H. destruct H as (q & <- & Hq). exists q, (S (cur q)). split; auto. split; auto. split; [lia|].
    simpl. rewrite <- (step_in cur Hq). apply fin_le.
  - apply in_map_iff in H. destruct H as (q & <- & Hq). exists q, (cur q). split; auto. split; auto. split; [lia|].
    simpl. pose proof (step_le cur g q). pose proof (fin_le gs (step cur g) q). lia.
  - apply IH in H; [|intros; apply Hg; right; auto]. destruct H as (q & t & -> & Hq & Ht). exists q, t. split; auto. split; auto.
    pose proof (step_le cur g q). simpl. lia.
Qed.
Lemma inner_in gs : forall cur x, (forall g, In g gs -> incl (snd g) Q) -> In x (inner gs cur) <-> exists q t, x = nm q t /\ In q Q /\ cur q <= t < fin gs cur q.
Proof.
  induction gs as [|g gs IH]; intros cur x Hg; simpl.
  - split; [tauto|]. intros (q & t & _ & _ & H). lia.
  - rewrite in_app_iff, IH by (intros; apply Hg; right; auto). pose proof (Hg g (or_introl eq_refl)) as G. split.
    + intros [(q & t & -> & Hq & Ht)|H].
      * exists q, t. split; auto. split; auto. pose proof (step_le cur g q). lia.
      * apply in_map_iff in H. destruct H as (q & <- & Hq). exists q, (cur q). split; auto. split; auto.
        pose proof (fin_le gs (step cur g) q). rewrite (step_in cur Hq) in *. lia.
    + intros (q & t & -> & Hq & Ht). destruct (le_lt_dec (step cur g q) t); [left; exists q, t; split; auto; split; auto; lia|].
      right. unfold step in *. destruct (memb q (snd g)) eqn:E; [|lia]. apply memb_In in E. assert (t = cur q) by lia. subst. apply in_map_iff. eauto.
Qed.
Lemma inner_nodup gs : forall cur, (forall g, In g gs -> NoDup (snd g) /\ incl (snd g) Q) -> (forall q, In q Q -> fin gs cur q <= L q) -> NoDup (inner gs cur).
Proof.
  induction gs as [|g gs IH]; intros cur Hg HL; simpl; [constructor|]. destruct (Hg g (or_introl eq_refl)) as [N G].
  apply NoDup_app. split; [apply IH; auto; intros; apply Hg; right; auto|]. split.
  - assert (M : forall l, NoDup l -> incl l (snd g) -> NoDup (map (fun q => nm q (cur q)) l)).
    { induction l as [|q l IHl]; intros Nl Il; simpl; [constructor|]. inversion Nl; subst. constructor; [|apply IHl; auto; intros x Hx; apply Il; right; auto].
      intros E. apply in_map_iff in E. destruct E as (q' & E & Hq'). apply H1.
      assert (q' = q) as ->; auto. assert (B : forall q, In q Q -> cur q <= L q) by (intros a Ha; pose proof (fin_le (g :: gs) cur a); specialize (HL a Ha); lia).
      destruct (fun X Y => D X Y (B _ X) (B _ Y) E); auto; apply G; apply Il; [right|left]; auto. }
    apply M; auto. apply incl_refl.
  - intros x Hx Hy. apply inner_in in Hx; [|intros; apply Hg; right; auto]. destruct Hx as (q & t & -> & Hq & Ht). apply in_map_iff in Hy.
    destruct Hy as (q' & E & Hq'). pose proof (G _ Hq') as Gq'. simpl in HL. pose proof (HL _ Hq). pose proof (HL _ Gq'). pose proof (fin_le gs (step cur g) q').
    pose proof (step_le cur g q'). destruct (D Gq' Hq (t := cur q') (t' := t)) as [-> Et]; auto; try lia. rewrite (step_in cur Hq') in *. lia.
Qed.

Lemma act_wires cur (g : nda K * list nat) psi W : NoDup (snd g) -> incl (snd g) Q -> (forall q, In q Q -> step cur g q <= L q) -> state_of Q psi ->
  act F g psi (fun q => W (nm q (step cur g q))) = so (cols cur g) (fun W' => mul A (gval cur g W') (psi (fun q => W' (nm q (cur q))))) W.
Proof.
  intros N G HL HP. unfold act. set (v := fun q => W (nm q (step cur g q))).
  assert (B : forall q, In q Q -> cur q <= L q) by (intros q Hq; pose proof (step_le cur g q); specialize (HL q Hq); lia).
  rewrite (@so_rename Q (fun q => nm q (cur q)) (fun w => mul A (element F g v w) (psi w)) (snd g) N) with (W := W).
  - apply so_ext. intros W' HW _. f_equal. unfold gval. apply element_ext; auto. intros q Hq. unfold v. rewrite (step_in cur Hq).
    symmetry. apply HW. intros E. apply in_map_iff in E. destruct E as (q' & E & Hq'). specialize (HL q (G _ Hq)). rewrite (step_in cur Hq) in HL.
    destruct (D (G _ Hq') (G _ Hq) (B _ (G _ Hq')) HL E) as [-> E']. lia.
  - intros q q' Hq Hq' E. apply (D (G _ Hq) Hq' (B _ (G _ Hq)) (B _ Hq') E).
  - intros u u' Hu. rewrite (HP u u' Hu). f_equal. apply element_ext; auto.
  - intros q Hq Hn. unfold v. rewrite step_out; auto.
Qed.

(** The state after the gates is the sum, over the values of all wires but the last
    ones, of the product of the entries of the gates and the first state. *)
Theorem path_sum gs : forall cur psi W, (forall g, In g gs -> NoDup (snd g) /\ incl (snd g) Q) -> (forall q, In q Q -> fin gs cur q <= L q) -> state_of Q psi ->
  run F gs psi (fun q => W (nm q (fin gs cur q))) = so (inner gs cur) (fun W' => mul A (pprod gs cur W') (psi (fun q => W' (nm q (cur q))))) W.
Proof.
  induction gs as [|g gs IH]; intros cur psi W Hg HL HP.
  - simpl. ring.
  - cbn [run fold_left fin inner]. destruct (Hg g (or_introl eq_refl)) as [N G]. change (fold_left (fun phi g0 => act F g0 phi) gs (act F g psi)) with (run F gs (act F g psi)).
    rewrite IH; [|intros; apply Hg; right; auto|auto|apply act_state; auto].
    rewrite so_app. apply so_ext. intros W1 _ _. rewrite act_wires; auto.
    2:{ intros q Hq. specialize (HL q Hq). simpl in HL. pose proof (fin_le gs (step cur g) q). lia. }
    rewrite <- (@so_mul_l K A SR two (cols cur g) (fun W' => mul A (gval cur g W') (psi (fun q => W' (nm q (cur q))))) (pprod gs (step cur g)) (wires gs (step cur g))).
    + apply so_ext. intros W2 _ _. cbn [pprod]. ring.
    + apply pprod_depends.
    + intros x Hx Hc. apply wires_in in Hx; [|intros; apply Hg; right; auto]. destruct Hx as (q & t & -> & Hq & Ht). apply in_map_iff in Hc. destruct Hc as (q' & E & Hq').
      pose proof (HL _ Hq). pose proof (HL _ (G _ Hq')). pose proof (fin_le (g :: gs) cur q'). simpl in *.
      destruct (D (G _ Hq') Hq (t := cur q') (t' := t)) as [-> Et]; auto; try lia. rewrite (step_in cur Hq') in Ht. lia.
Qed.
End Wires.
