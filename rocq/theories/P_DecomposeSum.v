(** The contraction of a network and of its decomposition. *)
From Coq Require Import List Arith Lia Permutation Bool Ring.
Import ListNotations.
From Verif Require Import P_Base P_Opt P_PyMain.
From Verif Require Import M_Base M_Path M_PyTree M_OSet M_Tensor M_Decompose S_Path S_PyTree S_Random S_Network S_Fuse S_Tensor S_Contract S_Decompose.
From Verif Require Import P_Path P_Split P_PathMain P_PyBuild P_PyTens P_OSet P_Sum P_Array P_Fuse P_RandMain P_ContractMain P_Symbols P_Decompose P_DecomposeNet.
Set Implicit Arguments.
Unset Strict Implicit.

Section Sums.
Variable K : Type.
Variable A : alg K.
Hypothesis SR : semiring A.
Let SR1 : semi_ring_theory (zero A) (one A) (add A) (mul A) eq := SR.
Add Ring KR : SR1.
Variable dim : nat -> nat.
Notation so := (sum_over A dim).

Lemma so_zero ks f : forall v, (forall w, same_off ks w v -> in_range dim ks w -> f w = zero A) -> so ks f v = zero A.
Proof.
  intros v H. transitivity (so ks (fun _ => zero A) v); [apply so_ext; auto|]. clear H. revert v. induction ks as [|k ks IH]; intros v; simpl; auto.
  transitivity (sum_upto A (dim k) (fun _ => zero A)); [apply sum_upto_ext; auto|]. apply sum_upto_0. auto.
Qed.
Lemma sum_single n j f : j < n -> (forall i, i < n -> i <> j -> f i = zero A) -> sum_upto A n f = f j.
Proof.
  unfold sum_upto. assert (G : forall n s, s <= j < s + n -> (forall i, s <= i < s + n -> i <> j -> f i = zero A) -> fold_right (add A) (zero A) (map f (seq s n)) = f j).
  { clear n. induction n as [|n IH]; intros s Hj H; [lia|]. simpl. destruct (Nat.eq_dec s j) as [->|D].
    - assert (Z : fold_right (add A) (zero A) (map f (seq (S j) n)) = zero A).
      { assert (Z : forall i, In i (seq (S j) n) -> f i = zero A) by (intros i Hi; apply in_seq in Hi; apply H; lia).
        clear - SR Z SR1. induction (seq (S j) n) as [|i l IH]; simpl; auto. rewrite (Z i) by (left; auto). rewrite IH by (intros; apply Z; right; auto). ring. }
      rewrite Z. ring.
    - rewrite (H s) by lia. rewrite IH; [ring|lia|]. intros i Hi. apply H. lia. }
  intros Hj H. apply (G n 0); [lia|]. intros i Hi. apply H. lia.
Qed.
Definition put (ns : list nat) (t : nat -> nat) (w : nat -> nat) : nat -> nat := fun x => if memb x ns then w (t x) else w x.
Lemma collapse ns t F xs : depends_on xs F -> NoDup ns -> (forall x, In x ns -> ~ In (t x) ns) -> forall w, (forall x, In x ns -> w (t x) < dim x) ->
  (forall u, same_off ns u w -> in_range dim ns u -> (exists x, In x ns /\ u x <> u (t x)) -> F u = zero A) -> so ns F w = F (put ns t w).
Proof.
  intros DF. induction ns as [|k ns IH]; intros HN HT w HW HF; simpl; [apply DF; auto|]. inversion HN as [|? ? N1 N2]; subst.
  assert (Tk : t k <> k /\ ~ In (t k) ns). { split; intros E; apply (HT k (or_introl eq_refl)); [left; auto|right; auto]. } destruct Tk as [Tk1 Tk2].
  rewrite (sum_single (j := w (t k))).
  - rewrite IH; auto.
    + apply DF. intros x _. unfold put, memb. simpl. destruct (Nat.eqb_spec x k) as [->|D]; simpl.
      * rewrite (proj2 (memb_nIn k ns) N1 : existsb (Nat.eqb k) ns = false). apply assign_same.
      * destruct (existsb (Nat.eqb x) ns) eqn:E; [|apply assign_other; auto]. apply assign_other. intros E'. apply (HT x); [right; apply memb_In; auto|left; auto].
    + intros x Hx Hn. apply (HT x (or_intror Hx)). right. auto.
    + intros x Hx. rewrite assign_other; [apply HW; right; auto|]. intros E. apply (HT x (or_intror Hx)). left. auto.
    + intros u U1 U2 (x & Hx & Hu). apply HF.
      * intros y Hy. rewrite U1 by (intros Hi; apply Hy; right; auto). apply assign_other. intros ->. apply Hy. left. auto.
      * intros y [<-|Hy]; [rewrite (U1 k N1), assign_same; apply HW; left; auto|auto].
      * exists x. split; [right; auto|auto].
  - apply HW. left. auto.
  - intros i Hi D. apply so_zero. intros u U1 U2. apply HF.
    + intros y Hy. rewrite U1 by (intros Hi'; apply Hy; right; auto). apply assign_other. intros ->. apply Hy. left. auto.
    + intros y [<-|Hy]; [rewrite (U1 k N1), assign_same; auto|auto].
    + exists k. split; [left; auto|]. rewrite (U1 k N1), (U1 _ Tk2), assign_same, assign_other by auto. auto.
Qed.

(** [f] is [g] where [v] is constant on the classes of [r], else zero *)
Section Classes.
Variable all : list nat.
Variable r : nat -> nat.
Hypothesis R1 : forall x, In x all -> In (r x) all /\ r (r x) = r x /\ dim (r x) = dim x.
Variables f g : (nat -> nat) -> K.
Variable D : list nat.
Hypothesis HD : forall x, In x D -> In x all /\ r x = x.
Hypothesis Df : depends_on all f.
Hypothesis Dg : depends_on D g.
Hypothesis F1 : forall v, in_range dim all v -> (forall x, In x all -> v x = v (r x)) -> f v = g v.
Hypothesis F0 : forall v, in_range dim all v -> ~ (forall x, In x all -> v x = v (r x)) -> f v = zero A.
Variables out ks ks' : list nat.
Hypothesis N : NoDup ks.
Hypothesis N' : NoDup ks'.
Hypothesis HO : forall o, In o out -> In o all.
Hypothesis HK : forall x, In x ks <-> In x all /\ ~ In x out.
Hypothesis HK' : forall x, In x ks' <-> (exists y, In y all /\ x = r y) /\ forall o, In o out -> x <> r o.
Variable v : nat -> nat.
Hypothesis V : in_range dim out v.

Lemma ks_reps x : In x ks' -> In x ks /\ r x = x /\ forall o, In o out -> r o <> x.
Proof.
  intros H. apply HK' in H. destruct H as [(y & Hy & ->) H]. destruct (R1 Hy) as (A1 & A2 & A3). split; [|split; auto; intros o Ho E; apply (H o Ho); auto].
  apply HK. split; auto. intros Ho. apply (H _ Ho). auto.
Qed.
Lemma reps_ks x : In x all -> (forall o, In o out -> r o <> r x) -> In (r x) ks'.
Proof. intros Hx H. apply HK'. split; [eauto|]. intros o Ho E. apply (H o Ho). auto. Qed.

Theorem sum_classes v' : (forall o, In o out -> v' (r o) = v o) -> so ks f v = so ks' g v'.
Proof.
  intros V'. set (ns := filter (fun x => negb (memb x ks')) ks).
  assert (NI : forall x, In x ns <-> In x ks /\ ~ In x ks') by (intros x; unfold ns; rewrite filter_In, negb_true_iff, memb_nIn; tauto).
  assert (P : Permutation ks (ks' ++ ns)).
  { apply NoDup_Permutation; auto.
    - apply NoDup_app. split; auto. split; [apply NoDup_filter; auto|]. intros x H1 H2. apply NI in H2. tauto.
    - intros x. rewrite in_app_iff, NI. split; [intros H; destruct (in_dec Nat.eq_dec x ks'); auto|]. intros [H|H]; [apply ks_reps; auto|tauto]. }
  rewrite (so_perm SR dim Df P), so_app.
  set (t := fun x => match find (fun o => r o =? r x) out with Some o => o | None => r x end).
  assert (FS : forall x, (exists o, find (fun o => r o =? r x) out = Some o /\ In o out /\ r o = r x) \/ (find (fun o => r o =? r x) out = None /\ forall o, In o out -> r o <> r x)).
  { intros x. destruct (find (fun o => r o =? r x) out) as [o|] eqn:E.
    - left. exists o. apply find_some in E. destruct E as [E1 E2]. apply Nat.eqb_eq in E2. auto.
    - right. split; auto. intros o Ho E'. pose proof (find_none _ _ E o Ho) as E2. apply Nat.eqb_neq in E2. auto. }
  assert (TN : forall x, In x ns -> ~ In (t x) ns).
  { intros x Hx Ht. apply NI in Hx, Ht. unfold t in Ht. revert Ht. destruct (FS x) as [(o & -> & Ho & _)|[-> Hn]]; intros Ht.
    - destruct Ht as [Ht _]. apply HK in Ht. tauto.
    - destruct Ht as [_ Ht]. apply Ht, reps_ks; auto. apply HK. tauto. }
  assert (KA : forall x, In x ks -> In x all) by (intros x Hx; apply HK; auto).
  assert (OK : forall w, same_off ks' w v -> forall o, In o out -> w o = v o).
  { intros w W o Ho. apply W. intros Hk. apply ks_reps in Hk. destruct Hk as [Hk _]. apply HK in Hk. tauto. }
  set (val := fun w x => match find (fun o => r o =? r x) out with Some o => v o | None => w (r x) end).
  assert (VR : forall w, same_off ks' w v -> in_range dim ks' w -> forall x, In x all -> val w x < dim x).
  { intros w W1 W2 x Hx. destruct (R1 Hx) as (A1 & A2 & A3). unfold val. destruct (FS x) as [(o & -> & Ho & E)|[-> Hn]].
    - destruct (R1 (HO Ho)) as (_ & _ & A4). rewrite <- A3, <- E, A4. auto.
    - rewrite <- A3. apply W2. apply reps_ks; auto. }
  assert (TV : forall w, same_off ks' w v -> forall x, w (t x) = val w x).
  { intros w W x. unfold t, val. destruct (FS x) as [(o & -> & Ho & E)|[-> Hn]]; auto. }
  assert (PV : forall w, same_off ks' w v -> forall x, In x all -> put ns t w x = val w x).
  { intros w W x Hx. unfold put. destruct (memb x ns) eqn:E; [apply TV; auto|]. apply memb_nIn in E. unfold val.
    destruct (in_dec Nat.eq_dec x out) as [Ho|Ho].
    - rewrite (OK w W x Ho). destruct (FS x) as [(o & -> & Ho' & E')|[-> Hn]]; [|exfalso; apply (Hn x Ho); auto]. rewrite <- (V' x Ho), <- (V' o Ho'). congruence.
    - assert (Hk : In x ks') by (destruct (in_dec Nat.eq_dec x ks'); auto; exfalso; apply E, NI; split; auto; apply HK; auto).
      apply ks_reps in Hk. destruct Hk as (_ & E1 & E2). destruct (FS x) as [(o & -> & Ho' & E')|[-> Hn]]; [exfalso; apply (E2 o Ho'); congruence|congruence]. }
  set (G := fun w => g (fun x => if memb x ks' then w x else v' x)).
  transitivity (so ks' G v).
  - apply so_ext. intros w W1 W2. rewrite (@collapse ns t f all); auto.
    + rewrite F1.
      * unfold G. apply Dg. intros x Hx. destruct (HD Hx) as [Ha Er]. rewrite (PV w W1 x Ha). unfold val. destruct (FS x) as [(o & -> & Ho & E)|[-> Hn]].
        -- rewrite (proj2 (memb_nIn x ks')); [rewrite <- (V' o Ho); congruence|]. intros Hk. apply ks_reps in Hk. destruct Hk as (_ & _ & Hk). apply (Hk o Ho). congruence.
        -- rewrite (proj2 (memb_In x ks')); [congruence|]. rewrite <- Er. apply reps_ks; auto.
      * intros x Hx. rewrite (PV w W1 x Hx). apply VR; auto.
      * intros x Hx. destruct (R1 Hx) as (A1 & A2 & A3). rewrite (PV w W1 x Hx), (PV w W1 _ A1). unfold val. rewrite A2. auto.
    + apply NoDup_filter. auto.
    + intros x Hx. rewrite TV by auto. apply VR; auto. apply KA. apply NI in Hx. tauto.
    + intros u U1 U2 (x & Hx & Hu). apply F0.
      * intros y Hy. destruct (in_dec Nat.eq_dec y ns) as [Hn|Hn]; [auto|]. rewrite (U1 y Hn). destruct (in_dec Nat.eq_dec y ks') as [Hk|Hk]; [auto|].
        rewrite (W1 y Hk). apply V. destruct (in_dec Nat.eq_dec y out); auto. exfalso. apply Hn, NI. split; auto. apply HK. auto.
      * intros H. apply Hu. assert (Ha : In x all) by (apply KA; apply NI in Hx; tauto). destruct (R1 Ha) as (A1 & A2 & A3). unfold t.
        destruct (FS x) as [(o & -> & Ho & E)|[-> Hn]]; [|auto]. rewrite (H x Ha), (H o (HO Ho)). congruence.
  - transitivity (so ks' G v').
    + apply (@so_depends _ A dim ks' G ks'); [|tauto]. intros w u Hw. unfold G. apply Dg. intros x _. destruct (memb x ks') eqn:E; auto. apply Hw. apply memb_In. auto.
    + apply so_ext. intros w W1 W2. unfold G. apply Dg. intros x _. destruct (memb x ks') eqn:E; auto. symmetry. apply W1. apply memb_nIn. auto.
Qed.
Theorem sum_classes_zero o o' : In o out -> In o' out -> r o = r o' -> v o <> v o' -> so ks f v = zero A.
Proof.
  intros Ho Ho' E Hv. apply so_zero. intros w W1 W2. assert (WO : forall z, In z out -> w z = v z) by (intros z Hz; apply W1; intros Hk; apply HK in Hk; tauto).
  apply F0.
  - intros x Hx. destruct (in_dec Nat.eq_dec x out) as [Hi|Hi]; [rewrite WO by auto; auto|]. apply W2, HK. auto.
  - intros H. apply Hv. rewrite <- (WO o Ho), <- (WO o' Ho'), (H o), (H o') by auto. congruence.
Qed.
End Classes.

Lemma network_depends arrays ts : length arrays = length ts -> depends_on (concat ts) (network A arrays ts).
Proof.
  revert ts. induction arrays as [|a arrays IH]; intros [|xs ts] L v w H; simpl in L; try lia; [auto|]. rewrite !network_cons. f_equal.
  - unfold entry_at. f_equal. apply map_ext_in. intros x Hx. apply H. simpl. apply in_or_app. auto.
  - apply IH; [lia|]. intros x Hx. apply H. simpl. apply in_or_app. auto.
Qed.
End Sums.

Theorem network_sum (K : Type) (A : alg K) (eqb : K -> K -> bool) (dim : nat -> nat) arrays ts bs us m out ks ks' v : semiring A -> (forall a b, eqb a b = true <-> a = b) ->
  shaped dim arrays ts -> Forall well_shaped arrays -> (forall xs, In xs ts -> NoDup xs) ->
  decompose_network A eqb arrays ts = Ok (bs, us, m) ->
  NoDup ks -> NoDup ks' ->
  (forall o, In o out -> exists t, has ts t o) ->
  (forall x, In x ks <-> (exists t, has ts t x) /\ ~ In x out) ->
  (forall x, In x ks' <-> (exists t y, has ts t y /\ x = sent m y) /\ forall o, In o out -> x <> sent m o) ->
  in_range dim out v ->
  (forall v', (forall o, In o out -> v' (sent m o) = v o) -> sum_over A dim ks (network A arrays ts) v = sum_over A dim ks' (network A bs us) v') /\
  (forall o o', In o out -> In o' out -> sent m o = sent m o' -> v o <> v o' -> sum_over A dim ks (network A arrays ts) v = zero A).
Proof.
  intros SR EQ S W HN E N N' HO HK HK' V. destruct (network_ok SR EQ S W HN) as [[E' _]|(bs' & us' & m' & E' & Ws & Ss & HU & HM & HR & P1 & P0)]; [congruence|].
  rewrite E' in E. inversion E; subst bs' us' m'. clear E E'.
  set (all := concat ts). assert (AI : forall x, In x all <-> exists t, has ts t x) by (intros x; apply has_concat).
  assert (R1 : forall x, In x all -> In (sent m x) all /\ sent m (sent m x) = sent m x /\ dim (sent m x) = dim x).
  { intros x Hx. apply AI in Hx. destruct Hx as (t & Hx). destruct (HR t x Hx) as (A1 & A2 & A3). split; auto. apply AI. auto. }
  assert (HD : forall x, In x (concat us) -> In x all /\ sent m x = x).
  { intros x Hx. apply has_concat in Hx. destruct Hx as (t & Hx). destruct (HU t x Hx) as (y & Hy & ->). destruct (R1 y) as (A1 & A2 & A3); [apply AI; eauto|]. auto. }
  assert (ID : forall w, (forall x, In x all -> w x = w (sent m x)) <-> identified ts m w).
  { intros w. unfold identified. split; [intros H t x Hx; apply H, AI; eauto|]. intros H x Hx. apply AI in Hx. destruct Hx as (t & Hx). eauto. }
  assert (RG : forall w, in_range dim all w -> forall t x, has ts t x -> w x < dim x) by (intros w Hw t x Hx; apply Hw, AI; eauto).
  assert (L1 : length arrays = length ts) by (apply (forall2_len S)). assert (L2 : length bs = length us) by (apply (forall2_len Ss)).
  assert (F1 : forall w, in_range dim all w -> (forall x, In x all -> w x = w (sent m x)) -> network A arrays ts w = network A bs us w).
  { intros w Hw H. apply P1; [apply RG; auto|apply ID; auto]. }
  assert (F0 : forall w, in_range dim all w -> ~ (forall x, In x all -> w x = w (sent m x)) -> network A arrays ts w = zero A).
  { intros w Hw H. apply P0; [apply RG; auto|]. rewrite <- ID. auto. }
  assert (HO' : forall o, In o out -> In o all) by (intros o Ho; apply AI; auto).
  assert (HK1 : forall x, In x ks <-> In x all /\ ~ In x out) by (intros x; rewrite HK, AI; tauto).
  assert (HK2 : forall x, In x ks' <-> (exists y, In y all /\ x = sent m y) /\ forall o, In o out -> x <> sent m o).
  { intros x. rewrite HK'. split; intros [(a & b) Q]; split; auto; [destruct b as (y & Hy & ->); exists y; split; auto; apply AI; eauto|].
    destruct b as [Hy ->]. apply AI in Hy. destruct Hy as (t & Hy). eauto. }
  split.
  - intros v' V'. apply (@sum_classes K A SR dim all (sent m) R1 _ _ (concat us) HD (network_depends A L1) (network_depends A L2) F1 F0 out ks ks' N N' HO' HK1 HK2 v V v' V').
  - intros o o' Ho Ho' Es Hv. apply (@sum_classes_zero K A SR dim all (sent m) (network A arrays ts) F0 out ks HO' HK1 v V o o'); auto.
Qed.
