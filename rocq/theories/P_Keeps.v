(** A contraction along any path, complete or not, keeps the value of the network. *)
From Coq Require Import List Arith Lia Permutation Bool Ring.
Import ListNotations.
From Verif Require Import P_Base P_Opt P_PyMain.
From Verif Require Import M_Base M_Path M_PyTree M_OSet M_Tensor M_Contract S_Path S_PyTree S_Random S_Network S_Fuse S_Tensor S_Contract.
From Verif Require Import P_Path P_Split P_PathMain P_PyBuild P_PyTens P_OSet P_Fuse P_Sum P_Array P_Tensordot P_Contract P_ContractMain P_ContractThm P_DecomposeNet P_DecomposeSum.
From Verif Require Import M_Path M_PyTree.
Set Implicit Arguments.
Unset Strict Implicit.

Lemma in_combine_nth (B C : Type) (l : list B) (k : list C) x y : In (x, y) (combine l k) -> exists i, nth_error l i = Some x /\ nth_error k i = Some y.
Proof.
  revert k. induction l as [|a l IH]; intros [|b k] H; simpl in *; try tauto. destruct H as [H|H]; [inversion H; subst; exists 0; auto|]. apply IH in H. destruct H as (i & H1 & H2). exists (S i). auto.
Qed.
Lemma combine_fst (B C : Type) (l : list B) (k : list C) : length l = length k -> map fst (combine l k) = l.
Proof. revert k. induction l as [|a l IH]; intros [|b k] E; simpl in *; try lia; auto. f_equal. apply IH. lia. Qed.
Lemma combine_snd (B C : Type) (l : list B) (k : list C) : length l = length k -> map snd (combine l k) = k.
Proof. revert k. induction l as [|a l IH]; intros [|b k] E; simpl in *; try lia; auto. f_equal. apply IH. lia. Qed.

Section Keeps.
Variable K : Type.
Variable A : alg K.
Hypothesis SR : semiring A.
Let SR1 : semi_ring_theory (zero A) (one A) (add A) (mul A) eq := SR.
Add Ring KR : SR1.
Variable dim : nat -> nat.
Notation so := (sum_over A dim).
Definition mulall (l : list K) : K := fold_right (mul A) (one A) l.

(** Sums of products of separate factors. *)
Notation factor := (list nat * list nat * ((nat -> nat) -> K))%type.
Fixpoint apart (l : list factor) : Prop :=
  match l with
  | [] => True
  | (ks, xs, P) :: l' => depends_on xs P /\ (forall ks' xs' P', In (ks', xs', P') l' -> (forall x, In x xs -> ~ In x ks') /\ (forall x, In x xs' -> ~ In x ks)) /\ apart l'
  end.
Lemma sum_factors (l : list factor) : apart l -> forall v, so (concat (map (fun e => fst (fst e)) l)) (fun w => mulall (map (fun e => snd e w) l)) v = mulall (map (fun e => so (fst (fst e)) (snd e) v) l).
Proof.
  assert (D : forall l : list factor, apart l -> depends_on (concat (map (fun e => snd (fst e)) l)) (fun w => mulall (map (fun e => snd e w) l))).
  { induction l0 as [|((ks, xs), P) l0 IH]; simpl; [intros _ v w _; auto|]. intros (Dp & _ & HA) v w H. unfold mulall in *. cbn [fold_right]. f_equal; [apply Dp|apply IH; auto]; intros x Hx; apply H, in_app_iff; auto. }
  induction l as [|((ks, xs), P) l IH]; intros HA v; [auto|]. pose proof HA as (Dp & HS & HA'). cbn [map concat fst snd]. rewrite so_app. unfold mulall at 2. cbn [fold_right]. fold (mulall (map (fun e : factor => so (fst (fst e)) (snd e) v) l)). rewrite <- IH by auto.
  transitivity (so ks (fun w => mul A (so (concat (map (fun e => fst (fst e)) l)) (fun w => mulall (map (fun e => snd e w) l)) w) (P w)) v).
  - apply so_ext. intros w _ _. 
    pose proof (@so_mul_l K A SR dim (concat (map (fun e => fst (fst e)) l)) (fun w => mulall (map (fun e => snd e w) l)) P xs w Dp) as E.
    transitivity (mul A (P w) (so (concat (map (fun e => fst (fst e)) l)) (fun w => mulall (map (fun e => snd e w) l)) w)); [apply E|ring].
    intros x Hx I; apply in_concat in I; destruct I as (ks' & I & Ix); apply in_map_iff in I; destruct I as (((ks'', xs'), P') & <- & I); apply (proj1 (HS _ _ _ I) x Hx Ix).
  - rewrite (@so_mul_l K A SR dim ks P (so (concat (map (fun e => fst (fst e)) l)) (fun w => mulall (map (fun e => snd e w) l))) (concat (map (fun e => snd (fst e)) l))).
    + ring.
    + apply so_depends_on. apply D. auto.
    + intros x Hx I. apply in_concat in Hx. destruct Hx as (xs' & Hx & Ix). apply in_map_iff in Hx. destruct Hx as (((ks', xs''), P') & <- & Hx). apply (proj2 (HS _ _ _ Hx) x Ix I).
Qed.

Variable arr : list nat -> list nat.
Hypothesis Harr : forall l, Permutation (arr l) l.
Variables (ts : list (list nat)) (arrays : list (nda K)).
Hypothesis HN : forall xs, In xs ts -> NoDup xs.
Hypothesis HW : Forall (@well_shaped K) arrays.
Hypothesis HS : shaped dim arrays ts.

Lemma product_app l k v : product A arrays ts (l ++ k) v = mul A (product A arrays ts l v) (product A arrays ts k v).
Proof. unfold product. rewrite map_app. induction (map _ l) as [|x m IH]; simpl; [ring|]. rewrite IH. ring. Qed.
Lemma product_perm l k v : Permutation l k -> product A arrays ts l v = product A arrays ts k v.
Proof. unfold product. induction 1; simpl; auto; [rewrite IHPermutation; auto|ring|congruence]. Qed.
Lemma product_terms (l : list term) v : product A arrays ts (alltens l) v = mulall (map (fun c => product A arrays ts (tensors c) v) l).
Proof. unfold alltens. induction l as [|c l IH]; cbn [flat_map map]; [reflexivity|]. rewrite product_app, IH. auto. Qed.
Lemma product_depends l : depends_on (concat (map (fun t => nth t ts []) l)) (product A arrays ts l).
Proof.
  intros v w H. unfold product. f_equal. apply map_ext_in. intros t Ht. unfold entry_at. f_equal. apply map_ext_in. intros x Hx. apply H. apply in_concat. exists (nth t ts []). split; auto. apply in_map_iff. eauto.
Qed.
Lemma network_entries (l : list (list nat * nda K)) v : network A (map snd l) (map fst l) v = mulall (map (fun e => entry_at A (snd e) (fst e) v) l).
Proof. induction l as [|e l IH]; cbn [map]; [apply network_nil|]. rewrite network_cons, IH. auto. Qed.
Lemma has_nth t x : t < length ts -> (has ts t x <-> In x (nth t ts [])).
Proof. intros H. unfold has. rewrite (nth_error_nth' ts [] H). split; [intros (xs & E & Hx); inversion E; subst; auto|eauto]. Qed.
Lemma has_concat x : (exists t, has ts t x) <-> In x (concat ts).
Proof.
  rewrite in_concat. split; [intros (t & xs & E & Hx); exists xs; split; auto; eapply nth_error_In; eauto|]. intros (xs & E & Hx). apply In_nth_error in E. destruct E as (t & E). exists t, xs. auto.
Qed.

Theorem contract_keeps_value p output dims ts' out' ar' : contract A arr p ts (Some output) (Some arrays) dims = Ok (ts', out', ar') ->
  exists ars, ar' = Some ars /\ shaped dim ars ts' /\ Forall well_shaped ars /\ (forall xs, In xs ts' -> NoDup xs) /\ NoDup out' /\ (forall x, In x out' <-> In x output) /\
  (forall x, In x (concat ts') -> In x (concat ts)) /\ (forall x, In x output -> In x (concat ts) -> In x (concat ts')) /\
  (forall x, lonely ts' x -> In x output \/ lonely ts x) /\
  forall ks ks' v, NoDup ks -> NoDup ks' -> (forall x, In x ks <-> In x (concat ts) /\ ~ In x output) -> (forall x, In x ks' <-> In x (concat ts') /\ ~ In x output) ->
    in_range dim output v -> so ks' (network A ars ts') v = so ks (network A arrays ts) v.
Proof.
  intros H. destruct (contract_result SR Harr HN HW HS H) as (cs & rest & ars & P & -> & L1 & L2 & No & Io & Pt & R). exists ars. split; auto.
  set (l := combine rest (combine ts' ars)).
  assert (Lc : length ts' = length ars) by lia. assert (Lr : length rest = length (combine ts' ars)) by (rewrite combine_length; lia).
  assert (F1 : map fst l = rest) by (apply combine_fst; auto). assert (F2 : map snd l = combine ts' ars) by (apply combine_snd; auto).
  assert (OK : forall c zs az, In (c, (zs, az)) l -> holds A dim arrays ts (Some output) c zs az).
  { intros c zs az Hl. apply in_combine_nth in Hl. destruct Hl as (i & H1 & H2). destruct (R i c H1) as (zs' & az' & E1 & E2 & Hh).
    assert (E3 : nth_error (combine ts' ars) i = Some (zs', az')). { clear - E1 E2. revert ts' ars E1 E2. induction i as [|i IH]; intros [|a ts'] [|b ars] E1 E2; simpl in *; try discriminate; [inversion E1; inversion E2; auto|]. apply IH; auto. }
    rewrite H2 in E3. injection E3 as <- <-. auto. }
  clearbody l.
  assert (T1 : ts' = map fst (map snd l)) by (rewrite F2; symmetry; apply combine_fst; auto). assert (T2 : ars = map snd (map snd l)) by (rewrite F2; symmetry; apply combine_snd; auto).
  assert (TS : forall zs, In zs ts' -> exists c az, In (c, (zs, az)) l).
  { intros zs Hz. rewrite T1, map_map in Hz. apply in_map_iff in Hz. destruct Hz as ((c, (zs', az)) & <- & Hl). eauto. }
  assert (TB : forall c t, In c rest -> In t (tensors c) -> t < length ts).
  { intros c t Hc Ht. assert (I : In t (alltens rest)) by (apply in_flat_map; eauto). apply (Permutation_in _ Pt), in_seq in I. lia. }
  assert (NR : NoDup (alltens rest)) by (eapply Permutation_NoDup; [symmetry; exact Pt|apply seq_NoDup]).
  unfold holds in OK. cbn [outs] in OK.
  assert (ST : forall c zs az x, In (c, (zs, az)) l -> In x zs -> In x (concat ts)).
  { intros c zs az x Hl Hx. destruct (OK _ _ _ Hl) as (_ & Iz & _). apply Iz in Hx. destruct Hx as [(t & _ & Ht) _]. apply has_concat. eauto. }
  split; [|split; [|split; [|split; [|split; [|split; [|split; [|split]]]]]]]; auto.
  - unfold shaped. rewrite T1, T2, !map_map. clear - OK. induction l as [|(c, (zs, az)) l IH]; cbn [map]; constructor; [apply (OK c); left; auto|]. apply IH. intros c' zs' az' Hl. apply OK. right. auto.
  - rewrite T2, map_map. apply Forall_forall. intros a Ha. apply in_map_iff in Ha. destruct Ha as ((c, (zs, az)) & <- & Hl). apply (OK _ _ _ Hl).
  - intros zs Hz. destruct (TS zs Hz) as (c & az & Hl). apply (OK _ _ _ Hl).
  - intros x Hx. apply in_concat in Hx. destruct Hx as (zs & Hz & Hx). destruct (TS zs Hz) as (c & az & Hl). eapply ST; eauto.
  - intros x Ho Hx. apply has_concat in Hx. destruct Hx as (t & Ht). assert (Lt : t < length ts) by (destruct Ht as (xs & E & _); apply nth_error_Some; rewrite E; discriminate).
    assert (I : In t (alltens rest)) by (eapply Permutation_in; [symmetry; exact Pt|]; apply in_seq; lia). apply in_flat_map in I. destruct I as (c & Hc & I). rewrite <- F1 in Hc. apply in_map_iff in Hc. destruct Hc as ((c', (zs, az)) & <- & Hl). cbn [fst] in *.
    apply in_concat. exists zs. split; [|apply (OK _ _ _ Hl); split; [eauto|left; auto]]. rewrite T1, map_map. apply in_map_iff. exists (c', (zs, az)). auto.
  - intros x (i & Hi). assert (Hx : has ts' i x) by (apply Hi; auto). destruct Hx as (zs & E1 & Hx).
    assert (GL : forall j c zs, nth_error rest j = Some c -> nth_error ts' j = Some zs -> exists az, In (c, (zs, az)) l).
    { intros j c zs' J1 J2. destruct (R j c J1) as (z1 & a1 & J3 & J4 & _). rewrite J2 in J3. injection J3 as <-. exists a1. rewrite T1, T2 in *. rewrite <- F1 in J1. rewrite !nth_error_map in *. destruct (nth_error l j) as [(c', (z', a'))|] eqn:El; [|discriminate]. cbn in *. injection J1 as <-. injection J2 as <-. injection J4 as <-. apply nth_error_In in El. auto. }
    assert (Li : i < length rest) by (rewrite <- L1; apply nth_error_Some; rewrite E1; discriminate). destruct (nth_error rest i) as [c|] eqn:Ec; [|apply nth_error_None in Ec; lia].
    destruct (GL i c zs Ec E1) as (az & Hl). destruct (OK _ _ _ Hl) as (_ & Iz & _). pose proof (proj1 (Iz x) Hx) as [(t & Ht & Hh) [Ho|[Ho|(u & U1 & U2 & U3)]]]; auto. exfalso.
    assert (I : In u (alltens rest)) by (eapply Permutation_in; [symmetry; exact Pt|]; apply in_seq; lia). apply in_flat_map in I. destruct I as (c2 & Hc2 & I). apply In_nth_error in Hc2. destruct Hc2 as (j & Ej).
    assert (Lj : j < length ts') by (rewrite L1; apply nth_error_Some; rewrite Ej; discriminate). destruct (nth_error ts' j) as [z2|] eqn:E2; [|apply nth_error_None in E2; lia].
    destruct (GL j c2 z2 Ej E2) as (a2 & Hl2). destruct (OK _ _ _ Hl2) as (_ & Iz2 & _).
    assert (Nc : ~ In t (tensors c2)). { intros It. assert (i = j -> False) by (intros ->; congruence). clear - NR Ec Ej Ht It H0. revert i j Ec Ej H0. unfold alltens in NR. induction rest as [|d rest IH]; intros [|i] [|j] E1 E2 N; try discriminate; [lia| | |]; cbn [flat_map] in NR; apply NoDup_app in NR; destruct NR as (N1 & N2 & N3); cbn in E1, E2.
      - injection E1 as ->. apply (N3 t Ht). apply in_flat_map. exists c2. split; auto. eapply nth_error_In; eauto.
      - injection E2 as ->. apply (N3 t It). apply in_flat_map. exists c. split; auto. eapply nth_error_In; eauto.
      - apply (IH N2 i j); auto. }
    assert (H2 : has ts' j x). { exists z2. split; auto. apply Iz2. split; [exists u; auto|]. right. right. exists t. split; [|auto]. destruct Hh as (xs & E & _). apply nth_error_Some. rewrite E. discriminate. }
    apply Hi in H2. subst j. rewrite Ec in Ej. injection Ej as ->. auto.
  - intros ks ks' v Nk Nk' Ik Ik' V.
    set (xs_of := fun c => concat (map (fun t => nth t ts []) (tensors c))). set (ks_of := fun c zs => filter (fun x => negb (memb x zs)) (unique (xs_of c))).
    set (fac := fun e : term * (list nat * nda K) => (ks_of (fst e) (fst (snd e)), xs_of (fst e), product A arrays ts (tensors (fst e))) : factor).
    assert (XS : forall c x, In c rest -> (In x (xs_of c) <-> exists t, In t (tensors c) /\ has ts t x)).
    { intros c x Hc. unfold xs_of. rewrite in_concat. split.
      - intros (xs & Hx & Ix). apply in_map_iff in Hx. destruct Hx as (t & <- & Ht). exists t. split; auto. apply has_nth; auto. eapply TB; eauto.
      - intros (t & Ht & Hx). exists (nth t ts []). split; [apply in_map_iff; eauto|]. apply has_nth; auto. eapply TB; eauto. }
    assert (KS : forall c zs x, In x (ks_of c zs) <-> In x (xs_of c) /\ ~ In x zs) by (intros c zs x; unfold ks_of; rewrite filter_In, unique_in, negb_true_iff, memb_nIn; tauto).
    assert (RL : forall c q, In (c, q) l -> In c rest) by (intros c q Hl; rewrite <- F1; apply in_map_iff; exists (c, q); auto).
    assert (PV : forall c zs az x u, In (c, (zs, az)) l -> In x (ks_of c zs) -> has ts u x -> In u (tensors c)).
    { intros c zs az x u Hl Hx Hu. apply KS in Hx. destruct Hx as [Hx Hz]. destruct (in_dec Nat.eq_dec u (tensors c)) as [I|I]; auto. exfalso. apply Hz. apply (OK _ _ _ Hl). split; [apply XS; eauto|]. right. right. exists u. split; auto. destruct Hu as (xs & E & _). apply nth_error_Some. rewrite E. discriminate. }
    assert (SEP : forall l1, incl l1 l -> NoDup (alltens (map fst l1)) -> apart (map fac l1)).
    { induction l1 as [|(c, (zs, az)) l1 IH]; intros Il Nl; cbn [map apart]; auto. unfold fac at 1. cbn [fst snd]. unfold alltens in Nl. cbn [map flat_map fst] in Nl. apply NoDup_app in Nl. destruct Nl as (_ & Nl & Dl).
      split; [apply product_depends|]. split; [|apply IH; auto; intros x Hx; apply Il; right; auto].
      assert (Hc : In (c, (zs, az)) l) by (apply Il; left; auto).
      intros ks1 xs1 P1 H1. apply in_map_iff in H1. destruct H1 as ((c1, (zs1, az1)) & E1 & H1). unfold fac in E1. cbn [fst snd] in E1. inversion E1; subst ks1 xs1 P1.
      assert (Hc1 : In (c1, (zs1, az1)) l) by (apply Il; right; auto).
      assert (DD : forall t, In t (tensors c) -> ~ In t (tensors c1)). { intros t U1 U2. apply (Dl t U1). apply in_flat_map. exists c1. split; auto. apply in_map_iff. exists (c1, (zs1, az1)). auto. }
      split; intros x Hx Hk.
      - apply (XS c x (RL _ _ Hc)) in Hx. destruct Hx as (t & Ht & Hx). apply (DD t Ht). eapply PV; eauto.
      - apply (XS c1 x (RL _ _ Hc1)) in Hx. destruct Hx as (t & Ht & Hx). apply (fun X => DD t X Ht). eapply PV; eauto. }
    assert (AP : apart (map fac l)) by (apply SEP; [apply incl_refl|rewrite F1; auto]).
    assert (E1 : so ks' (network A ars ts') v = so (ks' ++ concat (map (fun e => ks_of (fst e) (fst (snd e))) l)) (network A arrays ts) v).
    { rewrite so_app. apply so_ext. intros w H1 R1.
      transitivity (mulall (map (fun e => so (fst (fst e)) (snd e) w) (map fac l))).
      - rewrite T1, T2, network_entries, !map_map. f_equal. apply map_ext_in. intros (c, (zs, az)) Hl. cbn [fst snd fac].
        destruct (OK _ _ _ Hl) as (Nz & Iz & _ & _ & Ez). apply Ez.
        + apply NoDup_filter, unique_nodup.
        + intros x. rewrite KS, (XS c x (RL _ _ Hl)). tauto.
        + intros x Hx. destruct (in_dec Nat.eq_dec x output) as [Hout|Hout].
          * rewrite H1; [apply V; auto|]. rewrite Ik'. tauto.
          * apply R1. apply Ik'. split; auto. apply in_concat. exists zs. split; auto. rewrite T1, map_map. apply in_map_iff. exists (c, (zs, az)). auto.
      - rewrite <- (sum_factors AP). rewrite map_map. cbn [fac fst]. apply so_ext. intros u _ _. unfold network. rewrite <- (product_perm u Pt), product_terms, <- F1, !map_map. auto. }
    rewrite E1. apply (@so_perm K A SR dim _ _ _ (concat ts)); [apply network_depends; apply forall2_len in HS; auto|].
    assert (KD : forall l1, incl l1 l -> NoDup (alltens (map fst l1)) -> NoDup (concat (map (fun e => ks_of (fst e) (fst (snd e))) l1))).
    { induction l1 as [|(c, (zs, az)) l1 IH]; intros Il Nl; cbn [map concat fst snd]; [constructor|]. unfold alltens in Nl. cbn [map flat_map fst] in Nl. apply NoDup_app in Nl. destruct Nl as (_ & Nl & Dl).
      apply NoDup_app. split; [apply NoDup_filter, unique_nodup|]. split; [apply IH; auto; intros x Hx; apply Il; right; auto|].
      intros x H1 H2. apply in_concat in H2. destruct H2 as (k & H2 & H3). apply in_map_iff in H2. destruct H2 as ((c1, (zs1, az1)) & <- & H2). cbn [fst snd] in H3. apply KS in H3. destruct H3 as [H3 _].
      apply (XS c1 x) in H3; [|apply (RL _ (zs1, az1)), Il; right; auto]. destruct H3 as (t & Ht & H3). apply (Dl t); [apply (PV c zs az x t); auto; apply Il; left; auto|]. apply in_flat_map. exists c1. split; auto. apply in_map_iff. exists (c1, (zs1, az1)). auto. }
    apply NoDup_Permutation; auto.
    + apply NoDup_app. split; auto. split; [apply KD; [apply incl_refl|rewrite F1; auto]|]. intros x H1 H2. apply Ik' in H1. destruct H1 as [H1 Hout]. apply in_concat in H1. destruct H1 as (zs & Hz & Hx).
      destruct (TS zs Hz) as (c & az & Hl). apply in_concat in H2. destruct H2 as (k & H2 & H3). apply in_map_iff in H2. destruct H2 as ((c1, (zs1, az1)) & <- & H2). cbn [fst snd] in H3.
      destruct (OK _ _ _ Hl) as (_ & Iz & _). pose proof Hx as Hx'. apply Iz in Hx'. destruct Hx' as [(t & Ht & Hhas) _]. pose proof (PV c1 zs1 az1 x t H2 H3 Hhas) as Ht1.
      assert (EQ : (c, (zs, az)) = (c1, (zs1, az1))).
      { clear - NR F1 Hl H2 Ht Ht1. rewrite <- F1 in NR. clear F1. unfold alltens in NR. induction l as [|e l IH]; [destruct Hl|]. cbn [map flat_map] in NR. apply NoDup_app in NR. destruct NR as (_ & N2 & D). destruct Hl as [->|Hl], H2 as [E|H2]; auto.
        - exfalso. apply (D t); auto. apply in_flat_map. exists c1. split; auto. apply in_map_iff. exists (c1, (zs1, az1)). auto.
        - exfalso. subst e. apply (D t); auto. apply in_flat_map. exists c. split; auto. apply in_map_iff. exists (c, (zs, az)). auto. }
      inversion EQ; subst. apply KS in H3. tauto.
    + intros x. rewrite in_app_iff, Ik, Ik'. split.
      * intros [[H1 H2]|H1].
        -- split; auto. apply in_concat in H1. destruct H1 as (zs & Hz & H1). destruct (TS zs Hz) as (c & az & Hl). eapply ST; eauto.
        -- apply in_concat in H1. destruct H1 as (k & H1 & H3). apply in_map_iff in H1. destruct H1 as ((c, (zs, az)) & <- & Hl). cbn [fst snd] in H3. apply KS in H3. destruct H3 as [H3 H4]. apply (XS c x (RL _ _ Hl)) in H3. split.
           ++ apply has_concat. destruct H3 as (t & _ & H3). eauto.
           ++ intros Ho. apply H4. apply (OK _ _ _ Hl). split; auto. 
      * intros [H1 H2]. apply has_concat in H1. destruct H1 as (t & Ht). assert (Lt : t < length ts) by (destruct Ht as (xs & E & _); apply nth_error_Some; rewrite E; discriminate).
        assert (I : In t (alltens rest)) by (eapply Permutation_in; [symmetry; exact Pt|]; apply in_seq; lia). apply in_flat_map in I. destruct I as (c & Hc & I). rewrite <- F1 in Hc. apply in_map_iff in Hc. destruct Hc as ((c', (zs, az)) & <- & Hl). cbn [fst] in *.
        destruct (in_dec Nat.eq_dec x zs) as [Z|Z].
        -- left. split; auto. apply in_concat. exists zs. split; auto. rewrite T1, map_map. apply in_map_iff. exists (c', (zs, az)). auto.
        -- right. apply in_concat. exists (ks_of c' zs). split; [apply in_map_iff; exists (c', (zs, az)); auto|]. apply KS. split; auto. apply XS; eauto.
Qed.
End Keeps.
