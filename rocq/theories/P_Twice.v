(** Every index of the decomposed network of a circuit that is not linked to an open
    end is in two of its tensors. *)
From Coq Require Import List Arith Lia Permutation Bool.
Import ListNotations.
From Verif Require Import P_Base P_Opt P_PyMain.
From Verif Require Import M_Base M_Path M_PyTree M_OSet M_Tensor M_Contract M_Decompose M_Circuit S_Path S_PyTree S_Random S_Network S_Fuse S_Tensor S_Contract S_Decompose S_Circuit S_Amplitude.
From Verif Require Import P_Path P_Split P_PathMain P_PyBuild P_PyTens P_OSet P_Fuse P_Sum P_Array P_Tensordot P_ContractMain P_Decompose P_DecomposeNet P_DecomposeSum P_Circuit P_Gates P_Same P_Simplify P_Amplitude P_DecGate P_DecChain.
From Verif Require Import M_Path M_PyTree.
Set Implicit Arguments.
Unset Strict Implicit.

Lemma decompose_all_app (K : Type) (A : alg K) eqb : forall (a1 : list (nda K)) t1 a2 t2 BS US H, length a1 = length t1 ->
  decompose_all A eqb (a1 ++ a2) (t1 ++ t2) = Ok (BS, US, H) ->
  exists BS1 US1 H1 BS2 US2 H2, decompose_all A eqb a1 t1 = Ok (BS1, US1, H1) /\ decompose_all A eqb a2 t2 = Ok (BS2, US2, H2) /\ US = US1 ++ US2 /\ H = H1 ++ H2 /\ length US1 = length t1.
Proof.
  induction a1 as [|a a1 IH]; intros [|x t1] a2 t2 BS US H L E; try discriminate.
  - exists [], [], [], BS, US, H. auto 6.
  - cbn [app decompose_all] in E |- *. destruct (decompose A eqb a x) as [((b, ys), h)|] eqn:Ed; cbn [bind] in E |- *; [|discriminate].
    destruct (decompose_all A eqb (a1 ++ a2) (t1 ++ t2)) as [((BS', US'), H')|] eqn:Er; cbn [bind] in E; [|discriminate]. injection E as <- <- <-.
    destruct (IH t1 a2 t2 BS' US' H') as (BS1 & US1 & H1 & BS2 & US2 & H2 & E1 & E2 & E3 & E4 & E5); auto. rewrite E1. cbn [bind].
    exists (b :: BS1), (ys :: US1), (h ++ H1), BS2, US2, H2. subst. rewrite <- app_assoc. simpl. auto 7.
Qed.

Section Twice.
Variable K : Type.
Variable F : nums K.
Local Notation A := (n_alg F).
Hypothesis NF : numbers F.
Notation gate := (nda K * list nat)%type.

Lemma tnames_app nm (g1 : list gate) : forall g2 c, tnames nm (g1 ++ g2) c = tnames nm g1 c ++ tnames nm g2 (fin g1 c).
Proof. induction g1 as [|g g1 IH]; intros g2 c; cbn [tnames app fin]; auto. rewrite IH. auto. Qed.
Lemma fin_app (g1 : list gate) : forall g2 c, fin (g1 ++ g2) c = fin g2 (fin g1 c).
Proof. induction g1 as [|g g1 IH]; intros g2 c; cbn [app fin]; auto. Qed.
Lemma tnames_len nm (gs : list gate) : forall c, length (tnames nm gs c) = length gs.
Proof. induction gs; intros c; cbn [tnames length]; auto. Qed.

(** The gate that makes a wire. *)
Lemma created (gs : list gate) : forall c q t, c q <= t -> t < fin gs c q -> exists g1 g g2, gs = g1 ++ g :: g2 /\ In q (snd g) /\ fin g1 c q = t.
Proof.
  induction gs as [|g gs IH]; intros c q t H1 H2; cbn [fin] in H2; [lia|]. destruct (Nat.eq_dec (c q) t) as [E|N].
  - destruct (in_dec Nat.eq_dec q (snd g)) as [I|I]; [exists [], g, gs; auto|]. destruct (IH (step c g) q t) as (g1 & g' & g2 & -> & X & Y); auto; [rewrite (step_out c I); lia|]. exists (g :: g1), g', g2. auto.
  - destruct (IH (step c g) q t) as (g1 & g' & g2 & -> & X & Y); auto; [unfold step; destruct (memb q (snd g)); lia|]. exists (g :: g1), g', g2. auto.
Qed.

Variable ix : nat -> mark -> nat.
Hypothesis IX : distinct ix.
Variables (gs : list gate) (Q : list nat).
Hypothesis HG : forall g, In g gs -> is_gate g /\ unitary F g.
Hypothesis HQ : forall q, In q Q <-> touches gs q.
Variables (bs vs : list (nda K)) (zs os : list nat).
Hypothesis HB : Forall2 (is_array F) bs gs.
Hypothesis HV : Forall (fun a => length (shape a) = 1) vs.
Hypothesis HL : length vs = length zs.
Hypothesis HZ : forall z, In z zs -> In z (concat (tnames (nm ix gs) gs zeros)).
Hypothesis HE : forall q, In q Q -> (In (ix q Ini) os \/ In (ix q Ini) zs) /\ (In (ix q Fin) os \/ In (ix q Fin) zs).

Notation n_m := (nm ix gs).
Let NI : forall q q' t t', t <= LL gs q -> t' <= LL gs q' -> n_m q t = n_m q' t' -> q = q' /\ t = t'.
Proof. intros q q' t t' H1 H2 H3. apply (nm_inj IX H1 H2 H3). Qed.

Lemma twice_all BS US H : decompose_all A (n_eqb F) (bs ++ vs) (tnames n_m gs zeros ++ map (fun x => [x]) zs) = Ok (BS, US, H) ->
  forall x, In x (concat (tnames n_m gs zeros ++ map (fun x => [x]) zs)) ->
  (exists o, In o os /\ forall v, agrees H v -> v x = v o) \/
  exists t1 t2 z1 z2, t1 <> t2 /\ has US t1 z1 /\ has US t2 z2 /\ (forall v, agrees H v -> v x = v z1) /\ (forall v, agrees H v -> v x = v z2).
Proof.
  intros HD.
  assert (LB : length bs = length gs) by (apply forall2_len in HB; auto).
  assert (LT : length bs = length (tnames n_m gs zeros)) by (rewrite tnames_len; auto). destruct (decompose_all_app LT HD) as (BS1 & UG & HG1 & BS2 & US2 & H2 & D1 & D2 & EU & EH & LU).
  rewrite (singles_ok A (n_eqb F) HV HL) in D2. injection D2 as <- <- <-. rewrite app_nil_r in EH. subst HG1 US. rewrite tnames_len in LU.
  assert (SG : forall z, In z zs -> exists t, length gs <= t /\ nth_error (UG ++ map (fun x => [x]) zs) t = Some [z]).
  { intros z Hz. apply In_nth_error in Hz. destruct Hz as (i & Hi). exists (length UG + i). split; [lia|]. rewrite nth_error_app2 by lia. replace (length UG + i - length UG) with i by lia. rewrite nth_error_map, Hi. auto. }
  assert (MAIN : forall q t, In q Q -> t <= LL gs q -> (exists o, In o os /\ forall v, agrees H v -> v (n_m q t) = v o) \/
    exists t1 t2 z1 z2, t1 <> t2 /\ has (UG ++ map (fun x => [x]) zs) t1 z1 /\ has (UG ++ map (fun x => [x]) zs) t2 z2 /\ (forall v, agrees H v -> v (n_m q t) = v z1) /\ (forall v, agrees H v -> v (n_m q t) = v z2)).
  { intros q t Hq Ht.
    (* the circuit before and after the wire *)
    assert (SP : exists g1 g2, gs = g1 ++ g2 /\ fin g1 zeros q = t /\ (t = 0 -> g1 = []) /\ (t <> 0 -> In (n_m q t) (concat (tnames n_m g1 zeros)))).
    { destruct (Nat.eq_dec t 0) as [Z0|Nt]; [subst t; exists [], gs; split; [reflexivity|]; split; [reflexivity|]; split; [auto|intros X; destruct (X eq_refl)]|]. destruct (@created gs zeros q (t - 1)) as (g1 & g & g2 & E & I & Ft); [unfold zeros; lia|unfold LL in Ht; lia|].
      exists (g1 ++ [g]), g2. split; [rewrite <- app_assoc; auto|]. rewrite fin_app. cbn [fin]. rewrite (step_in _ I), Ft. split; [lia|]. split; [lia|]. intros _.
      rewrite tnames_app, concat_app, in_app_iff. right. cbn [tnames concat]. rewrite !in_app_iff. left. left. unfold rows. apply in_map_iff. exists q. split; auto. rewrite Ft. f_equal. lia. }
    destruct SP as (g1 & g2 & Eg & Ft & T0 & T1).
    assert (HB' := HB). rewrite Eg in HB'. apply Forall2_app_inv_r in HB'. destruct HB' as (b1 & b2 & HB1 & HB2 & Eb).
    pose proof D1 as D1'. assert (TA : tnames n_m gs zeros = tnames n_m g1 zeros ++ tnames n_m g2 (fin g1 zeros)) by (rewrite <- tnames_app, <- Eg; auto). rewrite TA, Eb in D1'.
    assert (L1 : length b1 = length g1) by (apply forall2_len in HB1; auto).
    apply decompose_all_app in D1'; [|rewrite tnames_len; auto]. destruct D1' as (BA & UA & HA & BC & UC & HC & DA & DC & EUU & EHH & LA). rewrite tnames_len in LA.
    assert (AG : forall v, agrees H v -> agrees HA v /\ agrees HC v) by (intros v Hv; rewrite EHH in Hv; apply agrees_app; auto).
    assert (FL : forall p, fin g2 (fin g1 zeros) p = LL gs p) by (intros p; unfold LL; rewrite Eg at 1; rewrite fin_app; auto).
    assert (F1 : forall p, fin g1 zeros p <= LL gs p) by (intros p; rewrite <- FL; apply fin_le).
    assert (G1 : forall g, In g g1 -> is_gate g /\ unitary F g) by (intros g Hg; apply HG; rewrite Eg; apply in_app_iff; auto).
    assert (G2 : forall g, In g g2 -> is_gate g /\ unitary F g) by (intros g Hg; apply HG; rewrite Eg; apply in_app_iff; auto).
    (* the source *)
    assert (SRC : (exists t1 z, t1 < length g1 /\ has UA t1 z /\ forall v, agrees H v -> v (n_m q t) = v z) \/ exists p, In p Q /\ forall v, agrees H v -> v (n_m q t) = v (ix p Ini)).
    { destruct (Nat.eq_dec t 0) as [Z0|Nt]; [rewrite Z0; right; exists q; split; auto|]. specialize (T1 Nt).
      rewrite <- (app_nil_r b1), <- (app_nil_r (tnames n_m g1 zeros)) in DA. change (@nil (list nat)) with (map (fun x : nat => [x]) []) in DA.
      destruct (chain NF NI (c := zeros) (o0 := fun x => x) G1 HB1 F1 (Forall_nil _) (eq_refl : length (@nil (nda K)) = length (@nil nat)) DA) as (o & _ & _ & _ & _ & X5 & _).
      { intros a a' X. apply NI in X; [tauto|unfold zeros; lia|unfold zeros; lia]. } { intros a. exists a, 0. auto. }
      destruct (X5 _ T1) as [(ys & z & Z1 & Z2 & Z3)|(p & Tp & Z)].
      - left. apply In_nth_error in Z1. destruct Z1 as (t1 & Z1). exists t1, z. split; [rewrite <- LA; apply nth_error_Some; rewrite Z1; discriminate|]. split; [exists ys; auto|]. intros v Hv. apply Z3, AG. auto.
      - right. exists p. split; [apply HQ; destruct Tp as (g & A1 & A2); exists g; split; auto; rewrite Eg; apply in_app_iff; auto|]. intros v Hv. apply Z, AG. auto. }
    (* the sink *)
    assert (SNK : (exists t2 z, t2 < length g2 /\ has UC t2 z /\ forall v, agrees H v -> v (n_m q t) = v z) \/ exists p, In p Q /\ forall v, agrees H v -> v (n_m q t) = v (ix p Fin)).
    { rewrite <- (app_nil_r b2), <- (app_nil_r (tnames n_m g2 (fin g1 zeros))) in DC. change (@nil (list nat)) with (map (fun x : nat => [x]) []) in DC.
      assert (LC : length UC = length g2). { apply (f_equal (@length (list nat))) in EUU. rewrite app_length in EUU. apply (f_equal (@length gate)) in Eg. rewrite app_length in Eg. lia. }
      destruct (forward NF NI (c := fin g1 zeros) G2 HB2 (fun p => eq_ind _ (fun y => y <= LL gs p) (le_n _) _ (eq_sym (FL p))) DC q) as [(ys & z & Z1 & Z2 & Z3)|(p & Tp & Z)]; rewrite Ft in *.
      - left. apply In_nth_error in Z1. destruct Z1 as (t1 & Z1). exists t1, z. split; [rewrite <- LC; apply nth_error_Some; rewrite Z1; discriminate|]. split; [exists ys; auto|]. intros v Hv. apply Z3, AG. auto.
      - right. exists p. assert (Ip : In p Q). { destruct Tp as [->|(g & A1 & A2)]; auto. apply HQ. exists g. split; auto. rewrite Eg. apply in_app_iff; auto. }
        split; auto. intros v Hv. rewrite Z by (apply AG; auto). rewrite FL, (nm_L ix HQ Ip). auto. }
    assert (UGA : forall t z, t < length g1 -> has UA t z -> has (UG ++ map (fun x => [x]) zs) t z).
    { intros t0 z Hl (ys & Y1 & Y2). exists ys. split; auto. rewrite EUU, !nth_error_app1; auto; rewrite ?app_length; lia. }
    assert (UGC : forall t z, has UC t z -> has (UG ++ map (fun x => [x]) zs) (length g1 + t) z).
    { intros t0 z (ys & Y1 & Y2). exists ys. split; auto. assert (t0 < length UC) by (apply nth_error_Some; rewrite Y1; discriminate). rewrite EUU. rewrite nth_error_app1 by (rewrite app_length; lia). rewrite nth_error_app2 by lia. replace (length g1 + t0 - length UA) with t0 by lia. auto. }
    assert (LG : length gs = length g1 + length g2) by (rewrite Eg, app_length; auto).
    destruct SRC as [(t1 & z1 & S1 & S2 & S3)|(p & Hp & S1)], SNK as [(t2 & z2 & K1 & K2 & K3)|(p' & Hp' & K1)].
    - right. exists t1, (length g1 + t2), z1, z2. split; [lia|]. auto.
    - destruct (HE Hp') as [_ [O|C]]; [left; exists (ix p' Fin); auto|]. destruct (SG _ C) as (t2 & B2 & B3). right. exists t1, t2, z1, (ix p' Fin). split; [lia|]. split; auto. split; auto. exists [ix p' Fin]. simpl; auto.
    - destruct (HE Hp) as [[O|C] _]; [left; exists (ix p Ini); auto|]. destruct (SG _ C) as (t1 & B2 & B3). right. exists t1, (length g1 + t2), (ix p Ini), z2. split; [lia|]. split; [exists [ix p Ini]; simpl; auto|]. auto.
    - destruct (HE Hp) as [[O|C] _]; [left; exists (ix p Ini); auto|]. destruct (HE Hp') as [_ [O'|C']]; [left; exists (ix p' Fin); auto|].
      destruct (SG _ C) as (t1 & B2 & B3), (SG _ C') as (t2 & B4 & B5). right. exists t1, t2, (ix p Ini), (ix p' Fin). split; [intros ->; rewrite B3 in B5; injection B5 as E; apply IX in E; destruct E; discriminate|].
      split; [exists [ix p Ini]; simpl; auto|]. split; [exists [ix p' Fin]; simpl; auto|]. auto. }
  intros x Hx. assert (Hw : In x (concat (tnames n_m gs zeros))).
  { rewrite concat_app, in_app_iff in Hx. destruct Hx as [|Hx]; auto. apply in_concat in Hx. destruct Hx as (l & Hl & Hx). apply in_map_iff in Hl. destruct Hl as (z & <- & Hz). destruct Hx as [<-|[]]. auto. }
  assert (GG : forall g, In g gs -> is_gate g) by (intros g Hg; apply HG; auto).
  rewrite tnames_concat in Hw. apply (wires_all GG HQ) in Hw. apply (all_wires_in ix GG HQ) in Hw. destruct Hw as (q & t & -> & Hq & Ht). auto.
Qed.
End Twice.
