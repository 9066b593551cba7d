(** decompose_hyper_inds for the network of a circuit: the classes of merged indices. *)
From Coq Require Import List Arith Lia Permutation Bool Ring.
Import ListNotations.
From Verif Require Import P_Base P_Opt P_PyMain.
From Verif Require Import M_Base M_Path M_PyTree M_OSet M_Tensor M_Contract M_Decompose M_Circuit S_Path S_PyTree S_Random S_Network S_Fuse S_Tensor S_Contract S_Decompose S_Circuit S_Amplitude.
From Verif Require Import P_Path P_Split P_PathMain P_PyBuild P_PyTens P_OSet P_Fuse P_Sum P_Array P_Tensordot P_ContractMain P_Decompose P_DecomposeNet P_DecomposeSum P_Circuit P_Gates P_Same P_Simplify P_Amplitude P_DecGate.
From Verif Require Import M_Path M_PyTree.
Set Implicit Arguments.
Unset Strict Implicit.

Section Parts.
Variable K : Type.
Variable A : alg K.
Hypothesis SR : semiring A.
Variable eqb : K -> K -> bool.
Hypothesis EQ : forall a b, eqb a b = true <-> a = b.
Variable dim : nat -> nat.

Lemma net_parts arrays ts bs us m : shaped dim arrays ts -> Forall well_shaped arrays -> (forall xs, In xs ts -> NoDup xs) ->
  decompose_network A eqb arrays ts = Ok (bs, us, m) ->
  exists us0 h, decompose_all A eqb arrays ts = Ok (bs, us0, h) /\ us = map (map (sent m)) us0 /\ (forall v, identified ts m v <-> agrees h v) /\ NoDup (map fst m).
Proof.
  intros S W HN H. unfold decompose_network in H. cbv zeta in H.
  destruct (decompose_all_ok SR EQ S W HN) as [[E0 _]|(bs' & us0 & h & E0 & Ws & Ss & Is & Hs & Ad & B1 & B2)]; rewrite E0 in H; cbn [bind] in H; [discriminate|].
  set (all := iter (ofs (concat ts))) in *. assert (AI : forall x, In x all <-> In x (concat ts)) by (intros x; apply unique_in).
  destruct (@colors_start all (unique_nodup _)) as [C0 V0]. set (i0 := combine all (seq 0 (length all))) in *. set (c0 := map (fun e => (snd e, ofs [fst e])) i0) in *.
  destruct (@merge_all_ok all (filter (fun e => negb (length (snd e) =? 0)) h) i0 c0 C0) as (i1 & c1 & E1 & C1 & V1).
  { intros y s Hi. apply filter_In in Hi. destruct Hi as [Hi L]. cbn [snd] in L. apply negb_true_iff, Nat.eqb_neq in L. destruct s as [|z s]; [simpl in L; lia|].
    split; [apply AI; apply (Hs y (z :: s) Hi z); left; auto|]. intros x Hx. apply AI. apply (Hs y (z :: s) Hi x Hx). }
  assert (SK : forall l st, M_Decompose.merge_all st (filter (fun e => negb (length (snd e) =? 0)) l) = M_Decompose.merge_all st l).
  { clear. induction l as [|(y, s) l IH]; intros st; auto. cbn [filter snd]. destruct (length s =? 0) eqn:E; cbn [negb M_Decompose.merge_all].
    - rewrite IH. destruct st as (i, c). unfold merge_colors. rewrite E. auto.
    - destruct (merge_colors st (y, s)); cbn [bind]; auto. }
  rewrite SK in E1. rewrite E1 in H. cbn [bind] in H.
  assert (AF : forall v, agrees (filter (fun e => negb (length (snd e) =? 0)) h) v <-> agrees h v).
  { intros v. unfold agrees. split; intros Hv y s x Hi Hx; apply (Hv y s x); auto; [|apply filter_In in Hi; tauto]. apply filter_In. split; auto. destruct s; [destruct Hx|auto]. }
  destruct (map_ok C1) as (ms & E2 & GM). rewrite E2 in H. cbn [bind] in H. set (m0 := dict_of (concat ms)) in *. set (r := rep i1 c1) in *.
  assert (SM : forall x, In x all -> sent m0 x = r x) by (intros x Hx; unfold sent; rewrite GM, (proj2 (memb_In _ _) Hx); auto).
  assert (UA : forall ys y, In ys us0 -> In y ys -> In y all).
  { intros ys y Hy0 Hy. destruct (forall2_in_l Is Hy0) as (xs & Hxs & Hi). apply AI, in_concat. exists xs. auto. }
  assert (VS : mapM (mapM (dict_get m0)) us0 = Ok (map (map (sent m0)) us0)).
  { apply P_PyPath.mapM_ok. intros ys Hys. apply P_PyPath.mapM_ok. intros y Hy. rewrite SM by (apply (UA ys y Hys Hy)). rewrite GM, (proj2 (memb_In _ _)); auto. apply (UA ys y Hys Hy). }
  rewrite VS in H. cbn [bind] in H. inversion H; subst bs us m. exists us0, h. split; auto. split; auto. split; [|apply dict_of_nodup].
  intros v. rewrite <- AF. transitivity (same_color i1 v); [|rewrite V1; split; [tauto|auto]]. rewrite (same_rep v C1). unfold identified. split.
  - intros Hv x Hx. fold r. rewrite <- SM by auto. apply AI, has_concat in Hx. destruct Hx as (t & Hx). eauto.
  - intros Hv t x Hx. assert (Hi : In x all) by (apply AI, has_concat; eauto). rewrite SM by auto. apply Hv. auto.
Qed.

Lemma singles_ok (vs : list (nda K)) : forall zs, Forall (fun a => length (shape a) = 1) vs -> length vs = length zs -> decompose_all A eqb vs (map (fun x => [x]) zs) = Ok (vs, map (fun x => [x]) zs, []).
Proof.
  induction vs as [|a vs IH]; intros [|z zs] H L; try discriminate; auto. inversion H; subst. cbn [map decompose_all]. unfold decompose. cbn [length decompose_aux]. rewrite H2. cbn. rewrite IH by auto. auto.
Qed.
End Parts.

Lemma choose (P : nat -> nat -> Prop) (l : list nat) : (forall q, In q l -> exists y, P q y) -> exists d, forall q, In q l -> P q (d q).
Proof.
  induction l as [|q l IH]; intros H; [exists (fun _ => 0); intros ? []|]. destruct IH as (d & Hd); [intros; apply H; right; auto|]. destruct (H q (or_introl eq_refl)) as (y & Hy).
  exists (fun x => if x =? q then y else d x). intros x [->|Hx]; [rewrite Nat.eqb_refl; auto|]. destruct (Nat.eqb_spec x q); [subst; auto|auto].
Qed.

Section Chain.
Variable K : Type.
Variable F : nums K.
Local Notation A := (n_alg F).
Hypothesis NF : numbers F.
Let SR : semiring A := num_ring _ NF.
Local Notation two := (fun _ : nat => 2).
Notation gate := (nda K * list nat)%type.
Let EQ := num_eqb _ NF.
Variable nm : nat -> nat -> nat.
Variable T : nat -> nat.
Hypothesis NI : forall q q' t t', t <= T q -> t' <= T q' -> nm q t = nm q' t' -> q = q' /\ t = t'.

Lemma chain (gs : list gate) : forall bs c vs zs BS US H o0,
  (forall g, In g gs -> is_gate g /\ unitary F g) -> Forall2 (is_array F) bs gs -> (forall q, fin gs c q <= T q) ->
  Forall (fun a => length (shape a) = 1) vs -> length vs = length zs ->
  decompose_all A (n_eqb F) (bs ++ vs) (tnames nm gs c ++ map (fun x => [x]) zs) = Ok (BS, US, H) ->
  (forall q q', o0 (nm q (c q)) = o0 (nm q' (c q')) -> q = q') -> (forall q, exists a t, o0 (nm q (c q)) = nm a t /\ t <= c a) ->
  exists o, (forall q t, t <= c q -> o (nm q t) = o0 (nm q t)) /\ agrees H o /\
    (forall ys a b, In ys US -> In a ys -> In b ys -> o a = o b -> a = b) /\
    (forall q q', o (nm q (fin gs c q)) = o (nm q' (fin gs c q')) -> q = q') /\
    (forall x, In x (concat (tnames nm gs c)) -> (exists ys z, In ys US /\ In z ys /\ forall v, agrees H v -> v x = v z) \/ exists q, touches gs q /\ forall v, agrees H v -> v x = v (nm q (c q))) /\
    (forall z, In z zs -> In [z] US).
Proof.
  induction gs as [|g gs IH]; intros bs c vs zs BS US H o0 HG HB HT HV HL HD FI FO.
  - inversion HB; subst. cbn [tnames app] in HD. rewrite (singles_ok A (n_eqb F) HV HL) in HD. inversion HD; subst. exists o0. split; auto. split; [intros y s x []|]. split.
    + intros ys a b Hy Ha Hb _. apply in_map_iff in Hy. destruct Hy as (z & <- & _). destruct Ha as [<-|[]], Hb as [<-|[]]. auto.
    + split; auto. split; [intros x []|]. intros z Hz. apply in_map_iff. eauto.
  - inversion HB as [|b0 ? bs' ? Hb0 HB']; subst. destruct (HG g (or_introl eq_refl)) as [Hg Hu]. cbn [tnames app fin] in HD, HT. unfold rows, cols in HD. cbn [decompose_all] in HD.
    set (r := fun q => nm q (S (c q))) in *. set (cl := fun q => nm q (c q)) in *.
    assert (LT : forall q, c q <= T q) by (intros q; pose proof (step_le c g q); pose proof (fin_le gs (step c g) q); specialize (HT q); lia).
    assert (LS : forall q, In q (snd g) -> S (c q) <= T q) by (intros q Hq; pose proof (step_in c Hq); pose proof (fin_le gs (step c g) q); specialize (HT q); lia).
    pose proof Hg as (_ & Nq & _).
    assert (HX : NoDup (map r (snd g) ++ map cl (snd g))).
    { apply NoDup_app. split; [apply nodup_map_in; auto; intros x y Hx Hy E; apply NI in E; auto; tauto|]. split; [apply nodup_map_in; auto; intros x y Hx Hy E; apply NI in E; auto; tauto|].
      intros x H1 H2. apply in_map_iff in H1, H2. destruct H1 as (p & <- & H1), H2 as (p' & E & H2). apply NI in E; auto. destruct E as [-> E]. lia. }
    pose proof (Hb0 r cl) as Ta.
    destruct (decompose A (n_eqb F) b0 (map r (snd g) ++ map cl (snd g))) as [((b, ys), h)|] eqn:Ed; cbn [bind] in HD; [|discriminate].
    destruct (decompose_all A (n_eqb F) (bs' ++ vs) (tnames nm gs (step c g) ++ map (fun x => [x]) zs)) as [((BS', US'), H')|] eqn:Er; cbn [bind] in HD; [|discriminate].
    inversion HD; subst BS US H. clear HD.
    destruct (dec_facts NF HX Ta Ed) as (Iy & Ny & Ih & _). pose proof (merged_linked NF HX Ta Ed) as ML. pose proof (kept_apart NF HX Ta Ed) as KA. pose proof (row_kept NF Hg Hu HX Ta Ed) as RK.
    pose proof (rows_apart NF Hg Hu HX) as RA. pose proof (cols_apart NF Hg Hu HX) as CA. set (lk := linked F g r cl) in *.
    assert (LKT : forall x y z, lk x y -> lk y z -> lk x z) by (intros x y z H1 H2 W B Z; rewrite (H1 W B Z); apply H2; auto).
    assert (LKS : forall x y, lk x y -> lk y x) by (intros x y H1 W B Z; rewrite (H1 W B Z); auto).
    assert (Ir : forall q, In q (snd g) -> In (r q) (map r (snd g) ++ map cl (snd g))) by (intros q Hq; apply in_app_iff; left; apply in_map; auto).
    assert (Ic : forall q, In q (snd g) -> In (cl q) (map r (snd g) ++ map cl (snd g))) by (intros q Hq; apply in_app_iff; right; apply in_map; auto).
    assert (CH : forall q, In q (snd g) -> exists y, (exists p, In p (snd g) /\ lk (r q) (cl p) /\ y = o0 (cl p)) \/ ((forall p, In p (snd g) -> ~ lk (r q) (cl p)) /\ y = r q)).
    { intros q Hq. assert (X : forall l, incl l (snd g) -> (exists p, In p l /\ lk (r q) (cl p)) \/ forall p, In p l -> ~ lk (r q) (cl p)).
      { induction l as [|p l IHl]; intros I; [right; intros ? []|]. assert (Hp : In p (snd g)) by (apply I; left; auto). destruct (linked_dec NF (c := cl) (r := r) (Ir q Hq) (Ic p Hp)) as [D|D]; [left; exists p; split; [left|]; auto|].
        destruct IHl as [(p' & H1 & H2)|H1]; [intros z Hz; apply I; right; auto|left; exists p'; split; [right|]; auto|]. right. intros p' [<-|Hp']; auto. }
      destruct (X (snd g) (incl_refl _)) as [(p & H1 & H2)|H1]; [exists (o0 (cl p)); left; eauto|exists (r q); right; auto]. }
    destruct (choose CH) as (d & Hd). clear CH.
    set (o1 := patch g r d o0).
    assert (O1r : forall q, In q (snd g) -> o1 (r q) = d q). { intros q Hq. apply patch_in; auto. intros q' Hq' E. apply NI in E; auto. tauto. }
    assert (O1o : forall q t, t <= c q -> o1 (nm q t) = o0 (nm q t)). { intros q t Ht. apply patch_out. intros q' Hq' E. unfold r in E. apply NI in E; auto; [|specialize (LT q); lia]. destruct E as [-> E]. lia. }
    assert (O1c : forall q, o1 (cl q) = o0 (cl q)) by (intros q; apply O1o; auto).
    assert (FR : forall q p, In q (snd g) -> o0 (cl p) <> r q). { intros q p Hq E. destruct (FO p) as (a & t & Ea & Lt). unfold cl in E. rewrite Ea in E. apply NI in E; auto; [|specialize (LT a); lia]. destruct E as [-> E]. lia. }
    assert (FI' : forall q q', o0 (cl q) = o0 (cl q') -> q = q') by (intros q q' E; apply FI; auto).
    assert (Dinj : forall q q', In q (snd g) -> In q' (snd g) -> d q = d q' -> q = q').
    { intros q q' Hq Hq' E. destruct (Hd q Hq) as [(p & P1 & P2 & P3)|[P1 P2]], (Hd q' Hq') as [(p' & P1' & P2' & P3')|[P1' P2']].
      - rewrite P3, P3' in E. apply FI' in E. subst p'. destruct (Nat.eq_dec q q') as [|N]; auto. exfalso. apply (RA q q' Hq Hq' N). eapply LKT; eauto.
      - exfalso. apply (FR q' p Hq'). congruence.
      - exfalso. apply (FR q p' Hq). congruence.
      - rewrite P2, P2' in E. apply NI in E; auto. tauto. }
    assert (Dout : forall q q', In q (snd g) -> d q = o0 (cl q') -> In q' (snd g) /\ lk (r q) (cl q')).
    { intros q q' Hq E. destruct (Hd q Hq) as [(p & P1 & P2 & P3)|[P1 P2]]; [rewrite P3 in E; apply FI' in E; subst; auto|]. exfalso. apply (FR q q' Hq). congruence. }
    destruct (IH bs' (step c g) vs zs BS' US' H' o1) as (o & X1 & X2 & X3 & X4 & X5 & X6); auto.
    + intros g' Hg'. apply HG. right. auto.
    + intros q q' E. destruct (in_dec Nat.eq_dec q (snd g)) as [I|I], (in_dec Nat.eq_dec q' (snd g)) as [I'|I'];
        rewrite ?(step_in c I), ?(step_in c I'), ?(step_out c I), ?(step_out c I') in E; fold (r q) (r q') (cl q) (cl q') in E; rewrite ?O1r, ?O1c in E by auto; auto.
      * apply (Dout q q' I) in E. tauto.
      * symmetry in E. apply (Dout q' q I') in E. tauto.
    + intros q. destruct (in_dec Nat.eq_dec q (snd g)) as [I|I].
      * rewrite (step_in c I). fold (r q). rewrite O1r by auto. destruct (Hd q I) as [(p & P1 & P2 & P3)|[P1 P2]].
        -- destruct (FO p) as (a & t & Ea & Lt). exists a, t. fold (cl p) in Ea. split; [congruence|]. pose proof (step_le c g a). lia.
        -- exists q, (S (c q)). split; auto. rewrite (step_in c I). auto.
      * rewrite (step_out c I). fold (cl q). rewrite O1c. destruct (FO q) as (a & t & Ea & Lt). exists a, t. split; auto. pose proof (step_le c g a). lia.
    + assert (Or : forall q, In q (snd g) -> o (r q) = d q) by (intros q Hq; rewrite <- O1r by auto; apply X1; rewrite (step_in c Hq); auto).
      assert (Oc : forall q, o (cl q) = o0 (cl q)) by (intros q; rewrite <- O1c; apply X1; apply step_le).
      assert (LO : forall q p, In q (snd g) -> In p (snd g) -> lk (r q) (cl p) -> d q = o0 (cl p)).
      { intros q p Hq Hp L. destruct (Hd q Hq) as [(p' & P1 & P2 & P3)|[P1 P2]]; [|destruct (P1 p Hp L)]. rewrite P3. do 2 f_equal. destruct (Nat.eq_dec p' p) as [|N]; auto. exfalso. apply (CA p' p P1 Hp N). eapply LKT; eauto. }
      exists o. split; [intros q t Ht; rewrite X1 by (pose proof (step_le c g q); lia); apply O1o; auto|]. split; [|split; [|split; [exact X4|split]]].
      * apply agrees_app. split; auto. intros y s x H1 H2. pose proof (ML y s x H1 H2) as L. destruct (Ih y s x H1 H2) as [Ix Iyy]. apply in_app_iff in Ix, Iyy. rewrite !in_map_iff in Ix, Iyy.
        destruct Ix as [(p & <- & Hp)|(p & <- & Hp)], Iyy as [(p' & <- & Hp')|(p' & <- & Hp')].
        -- destruct (Nat.eq_dec p p') as [->|N]; auto. destruct (RA p p' Hp Hp' N L).
        -- rewrite Or, Oc by auto. apply LO; auto.
        -- rewrite Or, Oc by auto. symmetry. apply LO; auto.
        -- destruct (Nat.eq_dec p p') as [->|N]; auto. destruct (CA p p' Hp Hp' N L).
      * intros ys' x y [<-|Hy] Hx Hy' E; [|eapply X3; eauto]. pose proof (Iy x Hx) as Ix. pose proof (Iy y Hy') as Iyy. apply in_app_iff in Ix, Iyy. rewrite !in_map_iff in Ix, Iyy.
        destruct Ix as [(p & <- & Hp)|(p & <- & Hp)], Iyy as [(p' & <- & Hp')|(p' & <- & Hp')]; rewrite ?Or, ?Oc in E by auto.
        -- f_equal. auto.
        -- apply KA; auto. apply (Dout p p'); auto.
        -- symmetry. apply KA; auto. apply (Dout p' p); auto.
        -- f_equal. auto.
      * assert (ROW : forall q, In q (snd g) -> (exists ys0 z, In ys0 (ys :: US') /\ In z ys0 /\ forall v, agrees (h ++ H') v -> v (r q) = v z) \/ exists q', touches (g :: gs) q' /\ forall v, agrees (h ++ H') v -> v (r q) = v (cl q')).
        { intros q Hq. destruct (RK q Hq) as [(z & Z1 & Z2)|(q' & Z1 & Z2)]; [left; exists ys, z; split; [left; auto|]; split; auto|right; exists q'; split; [exists g; split; [left|]; auto|]]; intros v Hv; apply agrees_app in Hv; apply Z2; tauto. }
        intros x Hx. cbn [tnames concat] in Hx. unfold rows, cols in Hx. fold r cl in Hx. rewrite !in_app_iff, !in_map_iff in Hx. destruct Hx as [[(q & <- & Hq)|(q & <- & Hq)]|Hx].
        -- apply ROW. auto.
        -- right. exists q. split; [exists g; split; [left|]; auto|auto].
        -- destruct (X5 x Hx) as [(ys0 & z & Z1 & Z2 & Z3)|(q & (g' & Tg & Tq) & Z)].
           ++ left. exists ys0, z. split; [right; auto|]. split; auto. intros v Hv. apply agrees_app in Hv. apply Z3. tauto.
           ++ destruct (in_dec Nat.eq_dec q (snd g)) as [I|I].
              ** rewrite (step_in c I) in Z. fold (r q) in Z. destruct (ROW q I) as [(ys0 & z & Z1 & Z2 & Z3)|(q' & Z1 & Z2)].
                 --- left. exists ys0, z. split; auto. split; auto. intros v Hv. rewrite <- Z3 by auto. apply agrees_app in Hv. apply Z. tauto.
                 --- right. exists q'. split; auto. intros v Hv. rewrite <- Z2 by auto. apply agrees_app in Hv. apply Z. tauto.
              ** rewrite (step_out c I) in Z. right. exists q. split; [exists g'; split; [right|]; auto|]. intros v Hv. apply agrees_app in Hv. apply Z. tauto.
      * intros z Hz. right. auto.
Qed.

Lemma forward (gs : list gate) : forall bs c vs zs BS US H,
  (forall g, In g gs -> is_gate g /\ unitary F g) -> Forall2 (is_array F) bs gs -> (forall q, fin gs c q <= T q) ->
  decompose_all A (n_eqb F) (bs ++ vs) (tnames nm gs c ++ map (fun x => [x]) zs) = Ok (BS, US, H) ->
  forall q, (exists ys z, In ys US /\ In z ys /\ forall v, agrees H v -> v (nm q (c q)) = v z) \/
    exists q', (q' = q \/ touches gs q') /\ forall v, agrees H v -> v (nm q (c q)) = v (nm q' (fin gs c q')).
Proof.
  induction gs as [|g gs IH]; intros bs c vs zs BS US H HG HB HT HD q.
  - right. exists q. split; auto.
  - inversion HB as [|b0 ? bs' ? Hb0 HB']; subst. destruct (HG g (or_introl eq_refl)) as [Hg Hu]. cbn [tnames app fin] in *. unfold rows, cols in HD. cbn [decompose_all] in HD.
    set (r := fun q => nm q (S (c q))) in *. set (cl := fun q => nm q (c q)) in *.
    assert (LT : forall q, c q <= T q) by (intros p; pose proof (step_le c g p); pose proof (fin_le gs (step c g) p); specialize (HT p); lia).
    assert (LS : forall q, In q (snd g) -> S (c q) <= T q) by (intros p Hq; pose proof (step_in c Hq); pose proof (fin_le gs (step c g) p); specialize (HT p); lia).
    pose proof Hg as (_ & Nq & _).
    assert (HX : NoDup (map r (snd g) ++ map cl (snd g))).
    { apply NoDup_app. split; [apply nodup_map_in; auto; intros x y Hx Hy E; apply NI in E; auto; tauto|]. split; [apply nodup_map_in; auto; intros x y Hx Hy E; apply NI in E; auto; tauto|].
      intros x H1 H2. apply in_map_iff in H1, H2. destruct H1 as (p & <- & H1), H2 as (p' & E & H2). apply NI in E; auto. destruct E as [-> E]. lia. }
    pose proof (Hb0 r cl) as Ta.
    destruct (decompose A (n_eqb F) b0 (map r (snd g) ++ map cl (snd g))) as [((b, ys), h)|] eqn:Ed; cbn [bind] in HD; [|discriminate].
    destruct (decompose_all A (n_eqb F) (bs' ++ vs) (tnames nm gs (step c g) ++ map (fun x => [x]) zs)) as [((BS', US'), H')|] eqn:Er; cbn [bind] in HD; [|discriminate].
    inversion HD; subst BS US H. clear HD.
    assert (HG' : forall g, In g gs -> is_gate g /\ unitary F g) by (intros g' Hg'; apply HG; right; auto).
    assert (RW : forall p, (exists ys0 z, In ys0 (ys :: US') /\ In z ys0 /\ forall v, agrees (h ++ H') v -> v (nm p (step c g p)) = v z) \/
      exists q', (q' = p \/ touches (g :: gs) q') /\ forall v, agrees (h ++ H') v -> v (nm p (step c g p)) = v (nm q' (fin gs (step c g) q'))).
    { intros p. destruct (IH bs' (step c g) vs zs BS' US' H' HG' HB' HT Er p) as [(ys0 & z & Z1 & Z2 & Z3)|(q' & Z1 & Z2)].
      - left. exists ys0, z. split; [right; auto|]. split; auto. intros v Hv. apply agrees_app in Hv. apply Z3. tauto.
      - right. exists q'. split; [destruct Z1 as [->|(g' & G1 & G2)]; auto; right; exists g'; split; [right|]; auto|]. intros v Hv. apply agrees_app in Hv. apply Z2. tauto. }
    destruct (in_dec Nat.eq_dec q (snd g)) as [I|I].
    + destruct (col_kept NF Hg Hu HX Ta Ed I) as [(z & Z1 & Z2)|(p & Z1 & Z2)].
      * left. exists ys, z. split; [left; auto|]. split; auto. intros v Hv. apply agrees_app in Hv. apply Z2. tauto.
      * assert (Z3 : forall v, agrees (h ++ H') v -> v (nm q (c q)) = v (nm p (step c g p))) by (intros v Hv; rewrite (step_in c Z1); apply agrees_app in Hv; apply Z2; tauto).
        destruct (RW p) as [(ys0 & z & Y1 & Y2 & Y3)|(q' & Y1 & Y2)].
        -- left. exists ys0, z. split; auto. split; auto. intros v Hv. rewrite Z3; auto.
        -- right. exists q'. split; [right; destruct Y1 as [->|]; auto; exists g; split; [left|]; auto|]. intros v Hv. rewrite Z3; auto.
    + pose proof (RW q) as R. rewrite (step_out c I) in R. auto.
Qed.
End Chain.

Section Nodup.
Variable K : Type.
Variable A : alg K.
Variable eqb : K -> K -> bool.
Hypothesis EQ : forall a b, eqb a b = true <-> a = b.
Variable dim : nat -> nat.
Lemma all_nodup arrays ts : shaped dim arrays ts -> Forall well_shaped arrays -> (forall xs, In xs ts -> NoDup xs) ->
  forall bs us h, decompose_all A eqb arrays ts = Ok (bs, us, h) -> forall ys, In ys us -> NoDup ys /\ incl ys (concat ts).
Proof.
  intros S. induction S as [|a xs arrays ts Sa S IH]; intros W HN bs us h H; cbn [decompose_all] in H; [inversion H; subst; intros ys []|]. inversion W as [|? ? Wa W']; subst.
  destruct (decompose_ok A EQ (HN xs (or_introl eq_refl)) Wa Sa) as [[E _]|(b & ys & h0 & E & Wb & Sb & Nb & Ib & _)]; rewrite E in H; cbn [bind] in H; [discriminate|].
  destruct (decompose_all A eqb arrays ts) as [((bs', us'), h')|] eqn:Er; cbn [bind] in H; [|discriminate]. inversion H; subst.
  intros zs [<-|Hz]; cbn [concat]; [split; auto; intros x Hx; apply in_app_iff; auto|].
  destruct (IH W' (fun xs H => HN xs (or_intror H)) _ _ _ eq_refl zs Hz) as [I1 I2]. split; auto. intros x Hx. apply in_app_iff. right. auto.
Qed.
End Nodup.
