(** The network of a circuit. *)
From Coq Require Import List Arith Lia Permutation Bool Ring.
Import ListNotations.
From Verif Require Import P_Base P_Opt P_PyMain.
From Verif Require Import M_Base M_Path M_PyTree M_OSet M_Tensor M_Contract M_Circuit S_Path S_PyTree S_Random S_Network S_Fuse S_Tensor S_Contract S_Circuit S_Amplitude.
From Verif Require Import P_Path P_Split P_PathMain P_PyBuild P_PyTens P_OSet P_Fuse P_Sum P_Array P_Tensordot P_ContractMain P_DecomposeNet P_DecomposeSum P_Circuit P_Gates P_Same P_Simplify.
From Verif Require Import M_Path M_PyTree.
Set Implicit Arguments.
Unset Strict Implicit.

Lemma wire_get d q : wire d q = match dict_get d q with Ok t => t | Err _ => 0 end.
Proof. reflexivity. Qed.
Lemma dict_get_none (V : Type) (d : list (nat * V)) k : ~ In k (map fst d) -> exists e, dict_get d k = Err e.
Proof.
  induction d as [|(j, u) d IH]; simpl; intros H; [eauto|]. destruct (Nat.eqb_spec k j); [subst; tauto|]. apply IH. tauto.
Qed.
Lemma dict_get_some (V : Type) (d : list (nat * V)) k : In k (map fst d) -> exists v, dict_get d k = Ok v.
Proof. induction d as [|(j, u) d IH]; simpl; [tauto|]. intros H. destruct (Nat.eqb_spec k j); [eauto|]. apply IH. destruct H; auto. congruence. Qed.
Lemma wire_set d k t q : wire (dict_set d k t) q = if q =? k then t else wire d q.
Proof. rewrite !wire_get, dict_get_set. rewrite (Nat.eqb_sym q k). destruct (k =? q); auto. Qed.
Lemma dict_set_in (V : Type) (d : list (nat * V)) k v x : In x (map fst (dict_set d k v)) <-> In x (map fst d) \/ x = k.
Proof. induction d as [|(j, u) d IH]; simpl; [intuition|]. destruct (Nat.eqb_spec k j); simpl; [subst; intuition|]. rewrite IH. tauto. Qed.
Lemma dict_set_nd (V : Type) (d : list (nat * V)) k v : NoDup (map fst d) -> NoDup (map fst (dict_set d k v)).
Proof.
  induction d as [|(j, u) d IH]; simpl; intros N; [constructor; [intros []|constructor]|]. inversion N; subst. destruct (Nat.eqb_spec k j); simpl; [subst; constructor; auto|]. constructor; auto.
  rewrite dict_set_in. intros [H|H]; auto.
Qed.
Definition wires_ok (d : list (nat * nat)) (c : nat -> nat) : Prop := NoDup (map fst d) /\ (forall q, wire d q = c q) /\ (forall q, In q (map fst d) <-> c q > 0).
Lemma wires_fold qs : forall d c, NoDup qs -> wires_ok d c -> wires_ok (fold_left (fun d q => dict_set d q (S (wire d q))) qs d) (fun q => if memb q qs then S (c q) else c q).
Proof.
  induction qs as [|q qs IH]; intros d c N (N0 & W & P); [split; auto|]. inversion N; subst. cbn [fold_left].
  destruct (IH (dict_set d q (S (wire d q))) (fun x => if x =? q then S (c x) else c x)) as (A1 & A2 & A3); auto.
  - split; [apply dict_set_nd; auto|]. split.
    + intros x. rewrite wire_set. destruct (Nat.eqb_spec x q) as [->|]; rewrite W; auto.
    + intros x. rewrite dict_set_in, P. destruct (Nat.eqb_spec x q); [subst; split; auto; lia|]. tauto.
  - split; auto. assert (E : forall x, (if memb x qs then S (if x =? q then S (c x) else c x) else if x =? q then S (c x) else c x) = if memb x (q :: qs) then S (c x) else c x).
    { intros x. change (memb x (q :: qs)) with ((x =? q) || memb x qs). destruct (Nat.eqb_spec x q) as [->|]; auto. rewrite (proj2 (memb_nIn _ _) H1). auto. }
    split; intros x; rewrite <- E; auto.
Qed.

Section Amp.
Variable K : Type.
Variable F : nums K.
Local Notation A := (n_alg F).
Hypothesis NF : numbers F.
Let SR : semiring A := num_ring _ NF.
Let SR1 : semi_ring_theory (zero A) (one A) (add A) (mul A) eq := num_ring _ NF.
Add Ring KR : SR1.
Local Notation two := (fun _ : nat => 2).
Notation so := (sum_over A two).
Variable ix : nat -> mark -> nat.
Hypothesis IX : distinct ix.
Notation gate := (nda K * list nat)%type.

Lemma network_app l l' ts ts' v : length l = length ts -> network A (l ++ l') (ts ++ ts') v = mul A (network A l ts v) (network A l' ts' v).
Proof.
  revert ts. induction l as [|a l IH]; intros [|xs ts] E; try discriminate; cbn [app].
  - rewrite network_nil. ring.
  - rewrite !network_cons, IH by (simpl in E; lia). ring.
Qed.

(** ** The gates *)
Fixpoint tnames (nm : nat -> nat -> nat) (gs : list gate) (c : nat -> nat) : list (list nat) :=
  match gs with [] => [] | g :: gs' => (rows nm c g ++ cols nm c g) :: tnames nm gs' (step c g) end.
Definition is_array (b : nda K) (g : gate) : Prop :=
  forall r c, tensor A two b (map r (snd g) ++ map c (snd g)) (fun W => element F g (fun q => W (r q)) (fun q => W (c q))).
Lemma build_ok : forall gs d c, (forall g, In g gs -> is_gate g) -> wires_ok d c ->
  exists bs last, build ix gs d = Ok (bs, tnames (fun q t => ix q (At t)) gs c, last) /\ wires_ok last (fin gs c) /\ Forall2 is_array bs gs.
Proof.
  induction gs as [|g gs IH]; intros d c HG HW; cbn [build].
  - exists [], d. split; auto.
  - pose proof (HG g (or_introl eq_refl)) as Hg. destruct g as [a qs]. destruct (gate_tensor F (fun q => q) (fun q => q) Hg) as (b & Eb & _). cbn [fst snd] in Eb. rewrite Eb. cbn [bind].
    pose proof Hg as (_ & N & _). cbn [snd] in N. pose proof (wires_fold N HW) as HW'.
    destruct (IH (fold_left (fun d q => dict_set d q (S (wire d q))) qs d) (step c (a, qs))) as (bs & last & E & Hl & Hb). { intros x Hx. apply HG. right. auto. } { exact HW'. }
    rewrite E. cbn [bind]. exists (b :: bs), last. split; [|split; auto].
    + cbn [tnames]. unfold rows, cols. cbn [snd]. destruct HW as (_ & W & _). do 4 f_equal. f_equal; apply map_ext; intros q; rewrite W; auto.
    + constructor; auto. intros r c'. destruct (gate_tensor F r c' Hg) as (b' & Eb' & _ & T). cbn [fst snd] in Eb'. rewrite Eb in Eb'. inversion Eb'; subst b'. exact T.
Qed.
Lemma bits_range W xs : bits W -> in_range two xs W.
Proof. intros B x _. apply B. Qed.
Lemma gates_network nm : forall gs bs c W, Forall2 is_array bs gs -> bits W -> network A bs (tnames nm gs c) W = pprod F nm gs c W.
Proof.
  induction gs as [|g gs IH]; intros bs c W H B; inversion H as [|b ? bs' ? Hb Hbs]; subst; cbn [tnames pprod]; [apply network_nil|]. rewrite network_cons, IH by auto. f_equal.
  destruct (Hb (fun q => nm q (S (c q))) (fun q => nm q (c q))) as (_ & _ & V). apply (V W). apply bits_range. auto.
Qed.
Lemma gates_shaped nm : forall gs bs c, Forall2 is_array bs gs -> shaped two bs (tnames nm gs c) /\ Forall well_shaped bs.
Proof.
  induction gs as [|g gs IH]; intros bs c H; inversion H as [|b ? bs' ? Hb Hbs]; subst; cbn [tnames]; [split; constructor|]. destruct (IH bs' (step c g) Hbs) as [H1 H2].
  destruct (Hb (fun q => nm q (S (c q))) (fun q => nm q (c q))) as (Wb & Sb & _). split; constructor; auto.
Qed.
Lemma tnames_concat nm gs : forall c, concat (tnames nm gs c) = wires nm gs c.
Proof. induction gs as [|g gs IH]; intros c; cbn [tnames concat wires]; auto. rewrite IH, app_assoc. auto. Qed.

(** ** The states *)
Lemma token_ok t : t <> TOther -> names_normalized F -> exists a, token_vec F t = Some a /\ shape a = [2] /\ n_unit F a = true /\ well_shaped a /\ forall b, b < 2 -> entry A a [b] = token_amp F t b.
Proof.
  intros Ht (N0 & N1 & Np & Nm). destruct t; try tauto; eexists; (split; [reflexivity|]); (split; [reflexivity|]); (split; [auto|]); (split; [reflexivity|]); intros [|[|]] Hb; try lia; reflexivity.
Qed.
Lemma find_key (l : list (nat * state_value K)) q s : NoDup (map fst l) -> In (q, s) l -> find (fun e => fst e =? q) l = Some (q, s).
Proof.
  induction l as [|(k, u) l IH]; simpl; intros N H; [tauto|]. inversion N; subst. destruct (Nat.eqb_spec k q) as [->|Ne].
  - destruct H as [H|H]; [congruence|]. exfalso. apply H2. apply in_map_iff. exists (q, s). auto.
  - destruct H as [H|H]; [congruence|auto].
Qed.
Lemma find_none_key (l : list (nat * state_value K)) q : ~ In q (map fst l) -> find (fun e => fst e =? q) l = None.
Proof. induction l as [|(k, u) l IH]; simpl; intros H; auto. destruct (Nat.eqb_spec k q); [tauto|]. apply IH. tauto. Qed.

Lemma get_state_ok Q s : names_normalized F -> NoDup Q -> valid_state F Q s -> proper_state s ->
  exists d, get_state F Q s = Ok d /\ NoDup (map fst d) /\ (forall q, In q (map fst d) <-> In q Q /\ closing F s q <> None) /\
  forall q a, In (q, a) d -> shape a = [2] /\ well_shaped a /\ exists k, closing F s q = Some k /\ forall b, b < 2 -> entry A a [b] = k b.
Proof.
  intros NN NQ HV HP. destruct s as [|t|l|]; cbn [get_state valid_state closing] in *; [| | |tauto].
  - exists []. split; auto. split; [constructor|]. split; [|intros ? ? []]. intros q. split; [intros []|]. tauto.
  - destruct (token_ok HV NN) as (a & E & S & U & W & V). rewrite E. exists (map (fun q => (q, a)) Q). split; auto.
    assert (M : map fst (map (fun q => (q, a)) Q) = Q) by (rewrite map_map, map_id; auto). rewrite M. split; auto. split; [intros q; split; [split; [auto|discriminate]|tauto]|].
    intros q b Hb. apply in_map_iff in Hb. destruct Hb as (q' & Hb & _). inversion Hb; subst. split; auto. split; auto. eauto.
  - destruct HV as (N & HT & HA).
    set (val := fun e : nat * state_value K => match snd e with Tok t => match token_vec F t with Some a => (fst e, a) | None => (fst e, mkA [] []) end | Vec a => (fst e, a) end).
    assert (M : mapM (fun e => match snd e with Tok t => match token_vec F t with Some a => Ok (fst e, a) | None => Err Throw end | Vec a => Ok (fst e, a) end) l = Ok (map val l)).
    { clear - HT NN. induction l as [|(q, [t|a]) l IH]; cbn [mapM map snd fst]; auto.
      - destruct (@token_ok t) as (a & E & _); [intros ->; apply (HT q); left; auto|auto|]. unfold val at 1. cbn [snd fst]. rewrite E. cbn [bind]. rewrite IH; [auto|]. intros q' H. apply (HT q'). right. auto.
      - cbn [bind]. rewrite IH; [auto|]. intros q' H. apply (HT q'). right. auto. }
    rewrite M. cbn [bind]. assert (F1 : forall e, fst (val e) = fst e) by (intros (q, [t|a]); unfold val; cbn [snd fst]; auto; destruct (token_vec F t); auto).
    assert (MF : map fst (map val l) = map fst l) by (rewrite map_map; apply map_ext; auto).
    set (d := filter (fun e => memb (fst e) Q) (map val l)).
    assert (X : forall q a, In (q, a) d -> In q Q /\ exists s, In (q, s) l /\ val (q, s) = (q, a)).
    { intros q a H. apply filter_In in H. destruct H as [H Hq]. apply memb_In in Hq. cbn [fst] in Hq. split; auto. apply in_map_iff in H. destruct H as ((q', s) & H & Hl). pose proof (F1 (q', s)) as F2. rewrite H in F2. cbn [fst] in F2. subst q'. eauto. }
    assert (Y : forall q a, In (q, a) d -> shape a = [2] /\ n_unit F a = true /\ well_shaped a /\ exists k, closing F (SDict l) q = Some k /\ forall b, b < 2 -> entry A a [b] = k b).
    { intros q a H. destruct (X q a H) as (Hq & s & Hs & Es). cbn [closing]. rewrite (find_key N Hs). destruct s as [t|b]; unfold val in Es; cbn [snd fst] in Es.
      - destruct (@token_ok t) as (a' & E & S & U & W & V); [intros ->; apply (HT q); auto|auto|]. rewrite E in Es. inversion Es; subst a'. eauto 8.
      - inversion Es; subst b. destruct (HA q a Hs Hq) as [S U]. split; auto. split; auto. split; [apply (HP q a Hs)|]. eauto. }
    assert (C : forallb (fun e => list_eqb (shape (snd e)) [2] && n_unit F (snd e)) d = true).
    { apply forallb_forall. intros (q, a) H. destruct (Y q a H) as (S & U & _). cbn [snd]. rewrite U, S. auto. }
    rewrite C. exists d. split; auto. split; [|split].
    + unfold d. clear - N MF. rewrite <- MF in N. clear MF. induction (map val l) as [|e l' IH]; cbn [filter map] in *; [constructor|]. inversion N; subst. destruct (memb (fst e) Q); auto. cbn [map]. constructor; auto.
      intros H. apply H1. apply in_map_iff in H. destruct H as (e' & <- & H). apply filter_In in H. apply in_map. tauto.
    + intros q. split.
      * intros H. apply in_map_iff in H. destruct H as ((q', a) & <- & H). cbn [fst]. split; [apply (X _ _ H)|]. destruct (Y _ _ H) as (_ & _ & _ & k & E & _). cbn [closing] in E. rewrite E. discriminate.
      * intros [Hq H]. destruct (in_dec Nat.eq_dec q (map fst l)) as [I|I]; [|rewrite (find_none_key I) in H; tauto].
        rewrite <- MF in I. apply in_map_iff in I. destruct I as (e & <- & I). apply in_map. apply filter_In. split; auto. apply memb_In. auto.
    + intros q a H. destruct (Y q a H) as (S & _ & R). auto.
Qed.

(** ** The value of the network *)
Section Value.
Variable gs : list gate.
Hypothesis HG : forall g, In g gs -> is_gate g.
Variable Q : list nat.
Hypothesis NQ : NoDup Q.
Hypothesis HQ : forall q, In q Q <-> touches gs q.
Definition zeros : nat -> nat := fun _ => 0.
Definition LL : nat -> nat := fin gs zeros.
Definition nm (q t : nat) : nat := if t =? 0 then ix q Ini else if t =? LL q then ix q Fin else ix q (At t).

Lemma fin_touches : forall gs c q, fin (K := K) gs c q > c q <-> touches gs q.
Proof.
  induction gs0 as [|g l IH]; intros c q; simpl; [split; [lia|intros (g & [] & _)]|]. split.
  - intros H. destruct (in_dec Nat.eq_dec q (snd g)); [exists g; split; auto; left; auto|]. rewrite <- (step_out c n) in H. apply IH in H. destruct H as (g' & Hg & Hq). exists g'. split; auto. right. auto.
  - intros (g' & [<-|Hg] & Hq).
    + pose proof (fin_le l (step c g) q). rewrite (step_in c Hq) in H. lia.
    + pose proof (step_le c g q). assert (fin l (step c g) q > step c g q) by (apply IH; exists g'; auto). lia.
Qed.
Lemma LL_pos q : In q Q -> 0 < LL q.
Proof. intros H. apply HQ in H. apply (fin_touches gs zeros) in H. exact H. Qed.
Lemma nm_inj q q' t t' : t <= LL q -> t' <= LL q' -> nm q t = nm q' t' -> q = q' /\ t = t'.
Proof.
  unfold nm. intros H1 H2 E. destruct (Nat.eqb_spec t 0), (Nat.eqb_spec t' 0); try (destruct (Nat.eqb_spec t (LL q))); try (destruct (Nat.eqb_spec t' (LL q'))); apply IX in E; destruct E as [E1 E2]; subst; try discriminate; auto.
  inversion E2; auto.
Qed.
Lemma nm_0 q : nm q 0 = ix q Ini. Proof. reflexivity. Qed.
Lemma nm_L q : In q Q -> nm q (LL q) = ix q Fin.
Proof. intros H. pose proof (LL_pos H). unfold nm. destruct (Nat.eqb_spec (LL q) 0); [lia|]. rewrite Nat.eqb_refl. auto. Qed.
Lemma HGQ g : In g gs -> NoDup (snd g) /\ incl (snd g) Q.
Proof. intros H. split; [apply HG in H; apply H|]. intros q Hq. apply HQ. exists g. auto. Qed.

Lemma rename_ok om : (forall q t, In q Q -> t <= LL q -> get_or om (ix q (At t)) = nm q t) -> forall l c, (forall g, In g l -> incl (snd g) Q) -> (forall q, fin l c q <= LL q) ->
  map (map (get_or om)) (tnames (fun q t => ix q (At t)) l c) = tnames nm l c.
Proof.
  intros H. induction l as [|g l IH]; intros c Hl HL; cbn [tnames map]; auto. rewrite IH; [|intros x Hx; apply Hl; right; auto|auto]. f_equal. unfold rows, cols. rewrite map_app, !map_map. pose proof (Hl g (or_introl eq_refl)) as Ig.
  f_equal; apply map_ext_in; intros q Hq; apply H; auto; specialize (HL q); simpl in HL; pose proof (fin_le l (step c g) q); rewrite (step_in c Hq) in *; lia.
Qed.
Lemma boundary_ok last : wires_ok last LL -> forall q t, In q Q -> t <= LL q -> get_or (boundary_map ix last Q) (ix q (At t)) = nm q t.
Proof.
  intros (N & W & P) q t Hq Ht. unfold boundary_map. set (l := map _ _).
  assert (L1 : forall k v, In (k, v) l <-> (exists q, In q (map fst last) /\ k = ix q (At (LL q)) /\ v = ix q Fin) \/ (exists q, In q Q /\ k = ix q (At 0) /\ v = ix q Ini)).
  { intros k v. unfold l. rewrite in_map_iff. split.
    - intros ((a, b) & E & H). inversion E; subst. cbn [fst snd]. apply in_app_iff in H. destruct H as [H|H].
      + left. exists a. assert (Ia : In a (map fst last)) by (apply in_map_iff; exists (a, b); auto). assert (Eb : b = LL a). { rewrite <- W, wire_get, (dict_get_in N H). auto. }
        split; auto. rewrite <- Eb. split; auto. apply P in Ia. rewrite <- Eb in Ia. destruct (Nat.eqb_spec b 0); [lia|auto].
      + right. apply in_map_iff in H. destruct H as (q' & H & Hq'). inversion H; subst. exists a. auto.
    - intros [(q' & H & -> & ->)|(q' & H & -> & ->)].
      + exists (q', LL q'). cbn [fst snd]. pose proof (proj1 (P q') H). destruct (Nat.eqb_spec (LL q') 0); [lia|]. split; auto. apply in_app_iff. left. destruct (dict_get_some H) as (v & Ev). pose proof (W q') as Wq. rewrite wire_get, Ev in Wq. subst v. apply dict_get_key. auto.
      + exists (q', 0). split; auto. apply in_app_iff. right. apply in_map_iff. eauto. }
  set (val := fun k => match find (fun e => fst e =? k) l with Some e => snd e | None => 0 end).
  assert (U : forall k v v', In (k, v) l -> In (k, v') l -> v = v').
  { intros k v v' H H'. apply L1 in H, H'. destruct H as [(a & Ha & -> & ->)|(a & Ha & -> & ->)], H' as [(b & Hb & E & ->)|(b & Hb & E & ->)]; apply IX in E; destruct E as [-> E]; auto.
    - inversion E as [E']. apply P in Ha. lia.
    - inversion E as [E']. apply P in Hb. lia. }
  assert (VL : forall k v, In (k, v) l -> v = val k).
  { intros k v H. unfold val. destruct (find (fun e => fst e =? k) l) as [(k', v')|] eqn:E.
    - apply find_some in E. destruct E as [E1 E2]. apply Nat.eqb_eq in E2. cbn [fst snd] in *. subst k'. apply (U k); auto.
    - apply (find_none _ _ E) in H. cbn [fst] in H. rewrite Nat.eqb_refl in H. discriminate. }
  unfold get_or. pose proof (LL_pos Hq) as Hp. destruct (in_dec Nat.eq_dec (ix q (At t)) (map fst l)) as [I|I].
  - rewrite (dict_of_get VL I). apply in_map_iff in I. destruct I as ((k, v) & Ek & I). cbn [fst] in Ek. subst k. rewrite <- (VL _ _ I). apply L1 in I. destruct I as [(a & Ha & E & ->)|(a & Ha & E & ->)]; apply IX in E; destruct E as [-> E]; inversion E; subst.
    + symmetry. apply nm_L. auto.
    + auto.
  - assert (I' : ~ In (ix q (At t)) (map fst (dict_of l))) by (rewrite dict_of_keys; auto). destruct (dict_get_none I') as (e & ->). unfold nm. destruct (Nat.eqb_spec t 0) as [->|].
    + exfalso. apply I. apply in_map_iff. exists (ix q (At 0), ix q Ini). split; auto. apply L1. right. eauto.
    + destruct (Nat.eqb_spec t (LL q)) as [->|]; auto. exfalso. apply I. apply in_map_iff. exists (ix q (At (LL q)), ix q Fin). split; auto. apply L1. left. exists q. split; auto. apply P. auto.
Qed.

(** Counting the occurrences of the wires. *)
Notation cnt := (count_occ Nat.eq_dec).
Lemma cnt_map (f : nat -> nat) l q : NoDup l -> (forall x, In x l -> f x = f q -> x = q) -> cnt (map f l) (f q) = if memb q l then 1 else 0.
Proof.
  induction l as [|x l IH]; intros N H; auto. inversion N; subst. cbn [map count_occ]. change (memb q (x :: l)) with ((q =? x) || memb q l). rewrite IH; [|auto|intros y Hy; apply H; right; auto].
  destruct (Nat.eq_dec (f x) (f q)) as [E|E].
  - apply H in E; [|left; auto]. subst x. rewrite Nat.eqb_refl. cbn [orb]. rewrite (proj2 (memb_nIn _ _) H2). auto.
  - destruct (Nat.eqb_spec q x) as [->|]; [tauto|]. auto.
Qed.
Lemma cnt_not (f : nat -> nat) l y : (forall x, In x l -> f x <> y) -> cnt (map f l) y = 0.
Proof. intros H. apply count_occ_not_In. intros I. apply in_map_iff in I. destruct I as (x & E & I). apply (H x); auto. Qed.
Lemma cnt_wires : forall (l : list gate) c q t, (forall g, In g l -> NoDup (snd g) /\ incl (snd g) Q) -> (forall q, In q Q -> fin l c q <= LL q) -> In q Q -> t <= LL q ->
  cnt (wires nm l c) (nm q t) = (if (c q <? t) && (t <=? fin l c q) then 1 else 0) + (if (c q <=? t) && (t <? fin l c q) then 1 else 0).
Proof.
  induction l as [|g l IH]; intros c q t Hl HL Hq Ht; cbn [wires fin].
  - simpl. destruct (Nat.ltb_spec (c q) t), (Nat.leb_spec t (c q)), (Nat.leb_spec (c q) t), (Nat.ltb_spec t (c q)); simpl; lia.
  - destruct (Hl g (or_introl eq_refl)) as [N I]. rewrite !count_occ_app. rewrite IH; auto; [|intros x Hx; apply Hl; right; auto].
    assert (B : forall x, In x (snd g) -> S (c x) <= LL x). { intros x Hx. specialize (HL x (I _ Hx)). cbn [fin] in HL. pose proof (fin_le l (step c g) x). rewrite (step_in c Hx) in *. lia. }
    assert (Rw : cnt (rows nm c g) (nm q t) = if memb q (snd g) && (t =? S (c q)) then 1 else 0).
    { unfold rows. destruct (Nat.eqb_spec t (S (c q))) as [E|E].
      - rewrite andb_true_r. destruct (memb q (snd g)) eqn:M.
        + rewrite E. rewrite (@cnt_map (fun x => nm x (S (c x))) (snd g) q); [rewrite M; auto|auto|]. intros x Hx Ex. apply nm_inj in Ex; [tauto|auto|]. apply memb_In in M. auto.
        + apply cnt_not. intros x Hx Ex. apply nm_inj in Ex; auto. destruct Ex as [-> _]. apply memb_nIn in M. auto.
      - rewrite andb_false_r. apply cnt_not. intros x Hx Ex. apply nm_inj in Ex; auto. destruct Ex as [-> Et]. lia. }
    assert (Cl : cnt (cols nm c g) (nm q t) = if memb q (snd g) && (t =? c q) then 1 else 0).
    { unfold cols. assert (B' : forall x, In x (snd g) -> c x <= LL x) by (intros x Hx; specialize (B x Hx); lia). destruct (Nat.eqb_spec t (c q)) as [E|E].
      - rewrite andb_true_r. destruct (memb q (snd g)) eqn:M.
        + rewrite E. rewrite (@cnt_map (fun x => nm x (c x)) (snd g) q); [rewrite M; auto|auto|]. intros x Hx Ex. apply nm_inj in Ex; [tauto|auto|]. apply memb_In in M. auto.
        + apply cnt_not. intros x Hx Ex. apply nm_inj in Ex; auto. destruct Ex as [-> _]. apply memb_nIn in M. auto.
      - rewrite andb_false_r. apply cnt_not. intros x Hx Ex. apply nm_inj in Ex; auto. destruct Ex as [-> Et]. lia. }
    rewrite Rw, Cl. clear Rw Cl. pose proof (fin_le l (step c g) q) as Lf. destruct (memb q (snd g)) eqn:M.
    + apply memb_In in M. rewrite (step_in c M) in *. cbn [andb]. set (f := fin l (step c g) q) in *. clearbody f.
      destruct (Nat.eqb_spec t (S (c q))), (Nat.eqb_spec t (c q)), (Nat.ltb_spec (S (c q)) t), (Nat.leb_spec (S (c q)) t), (Nat.leb_spec t f), (Nat.ltb_spec t f), (Nat.ltb_spec (c q) t), (Nat.leb_spec (c q) t); simpl; lia.
    + apply memb_nIn in M. rewrite (step_out c M) in *. cbn [andb]. lia.
Qed.

(** Products. *)
Lemma times_perm (l k : list K) : Permutation l k -> times F l = times F k.
Proof. unfold times. induction 1; simpl; auto; [rewrite IHPermutation; auto|ring|congruence]. Qed.
Lemma times_filter (B : Type) (p : B -> bool) (f : B -> K) l : times F (map f (filter p l)) = times F (map (fun x => if p x then f x else one A) l).
Proof. unfold times. induction l as [|x l IH]; simpl; auto. destruct (p x); simpl; rewrite IH; auto. ring. Qed.
Lemma states_network (l : list (nat * nda K)) W : network A (map snd l) (map (fun x => [x]) (map fst l)) W = times F (map (fun e => entry A (snd e) [W (fst e)]) l).
Proof. unfold times. induction l as [|e l IH]; cbn [map fold_right]; [apply network_nil|]. rewrite network_cons, IH. auto. Qed.

Definition opened (i : nat -> option (nat -> K)) (q : nat) : bool := match i q with None => true | Some _ => false end.
Lemma times_delta (c : (nat -> K) -> nat -> K) (i : nat -> option (nat -> K)) (rho : nat -> nat) (W V : nat -> nat) l :
  times F (map (fun q => match i q with Some a => c a (W (rho q)) | None => if W (rho q) =? V (rho q) then one A else zero A end) l) =
  mul A (times F (map (fun q => match i q with Some a => c a (W (rho q)) | None => one A end) l))
        (if forallb (fun x => W x =? V x) (map rho (filter (opened i) l)) then one A else zero A).
Proof.
  unfold times, opened. induction l as [|q l IH]; simpl; [ring|]. rewrite IH. destruct (i q); simpl; [ring|]. destruct (W (rho q) =? V (rho q)); simpl; ring.
Qed.

Variables i f : nat -> option (nat -> K).
Definition pi (W : nat -> nat) : K := times F (map (fun q => match i q with Some a => a (W (ix q Ini)) | None => one A end) Q).
Definition pf (W : nat -> nat) : K := times F (map (fun q => match f q with Some a => n_conj F (a (W (ix q Fin))) | None => one A end) Q).
Definition opens : list nat := map (fun q => ix q Ini) (filter (opened i) Q) ++ map (fun q => ix q Fin) (filter (opened f) Q).
Definition total (W : nat -> nat) : K := mul A (pprod F nm gs zeros W) (mul A (pi W) (pf W)).
Definition fins : list nat := map (fun q => ix q Fin) Q.
Definition all_wires : list nat := fins ++ inner nm gs zeros.

Lemma opened_true (k : nat -> option (nat -> K)) q : opened k q = true <-> k q = None.
Proof. unfold opened. destruct (k q); split; congruence. Qed.
Lemma Dn q q' t t' : In q Q -> In q' Q -> t <= LL q -> t' <= LL q' -> nm q t = nm q' t' -> q = q' /\ t = t'.
Proof. intros _ _. apply nm_inj. Qed.
Lemma HGI g : In g gs -> incl (snd g) Q.
Proof. intros H. apply HGQ. auto. Qed.
Lemma all_wires_in x : In x all_wires <-> exists q t, x = nm q t /\ In q Q /\ t <= LL q.
Proof.
  unfold all_wires, fins. rewrite in_app_iff, (inner_in nm zeros x HGI). rewrite in_map_iff. split.
  - intros [(q & <- & Hq)|(q & t & -> & Hq & Ht)]; [exists q, (LL q); rewrite (nm_L Hq); auto|]. exists q, t. unfold LL. split; auto. split; auto. lia.
  - intros (q & t & -> & Hq & Ht). destruct (Nat.eq_dec t (LL q)) as [->|]; [left; exists q; rewrite (nm_L Hq); auto|]. right. exists q, t. split; auto. split; auto. split; [apply Nat.le_0_l|]. unfold LL in *. lia.
Qed.
Lemma fins_inner x : In x fins -> ~ In x (inner nm gs zeros).
Proof.
  unfold fins. intros H I. apply in_map_iff in H. destruct H as (q & <- & Hq). apply (inner_in nm zeros _ HGI) in I. destruct I as (q' & t & E & Hq' & Ht). rewrite <- (nm_L Hq) in E. apply nm_inj in E; [|auto|unfold LL; lia]. destruct E as [-> E]. unfold LL in E. lia.
Qed.
Lemma all_wires_nodup : NoDup all_wires.
Proof.
  unfold all_wires. apply NoDup_app. split; [|split].
  - unfold fins. apply nodup_map_in; auto. intros x y _ _ E. apply IX in E. tauto.
  - apply (inner_nodup (K := K) (nm := nm) (Q := Q) (L := LL)); auto; [exact Dn|apply HGQ].
  - intros x H1 H2. apply (fins_inner H1 H2).
Qed.
Lemma opens_wires x : In x opens -> In x all_wires.
Proof.
  unfold opens. rewrite all_wires_in, in_app_iff, !in_map_iff. intros [(q & <- & Hq)|(q & <- & Hq)]; apply filter_In in Hq; destruct Hq as [Hq _]; [exists q, 0|exists q, (LL q)]; rewrite ?nm_0, ?(nm_L Hq); (split; [auto|split; [auto|lia]]).
Qed.
Lemma opens_nodup : NoDup opens.
Proof.
  unfold opens. apply NoDup_app. split; [|split].
  - apply nodup_map_in; [apply NoDup_filter; auto|]. intros x y _ _ E. apply IX in E. tauto.
  - apply nodup_map_in; [apply NoDup_filter; auto|]. intros x y _ _ E. apply IX in E. tauto.
  - intros x H1 H2. apply in_map_iff in H1, H2. destruct H1 as (a & <- & _), H2 as (b & E & _). apply IX in E. destruct E. discriminate.
Qed.
Lemma pi_depends : depends_on all_wires pi.
Proof.
  intros v w H. unfold pi. f_equal. apply map_ext_in. intros q Hq. rewrite H; auto. apply all_wires_in. exists q, 0. split; auto. split; auto. lia.
Qed.
Lemma pf_depends : depends_on fins pf.
Proof. intros v w H. unfold pf. f_equal. apply map_ext_in. intros q Hq. rewrite H; auto. apply in_map_iff. eauto. Qed.
Lemma fins_wires x : In x fins -> In x all_wires. Proof. intros H. apply in_app_iff. auto. Qed.
Lemma wires_all x : In x (wires nm gs zeros) -> In x all_wires.
Proof. intros H. apply (wires_in HGI) in H. destruct H as (q & t & -> & Hq & Ht). apply all_wires_in. exists q, t. split; auto. split; auto. unfold LL. lia. Qed.
Lemma total_depends : depends_on all_wires total.
Proof.
  intros v w H. unfold total. rewrite (@pi_depends v w), (@pf_depends v w); auto; [|intros; apply H, fins_wires; auto]. rewrite (@pprod_depends K F nm gs zeros v w); auto. intros x Hx. apply H, wires_all. auto.
Qed.

Theorem value_ok ks V : NoDup ks -> (forall x, In x ks <-> In x all_wires /\ ~ In x opens) -> bits V ->
  so ks total V = amplitude F gs Q i f (fun q => V (ix q Ini)) (fun q => V (ix q Fin)).
Proof.
  intros Nk Hk B. unfold amplitude. set (psi0 := fun u : nat -> nat => times F (map (fun q => match i q with Some a => a (u q) | None => if u q =? V (ix q Ini) then one A else zero A end) Q)).
  set (phi := fun w : nat -> nat => times F (map (fun q => match f q with Some a => n_conj F (a (w q)) | None => if w q =? V (ix q Fin) then one A else zero A end) Q)).
  assert (HP : state_of Q psi0). { intros v w H. unfold psi0. f_equal. apply map_ext_in. intros q Hq. rewrite (H q Hq). auto. }
  assert (HF : state_of Q phi). { intros v w H. unfold phi. f_equal. apply map_ext_in. intros q Hq. rewrite (H q Hq). auto. }
  pose proof (@run_state K F Q gs psi0 HGI HP) as HR.
  assert (RN : so Q (fun w => mul A (phi w) (run F gs psi0 w)) (fun _ => 0) = so fins (fun W' => mul A (phi (fun q => W' (ix q Fin))) (run F gs psi0 (fun q => W' (ix q Fin)))) V).
  { apply (@so_rename K F Q (fun q => ix q Fin) (fun w => mul A (phi w) (run F gs psi0 w)) Q NQ).
    - intros q q' _ _ E. apply IX in E. tauto.
    - intros v w H. rewrite (HF v w H), (HR v w H). auto.
    - intros q Hq Hn. contradiction. }
  etransitivity; [|symmetry; exact RN]. clear RN.
  set (fW := fun W' => mul A (phi (fun q => W' (ix q Fin))) (mul A (pprod F nm gs zeros W') (psi0 (fun q => W' (ix q Ini))))).
  assert (ST : so fins (fun W' => mul A (phi (fun q => W' (ix q Fin))) (run F gs psi0 (fun q => W' (ix q Fin)))) V = so all_wires fW V).
  { unfold all_wires. rewrite so_app. apply so_ext. intros W1 _ _. unfold fW.
    rewrite (@so_mul_l K A SR two (inner nm gs zeros) (fun W' => mul A (pprod F nm gs zeros W') (psi0 (fun q => W' (ix q Ini)))) (fun W' => phi (fun q => W' (ix q Fin))) fins).
    - f_equal. rewrite (HR (fun q => W1 (ix q Fin)) (fun q => W1 (nm q (fin gs zeros q)))) by (intros q Hq; rewrite <- (nm_L Hq); auto).
      pose proof (fun X => @path_sum K F SR nm Q LL Dn gs zeros psi0 W1 HGQ X HP) as PS. cbv beta in PS. rewrite PS; auto.
    - intros v w H. apply HF. intros q Hq. apply H. apply in_map_iff. eauto.
    - intros x H1 H2. apply (fins_inner H1 H2). }
  rewrite ST. clear ST.
  assert (FW : forall W, fW W = mul A (total W) (if forallb (fun x => W x =? V x) opens then one A else zero A)).
  { intros W. unfold fW, phi, psi0, total, pi, pf, opens. pose proof (@times_delta (fun a b => a b) i (fun q => ix q Ini) W V Q) as E1. pose proof (@times_delta (fun a b => n_conj F (a b)) f (fun q => ix q Fin) W V Q) as E2. cbn beta in E1, E2. rewrite E1, E2, forallb_app.
    destruct (forallb _ (map (fun q => ix q Ini) _)), (forallb _ (map (fun q => ix q Fin) _)); cbn [andb]; ring. }
  assert (DF : depends_on all_wires fW).
  { intros v w H. rewrite !FW, (total_depends H). f_equal. assert (E : forallb (fun x => v x =? V x) opens = forallb (fun x => w x =? V x) opens); [|rewrite E; auto].
    apply eq_true_iff_eq. rewrite !forallb_forall. split; intros X x Hx; specialize (X x Hx); rewrite (H x (opens_wires Hx)) in *; auto. }
  assert (P : Permutation all_wires (ks ++ opens)).
  { apply NoDup_Permutation; [apply all_wires_nodup| |].
    - apply NoDup_app. split; auto. split; [apply opens_nodup|]. intros x H1 H2. apply Hk in H1. tauto.
    - intros x. rewrite in_app_iff, Hk. split; [|intros [H|H]; [tauto|apply opens_wires; auto]]. intros H. destruct (in_dec Nat.eq_dec x opens); auto. }
  rewrite (@so_perm K A SR two all_wires (ks ++ opens) fW all_wires); auto. rewrite so_app. apply so_ext. intros W1 H1 R1.
  transitivity (total (update W1 opens V)).
  - apply total_depends. intros x Hx. unfold update. destruct (memb x opens) eqn:M; auto. apply memb_In in M. apply H1. intros I. apply Hk in I. tauto.
  - rewrite <- (@so_delta K F SR opens V total all_wires total_depends opens_nodup (fun x _ => B x)). apply so_ext. intros W2 _ _. rewrite FW. auto.
Qed.
End Value.

(** ** network_of *)
Lemma times_closed (d : list (nat * nda K)) Q (i : nat -> option (nat -> K)) (c : K -> K) (v : nat -> nat) : bits v -> NoDup Q -> NoDup (map fst d) ->
  (forall q, In q (map fst d) <-> In q Q /\ i q <> None) -> (forall q a, In (q, a) d -> exists k, i q = Some k /\ forall b, b < 2 -> entry A a [b] = k b) ->
  times F (map (fun e => c (entry A (snd e) [v (fst e)])) d) = times F (map (fun q => match i q with Some a => c (a (v q)) | None => one A end) Q).
Proof.
  intros B NQ Nd Hd He. transitivity (times F (map (fun q => match i q with Some a => c (a (v q)) | None => one A end) (map fst d))).
  - rewrite map_map. f_equal. apply map_ext_in. intros (q, a) Hq. cbn [fst snd]. destruct (He q a Hq) as (k & -> & E). rewrite E; auto.
  - assert (P : Permutation (map fst d) (filter (fun q => negb (opened i q)) Q)).
    { apply NoDup_Permutation; auto; [apply NoDup_filter; auto|]. intros q. rewrite Hd, filter_In, negb_true_iff, <- not_true_iff_false, opened_true. tauto. }
    rewrite (times_perm (Permutation_map _ P)), times_filter. f_equal. apply map_ext. intros q. unfold opened. destruct (i q); auto.
Qed.
Lemma open_inds Q closed x : In x (iter (difference (ofs (concat (map (fun q => [ix q Ini; ix q Fin]) Q))) (OSet (ofs closed)))) <->
  (exists q, In q Q /\ (x = ix q Ini \/ x = ix q Fin)) /\ ~ In x closed.
Proof.
  unfold difference, iter, ofs. cbn [order coerce]. rewrite unique_in, filter_In, unique_in, negb_true_iff, memb_nIn, unique_in, in_concat. split.
  - intros [(l & Hl & Hx) H]. split; auto. apply in_map_iff in Hl. destruct Hl as (q & <- & Hq). exists q. split; auto. destruct Hx as [<-|[<-|[]]]; auto.
  - intros [(q & Hq & Hx) H]. split; auto. exists [ix q Ini; ix q Fin]. split; [apply in_map_iff; eauto|]. simpl. destruct Hx; auto.
Qed.
Lemma conj_entry (a : nda K) b : entry A (conj_array F a) [b] = n_conj F (entry A a [b]).
Proof. unfold conj_array, entry. cbn [shape data]. rewrite <- (conj_zero NF) at 1. apply map_nth. Qed.

Theorem network_of_ok gs Q initial final : (forall g, In g gs -> is_gate g) -> NoDup Q -> (forall q, In q Q <-> touches gs q) ->
  names_normalized F -> valid_state F Q initial -> valid_state F Q final -> proper_state initial -> proper_state final ->
  exists arrays ts os, network_of F ix gs Q initial final = Ok (arrays, ts, os) /\
  (exists bs vs zs, arrays = bs ++ vs /\ ts = tnames (nm gs) gs zeros ++ map (fun x => [x]) zs /\ Forall2 is_array bs gs /\ Forall (fun a => length (shape a) = 1) vs /\ length vs = length zs /\ (forall z, In z zs -> In z (concat (tnames (nm gs) gs zeros))) /\
    forall q, In q Q -> (In (ix q Ini) os \/ In (ix q Ini) zs) /\ (In (ix q Fin) os \/ In (ix q Fin) zs)) /\
  shaped two arrays ts /\ Forall well_shaped arrays /\ (forall xs, In xs ts -> NoDup xs) /\
  NoDup os /\ (forall x, In x os <-> open_end ix Q (closing F initial) (closing F final) x) /\
  (forall q, In q Q -> In (ix q Ini) (concat ts) /\ In (ix q Fin) (concat ts)) /\
  (forall x, In x (concat ts) -> count_occ Nat.eq_dec (concat ts) x = if memb x os then 1 else 2) /\
  (forall ks V, NoDup ks -> (forall x, In x ks <-> In x (concat ts) /\ ~ In x os) -> bits V ->
    so ks (network A arrays ts) V = amplitude F gs Q (closing F initial) (closing F final) (fun q => V (ix q Ini)) (fun q => V (ix q Fin))).
Proof.
  intros HG NQ HQ NN Vi Vf Pi Pf. unfold network_of.
  destruct (@build_ok gs [] zeros HG) as (bs & last & E & HL & HB). { split; [constructor|]. split; [intros q; auto|]. intros q. simpl. unfold zeros. split; [tauto|lia]. }
  rewrite E. cbn [bind].
  destruct (get_state_ok NN NQ Vi Pi) as (di & Ei & Ni & Ki & Ai). destruct (get_state_ok NN NQ Vf Pf) as (df & Ef & Nf & Kf & Af). rewrite Ei, Ef. cbn [bind].
  set (i := closing F initial) in *. set (f := closing F final) in *.
  assert (RN : map (map (get_or (boundary_map ix last Q))) (tnames (fun q t => ix q (At t)) gs zeros) = tnames (nm gs) gs zeros).
  { apply (rename_ok (Q := Q)); [|apply HGI; auto|auto]. intros q t Hq Ht. apply boundary_ok; auto. }
  rewrite RN. clear RN. set (is := map (fun e => (ix (fst e) Ini, snd e)) di). set (fs := map (fun e => (ix (fst e) Fin, conj_array F (snd e))) df).
  set (closed := map fst is ++ map fst fs). set (os := iter _). set (ts := tnames (nm gs) gs zeros ++ map (fun x => [x]) closed).
  set (arrays := bs ++ map snd is ++ map snd fs).
  assert (Cl : closed = map (fun q => ix q Ini) (map fst di) ++ map (fun q => ix q Fin) (map fst df)). { unfold closed, is, fs. rewrite !map_map. auto. }
  assert (CI : forall q, In q Q -> In (ix q Ini) closed <-> i q <> None).
  { intros q Hq. rewrite Cl, in_app_iff, !in_map_iff. split.
    - intros [(q' & E' & H)|(q' & E' & H)]; apply IX in E'; destruct E' as [-> E']; [|discriminate]. apply in_map_iff in H. destruct H as (e & E2 & H). apply Ki. apply in_map_iff. eauto.
    - intros H. left. exists q. split; auto. apply in_map_iff. assert (I : In q (map fst di)) by (apply Ki; auto). apply in_map_iff in I. auto. }
  assert (CF : forall q, In q Q -> In (ix q Fin) closed <-> f q <> None).
  { intros q Hq. rewrite Cl, in_app_iff, !in_map_iff. split.
    - intros [(q' & E' & H)|(q' & E' & H)]; apply IX in E'; destruct E' as [-> E']; [discriminate|]. apply in_map_iff in H. destruct H as (e & E2 & H). apply Kf. apply in_map_iff. eauto.
    - intros H. right. exists q. split; auto. apply in_map_iff. assert (I : In q (map fst df)) by (apply Kf; auto). apply in_map_iff in I. auto. }
  assert (OS : forall x, In x os <-> open_end ix Q i f x).
  { intros x. unfold os. rewrite open_inds. unfold open_end. split.
    - intros [(q & Hq & [-> | ->]) H]; exists q; split; auto; [left|right]; split; auto; [rewrite (CI q Hq) in H; destruct (i q)|rewrite (CF q Hq) in H; destruct (f q)]; auto; exfalso; apply H; discriminate.
    - intros (q & Hq & [[-> H]|[-> H]]); (split; [exists q; auto|]); [rewrite (CI q Hq)|rewrite (CF q Hq)]; tauto. }
  assert (OO : forall x, In x (opens Q i f) <-> In x os).
  { intros x. rewrite OS. unfold opens, open_end. rewrite in_app_iff, !in_map_iff. split.
    - intros [(q & <- & H)|(q & <- & H)]; apply filter_In in H; destruct H as [H1 H2]; apply opened_true in H2; exists q; auto.
    - intros (q & Hq & [[-> H]|[-> H]]); [left|right]; exists q; (split; [auto|]); apply filter_In; (split; [auto|]); apply opened_true; auto. }
  assert (NMQ : forall g, In g gs -> NoDup (snd g) /\ incl (snd g) Q) by (apply HGQ; auto).
  assert (CN : forall q t, In q Q -> t <= LL gs q -> count_occ Nat.eq_dec (wires (nm gs) gs zeros) (nm gs q t) = (if t =? 0 then 1 else if t =? LL gs q then 1 else 2)).
  { intros q t Hq Ht. rewrite (cnt_wires (Q := Q)); auto. fold (LL gs). pose proof (LL_pos HQ Hq) as Hp. unfold zeros. fold zeros. fold (LL gs q).
    destruct (Nat.eqb_spec t 0) as [->|]; [|destruct (Nat.eqb_spec t (LL gs q)) as [->|]]; repeat (match goal with |- context [?a <? ?b] => destruct (Nat.ltb_spec a b) | |- context [?a <=? ?b] => destruct (Nat.leb_spec a b) end); simpl; lia. }
  assert (TC : concat ts = wires (nm gs) gs zeros ++ closed).
  { unfold ts. rewrite concat_app, tnames_concat. f_equal. clear. induction closed; simpl; auto. f_equal. auto. }
  assert (WI : forall x, In x (wires (nm gs) gs zeros) <-> In x (all_wires gs Q)).
  { intros x. split; [apply wires_all; auto|]. intros H. apply all_wires_in in H; auto. destruct H as (q & t & -> & Hq & Ht). apply (count_occ_In Nat.eq_dec). rewrite CN; auto. destruct (t =? 0); auto. destruct (t =? LL gs q); auto. }
  assert (CW : forall x, In x closed -> In x (wires (nm gs) gs zeros)).
  { intros x H. apply WI, all_wires_in; auto. rewrite Cl, in_app_iff, !in_map_iff in H. destruct H as [(q & <- & H)|(q & <- & H)].
    - apply Ki in H. exists q, 0. split; auto. split; [tauto|lia].
    - apply Kf in H. exists q, (LL gs q). rewrite (nm_L HQ); [|tauto]. split; auto. split; [tauto|lia]. }
  assert (NC : NoDup closed).
  { rewrite Cl. apply NoDup_app. split; [|split].
    - apply nodup_map_in; auto. intros x y _ _ E'. apply IX in E'. tauto.
    - apply nodup_map_in; auto. intros x y _ _ E'. apply IX in E'. tauto.
    - intros x H1 H2. apply in_map_iff in H1, H2. destruct H1 as (a & <- & _), H2 as (b & E' & _). apply IX in E'. destruct E'. discriminate. }
  assert (LB : length bs = length (tnames (nm gs) gs zeros)). { apply gates_shaped with (nm := nm gs) (c := zeros) in HB. destruct HB as [HB _]. apply forall2_len in HB. auto. }
  exists arrays, ts, os. split; [reflexivity|]. destruct (gates_shaped (nm gs) zeros HB) as [Sb Wb]. split.
  { exists bs, (map snd is ++ map snd fs), closed. split; auto. split; auto. split; auto. split; [|split; [|split; [intros z Hz; rewrite tnames_concat; auto|]]].
    - apply Forall_app. split; apply Forall_forall; intros a Ha; apply in_map_iff in Ha; destruct Ha as (e & <- & He); apply in_map_iff in He; destruct He as ((q, b) & <- & He); cbn [snd conj_array shape].
      + destruct (Ai q b He) as (-> & _). auto.
      + destruct (Af q b He) as (-> & _). auto.
    - unfold closed. rewrite !app_length, !map_length. auto.
    - intros q Hq. unfold os. rewrite !open_inds. destruct (in_dec Nat.eq_dec (ix q Ini) closed), (in_dec Nat.eq_dec (ix q Fin) closed); split; auto; left; (split; [exists q; auto|auto]). }
  split; [|split; [|split; [|split; [|split; [|split; [|split]]]]]]; auto.
  - unfold shaped, arrays, ts. apply Forall2_app; auto. unfold closed. rewrite map_app. apply Forall2_app.
    + unfold is. rewrite !map_map. clear - Ai. induction di as [|(q, a) di IH]; cbn [map]; constructor; auto. { cbn [snd]. apply (Ai q). left. auto. } { apply IH. intros x b Hb. apply Ai. right. auto. }
    + unfold fs. rewrite !map_map. clear - Af. induction df as [|(q, a) df IH]; cbn [map]; constructor; auto. { cbn [snd conj_array shape]. apply (Af q). left. auto. } { apply IH. intros x b Hb. apply Af. right. auto. }
  - unfold arrays. apply Forall_app. split; auto. apply Forall_app. split; apply Forall_forall; intros a Ha; apply in_map_iff in Ha; destruct Ha as (e & <- & He); apply in_map_iff in He; destruct He as ((q, b) & <- & He); cbn [snd].
    + apply (Ai q b He).
    + destruct (Af q b He) as (_ & W & _). unfold well_shaped, conj_array in *. cbn [data shape]. rewrite map_length. auto.
  - intros xs H. unfold ts in H. apply in_app_iff in H. destruct H as [H|H].
    + assert (G : forall l c, (forall g, In g l -> In g gs) -> (forall q, In q Q -> fin l c q <= LL gs q) -> In xs (tnames (nm gs) l c) -> NoDup xs).
      { induction l as [|g l IH]; intros c Hl HLc Hx; [destruct Hx|]. cbn [tnames] in Hx. destruct Hx as [<-|Hx]; [|apply (IH (step c g)); auto; intros x Hx'; apply Hl; right; auto].
        destruct (NMQ g (Hl g (or_introl eq_refl))) as [Ng Ig]. assert (B : forall q, In q (snd g) -> S (c q) <= LL gs q). { intros q Hq. specialize (HLc q (Ig _ Hq)). cbn [fin] in HLc. pose proof (fin_le l (step c g) q). rewrite (step_in c Hq) in *. lia. }
        unfold rows, cols. apply NoDup_app. split; [|split].
        - apply nodup_map_in; auto. intros x y Hx Hy E'. apply nm_inj in E'; auto. tauto.
        - apply nodup_map_in; auto. intros x y Hx Hy E'. specialize (B x Hx) as B1. specialize (B y Hy) as B2. apply nm_inj in E'; lia.
        - intros x H1 H2. apply in_map_iff in H1, H2. destruct H1 as (a & <- & H1), H2 as (b & E' & H2). specialize (B a H1) as B1. specialize (B b H2) as B2. apply nm_inj in E'; [|lia|lia]. destruct E' as [-> E']. lia. }
      apply (G gs zeros); auto.
    + apply in_map_iff in H. destruct H as (x & <- & _). constructor; [intros []|constructor].
  - unfold os, iter, difference, ofs. cbn [order]. apply unique_nodup.
  - intros q Hq. rewrite TC, !in_app_iff. split; left; apply WI, all_wires_in; auto; [exists q, 0|exists q, (LL gs q)]; rewrite ?(nm_L HQ Hq); (split; [auto|split; [auto|lia]]).
  - intros x H. rewrite TC in *. assert (Hx : In x (all_wires gs Q)). { apply WI. apply in_app_iff in H. destruct H; auto. }
    apply all_wires_in in Hx; auto. destruct Hx as (q & t & -> & Hq & Ht). rewrite count_occ_app, CN by auto. pose proof (LL_pos HQ Hq) as Hp.
    assert (CC : count_occ Nat.eq_dec closed (nm gs q t) = if memb (nm gs q t) closed then 1 else 0).
    { destruct (memb (nm gs q t) closed) eqn:M; [apply NoDup_count_occ'; auto; apply memb_In; auto|apply count_occ_not_In; apply memb_nIn; auto]. }
    rewrite CC. assert (MO : forall m, m = Ini \/ m = Fin -> memb (ix q m) os = negb (memb (ix q m) closed)).
    { intros m Hm. apply eq_true_iff_eq. rewrite negb_true_iff, memb_In, memb_nIn. unfold os. rewrite open_inds. split; [tauto|]. intros Hn. split; auto. exists q. split; auto. destruct Hm; subst; auto. }
    unfold nm. destruct (Nat.eqb_spec t 0) as [->|N0].
    + rewrite MO by auto. destruct (memb (ix q Ini) closed); auto.
    + destruct (Nat.eqb_spec t (LL gs q)) as [->|N1].
      * rewrite MO by auto. destruct (memb (ix q Fin) closed); auto.
      * assert (X : memb (ix q (At t)) closed = false). { apply memb_nIn. rewrite Cl, in_app_iff, !in_map_iff. intros [(a & E' & _)|(a & E' & _)]; apply IX in E'; destruct E'; discriminate. }
        rewrite X. assert (Y : memb (ix q (At t)) os = false). { apply memb_nIn. rewrite OS. intros (a & _ & [[E' _]|[E' _]]); apply IX in E'; destruct E'; discriminate. }
        rewrite Y. auto.
  - intros ks V Nk Hk B. rewrite <- (value_ok HG NQ HQ (i := i) (f := f) (ks := ks)); auto.
    + apply so_ext. intros W H1 R1. assert (BW : bits W). { intros x. destruct (in_dec Nat.eq_dec x ks) as [I|I]; [apply R1; auto|rewrite H1; auto]. }
      unfold arrays, ts. rewrite network_app by auto. unfold closed. rewrite map_app, network_app by (unfold is; rewrite !map_length; auto). rewrite !states_network. unfold total. f_equal; [apply gates_network; auto|].
      f_equal.
      * unfold is, pi. rewrite map_map. cbn [fst snd]. apply (@times_closed di Q i (fun x => x) (fun q => W (ix q Ini))); auto. { intros q. apply BW. } { intros q a Hq. apply (Ai q a Hq). }
      * unfold fs, pf. rewrite map_map. cbn [fst snd]. transitivity (times F (map (fun e => n_conj F (entry A (snd e) [W (ix (fst e) Fin)])) df)); [f_equal; apply map_ext; intros e; apply conj_entry|].
        apply (@times_closed df Q f (n_conj F) (fun q => W (ix q Fin))); auto. { intros q. apply BW. } { intros q a Hq. apply (Af q a Hq). }
    + intros x. rewrite Hk, OO, TC, in_app_iff, <- WI. split; intros [H1 H2]; split; auto. destruct H1; auto.
Qed.
End Amp.
