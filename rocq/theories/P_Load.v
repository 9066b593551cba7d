(** The network that load makes of a circuit gives its amplitudes. *)
From Coq Require Import List Arith NArith ZArith Lia Permutation Bool Ring.
Import ListNotations.
From Verif Require Import P_Base P_Opt P_PyMain.
From Verif Require Import M_Base M_Path M_PyTree M_OSet M_Random M_Fuse M_Tensor M_Contract M_Decompose M_Circuit S_Path S_PyTree S_Random S_Network S_Fuse S_Tensor S_Contract S_Decompose S_Circuit S_Amplitude.
From Verif Require Import P_Path P_Split P_PathMain P_PyBuild P_PyTens P_OSet P_Fuse P_Sum P_Array P_Tensordot P_ContractMain P_ContractThm P_Symbols P_Decompose P_DecomposeNet P_DecomposeSum P_Keeps P_Circuit P_Gates P_Same P_Simplify P_Amplitude P_DecGate P_DecChain P_Twice P_Kronecker.
From Verif Require Import M_Path M_PyTree.
Set Implicit Arguments.
Unset Strict Implicit.
Local Open Scope nat_scope.

Section Load.
Variable K : Type.
Variable F : nums K.
Local Notation A := (n_alg F).
Hypothesis NF : numbers F.
Let SR : semiring A := num_ring _ NF.
Let SR1 : semi_ring_theory (zero A) (one A) (add A) (mul A) eq := num_ring _ NF.
Add Ring KR : SR1.
Local Notation two := (fun _ : nat => 2).
Notation so := (sum_over A two).
Notation gate := (nda K * list nat)%type.
Let EQ := num_eqb _ NF.
Variable ix : nat -> mark -> nat.
Hypothesis IX : distinct ix.

(** ** Decomposition *)
Section Dec.
Variables (gs : list gate) (Q : list nat).
Hypothesis HG : forall g, In g gs -> is_gate g /\ unitary F g.
Hypothesis HQ : forall q, In q Q <-> touches gs q.
Variables (arrays : list (nda K)) (ts : list (list nat)) (os : list nat).
Hypothesis HT : exists bs vs zs, arrays = bs ++ vs /\ ts = tnames (nm ix gs) gs zeros ++ map (fun x => [x]) zs /\ Forall2 (is_array F) bs gs /\ Forall (fun a => length (shape a) = 1) vs /\ length vs = length zs /\ (forall z, In z zs -> In z (concat (tnames (nm ix gs) gs zeros))) /\
    forall q, In q Q -> (In (ix q Ini) os \/ In (ix q Ini) zs) /\ (In (ix q Fin) os \/ In (ix q Fin) zs).
Hypothesis S : shaped two arrays ts.
Hypothesis W : Forall well_shaped arrays.
Hypothesis HN : forall xs, In xs ts -> NoDup xs.

Lemma dec_ok : exists bs us m, decompose_network A (n_eqb F) arrays ts = Ok (bs, us, m) /\
  (forall x, In x (concat ts) -> In (sent m x) (concat us) \/ exists o1 o2, In o1 os /\ In o2 os /\ o1 <> o2 /\ sent m o1 = sent m x /\ sent m o2 = sent m x) /\
  (forall xs, In xs us -> NoDup xs) /\
  (forall x, In x (concat ts) -> (forall o, In o os -> sent m o <> sent m x) -> exists t1 t2, t1 <> t2 /\ has us t1 (sent m x) /\ has us t2 (sent m x)).
Proof.
  destruct (network_ok SR EQ S W HN) as [[_ (t & x & _ & H)]|(bs & us & m & E & N1 & N2 & N3 & N4 & N5 & _)]; [discriminate|]. exists bs, us, m. split; auto.
  destruct (net_parts SR EQ S W HN E) as (us0 & h & E0 & Eu & Id & ND).
  assert (US : forall ys, In ys us0 -> NoDup ys /\ incl ys (concat ts)) by (intros ys Hy; apply (all_nodup EQ S W HN E0 Hy)).
  destruct HT as (bs0 & vs & zs & Ea & Et & HB & HV & HL & HZ & HE).
  assert (NI : forall q q' t t', t <= LL gs q -> t' <= LL gs q' -> nm ix gs q t = nm ix gs q' t' -> q = q' /\ t = t') by (intros q q' t t' H1 H2 H3; apply (nm_inj IX H1 H2 H3)).
  rewrite Ea, Et in E0.
  destruct (chain NF NI (c := zeros) (o0 := fun x => x) HG HB (fun q => le_n _) HV HL E0) as (o & X1 & X2 & X3 & X4 & X5 & X6).
  { intros q q' H. apply NI in H; [tauto|unfold zeros; lia|unfold zeros; lia]. } { intros q. exists q, 0. auto. }
  pose proof (forward NF NI (c := zeros) HG HB (fun q => le_n _) E0) as FW.
  assert (SI : identified ts m (sent m)) by (intros t x Hx; destruct (N5 t x Hx) as (_ & Y & _); auto).
  assert (LK : forall x y, (forall v, agrees h v -> v x = v y) -> sent m x = sent m y) by (intros x y H; apply H, Id; auto).
  assert (KP : forall ys z, In ys us0 -> In z ys -> In (sent m z) (concat us)).
  { intros ys z Hy Hz. rewrite Eu. apply in_concat. exists (map (sent m) ys). split; apply in_map; auto. }
  assert (KZ : forall z, In z zs -> In (sent m z) (concat us)) by (intros z Hz; apply (KP [z]); [auto|left; auto]).
  split; [|split].
  - intros x Hx. rewrite Et, concat_app, in_app_iff in Hx. destruct Hx as [Hx|Hx].
    + destruct (X5 x Hx) as [(ys & z & Z1 & Z2 & Z3)|(q & Tq & Z)]; [left; rewrite (LK x z Z3); apply (KP ys); auto|].
      apply LK in Z. apply HQ in Tq. change (nm ix gs q (zeros q)) with (ix q Ini) in Z. destruct (HE q Tq) as [[O1|C1] _]; [|left; rewrite Z; auto].
      destruct (FW q) as [(ys & z & Z1 & Z2 & Z3)|(q' & Tq' & Z')]; [apply LK in Z3; change (nm ix gs q (zeros q)) with (ix q Ini) in Z3; left; rewrite Z, Z3; apply (KP ys); auto|].
      assert (Iq' : In q' Q) by (destruct Tq' as [->|]; auto; apply HQ; auto). apply LK in Z'. change (nm ix gs q (zeros q)) with (ix q Ini) in Z'. change (fin gs zeros q') with (LL gs q') in Z'. rewrite (nm_L ix HQ Iq') in Z'.
      destruct (HE q' Iq') as [_ [O2|C2]]; [|left; rewrite Z, Z'; auto]. right. exists (ix q Ini), (ix q' Fin). split; auto. split; auto. split; [intros H; apply IX in H; destruct H; discriminate|]. split; congruence.
    + left. apply KZ. apply in_concat in Hx. destruct Hx as (l & Hl & Hx). apply in_map_iff in Hl. destruct Hl as (z & <- & Hz). destruct Hx as [<-|[]]. auto.
  - intros xs Hx. rewrite Eu in Hx. apply in_map_iff in Hx. destruct Hx as (ys & <- & Hy). destruct (US ys Hy) as [Ny Iy]. apply nodup_map_in; auto. intros a b Ha Hb Eab. apply (X3 ys a b Hy Ha Hb).
    pose proof (proj2 (Id o) X2) as Io. assert (G : forall z, In z ys -> o z = o (sent m z)) by (intros z Hz; pose proof (Iy z Hz) as Y; apply has_concat in Y; destruct Y as (t & Y); apply (Io t z Y)).
    rewrite (G a Ha), (G b Hb), Eab. auto.
  - intros x Hx NO. rewrite Et in Hx. destruct (twice_all NF IX HG HQ HB HV HL HZ HE E0 Hx) as [(o' & Ho & Y)|(t1 & t2 & z1 & z2 & Ne & T1 & T2 & Y1 & Y2)]; [exfalso; apply (NO o' Ho); symmetry; apply LK; auto|].
    exists t1, t2. split; auto. assert (TR : forall t z, has us0 t z -> (forall v, agrees h v -> v x = v z) -> has us t (sent m x)).
    { intros t z (ys & U1 & U2) Y. exists (map (sent m) ys). split; [rewrite Eu, nth_error_map, U1; auto|]. rewrite (LK x z Y). apply in_map. auto. }
    split; eapply TR; eauto.
Qed.
End Dec.

Lemma lonely_count (l : list (list nat)) x : (forall xs, In xs l -> NoDup xs) -> lonely l x -> count_occ Nat.eq_dec (concat l) x = 1.
Proof.
  induction l as [|xs l IH]; intros N (t & Ht); [destruct (proj2 (Ht t) eq_refl) as (xs & E & _); destruct t; discriminate|]. cbn [concat]. rewrite count_occ_app.
  assert (Z : forall y, ~ In y (concat l) -> count_occ Nat.eq_dec (concat l) y = 0) by (intros y; apply count_occ_not_In).
  destruct t as [|t].
  - destruct (proj2 (Ht 0) eq_refl) as (ys & E & Hx). injection E as <-. rewrite (proj1 (NoDup_count_occ' Nat.eq_dec xs) (N xs (or_introl eq_refl)) x Hx), Z; auto.
    intros H. apply has_concat in H. destruct H as (u & ys & E & Hy). assert (S u = 0) by (apply Ht; exists ys; auto). discriminate.
  - rewrite (proj1 (count_occ_not_In Nat.eq_dec xs x)), IH; auto; [intros ys Hy; apply N; right; auto| |].
    + exists t. intros u. split; [intros (ys & E & Hy); assert (S u = S t) by (apply Ht; exists ys; auto); lia|]. intros ->. destruct (proj2 (Ht (S t)) eq_refl) as (ys & E & Hy). exists ys. auto.
    + intros H. assert (0 = S t) by (apply Ht; exists xs; auto). discriminate.
Qed.

(** ** The amplitude *)
Lemma act_ext g psi psi' v : (forall u, psi u = psi' u) -> act F g psi v = act F g psi' v.
Proof. intros H. unfold act. apply so_ext. intros w _ _. rewrite H. auto. Qed.
Lemma run_ext gs : forall psi psi' v, (forall u, psi u = psi' u) -> run F gs psi v = run F gs psi' v.
Proof. induction gs as [|g gs IH]; intros psi psi' v H; [apply H|]. cbn [run fold_left]. apply IH. intros u. apply act_ext. auto. Qed.
Definition start (Q : list nat) (i : nat -> option (nat -> K)) (vi u : nat -> nat) : K := times F (map (fun q => match i q with Some a => a (u q) | None => if u q =? vi q then one A else zero A end) Q).
Lemma start_state Q i vi : state_of Q (start Q i vi).
Proof. intros v w H. unfold start. f_equal. apply map_ext_in. intros q Hq. rewrite (H q Hq). auto. Qed.
Lemma amplitude_perm gs Q Q' i f vi vf : (forall g, In g gs -> incl (snd g) Q) -> Permutation Q Q' -> amplitude F gs Q i f vi vf = amplitude F gs Q' i f vi vf.
Proof.
  intros HI P. unfold amplitude. etransitivity.
  - apply (@so_perm K A SR two Q Q' _ Q); auto. intros v w H. f_equal.
    + f_equal. apply map_ext_in. intros q Hq. rewrite (H q Hq). auto.
    + apply (@run_state K F Q gs); auto. apply start_state.
  - apply so_ext. intros w _ _. f_equal; [apply (times_perm NF); apply Permutation_map; auto|]. apply run_ext. intros u. apply (times_perm NF). apply Permutation_map. auto.
Qed.
Lemma amplitude_phase gs gs' Q i f vi vf c : bits vi -> (forall psi v, state_of Q psi -> bits v -> run F gs psi v = mul A c (run F gs' psi v)) ->
  amplitude F gs Q i f vi vf = mul A c (amplitude F gs' Q i f vi vf).
Proof.
  intros B H. unfold amplitude. rewrite <- (so_mul_c NF). apply so_ext. intros w W1 W2. rewrite H; [ring|apply start_state|]. intros x. destruct (in_dec Nat.eq_dec x Q); [apply W2; auto|rewrite W1; auto].
Qed.

(** ** load *)
Theorem load_ok (R : Type) (g : prng R) lg arr r circuit Q initial final simplify um dec fuse_width :
  prng_ok g -> (forall l, Permutation (arr l) l) ->
  (forall h, In h circuit -> is_gate h) -> (simplify || dec = true -> forall h, In h circuit -> unitary F h) ->
  NoDup Q -> (forall q, In q Q <-> touches circuit q) ->
  names_normalized F -> valid_state F Q initial -> valid_state F Q final -> proper_state initial -> proper_state final ->
  exists arrays ts os c, load F ix g lg arr r circuit initial final simplify um dec fuse_width = Ok (arrays, ts, os) /\
    phase F c /\ (simplify = false -> c = one A) /\
    shaped two arrays ts /\ Forall well_shaped arrays /\ (forall xs, In xs ts -> NoDup xs) /\ NoDup os /\
    (forall x, In x os <-> open_end ix Q (closing F initial) (closing F final) x) /\ (forall x, In x os -> In x (concat ts)) /\
    (forall x, lonely ts x -> In x os) /\
    (dec = false -> fuse_width = None -> forall x, In x (concat ts) -> count_occ Nat.eq_dec (concat ts) x = if memb x os then 1 else 2) /\
    forall ks V, NoDup ks -> (forall x, In x ks <-> In x (concat ts) /\ ~ In x os) -> bits V ->
      amplitude F circuit Q (closing F initial) (closing F final) (fun q => V (ix q Ini)) (fun q => V (ix q Fin)) = mul A c (so ks (network A arrays ts) V).
Proof.
  intros Hg Harr HG HU NQ HQ NN Vi Vf Pi Pf. unfold load.
  set (Q' := qubits_of circuit).
  assert (NQ' : NoDup Q') by apply unique_nodup.
  assert (HQ' : forall q, In q Q' <-> touches circuit q).
  { intros q. unfold Q', qubits_of. rewrite unique_in, in_concat. unfold touches. split.
    - intros (l & Hl & Hq). apply in_map_iff in Hl. destruct Hl as (h & <- & Hh). eauto.
    - intros (h & Hh & Hq). exists (snd h). split; auto. apply in_map. auto. }
  assert (QQ : forall q, In q Q <-> In q Q') by (intros q; rewrite HQ, HQ'; tauto).
  assert (PQ : Permutation Q Q') by (apply NoDup_Permutation; auto).
  assert (Vi' : valid_state F Q' initial) by (destruct initial; cbn [valid_state] in *; auto; destruct Vi as (V1 & V2 & V3); split; auto; split; auto; intros q a H1 H2; apply (V3 q a); auto; apply QQ; auto).
  assert (Vf' : valid_state F Q' final) by (destruct final; cbn [valid_state] in *; auto; destruct Vf as (V1 & V2 & V3); split; auto; split; auto; intros q a H1 H2; apply (V3 q a); auto; apply QQ; auto).
  assert (FG : exists gs n c, final_gates F ix simplify um circuit = Ok (gs, n) /\ phase F c /\ (simplify = false -> c = one A) /\ (forall q, touches gs q <-> touches circuit q) /\ (forall h, In h gs -> is_gate h) /\
    ((forall h, In h circuit -> unitary F h) -> forall h, In h gs -> unitary F h) /\
    (forall psi v, state_of Q' psi -> bits v -> run F circuit psi v = mul A c (run F gs psi v))).
  { destruct simplify.
    - destruct (@simplification_keeps_operator K F ix um circuit NF IX) as (gs & n & c & E & P & T & G & Rn); [intros h Hh; split; auto|]. exists gs, n, c. split; auto. split; auto. split; [discriminate|]. split; auto.
      split; [intros h Hh; apply G; auto|]. split; [intros _ h Hh; apply G; auto|]. intros psi v H1 H2. apply (Rn Q'); auto. intros q. apply HQ'.
    - exists circuit, 0, (one A). unfold final_gates. cbn [bind]. fold Q'. assert (E : filter (fun q => negb (memb q (concat (map snd circuit)))) Q' = []).
      { destruct (filter _ Q') as [|q l] eqn:X; auto. exfalso. assert (Y : In q (q :: l)) by (left; auto). rewrite <- X in Y. apply filter_In in Y. destruct Y as [Hq Y]. apply negb_true_iff in Y. revert Y. apply not_false_iff_true. apply memb_In. unfold Q', qubits_of in Hq. rewrite unique_in in Hq. auto. }
      unfold M_Circuit.gate in *. rewrite E. cbn [map]. rewrite app_nil_r. split; auto. split; [unfold phase; rewrite (conj_one NF); ring|]. split; auto. split; [tauto|]. split; auto. split; auto. intros. ring. }
  destruct FG as (gs & n & c & EF & Pc & Cs & Tg & Gg & Ug & Rn). rewrite EF. cbn [bind].
  assert (HQg : forall q, In q Q' <-> touches gs q) by (intros q; rewrite HQ', Tg; tauto).
  destruct (network_of_ok NF IX Gg NQ' HQg NN Vi' Vf' Pi Pf) as (arrays0 & ts0 & os & E & HT & S0 & W0 & N0 & No & Io & Bo & Co & Val). fold Q'. rewrite E. cbn [bind].
  assert (OT : forall o, In o os -> In o (concat ts0)) by (intros o Ho; apply Io in Ho; destruct Ho as (q & Hq & [[-> _]|[-> _]]); apply Bo; auto).
  assert (Io' : forall x, In x os <-> open_end ix Q (closing F initial) (closing F final) x).
  { intros x. rewrite Io. unfold open_end. split; intros (q & Hq & H); exists q; (split; [apply QQ; auto|auto]). }
  assert (AMP : forall V, bits V -> amplitude F circuit Q (closing F initial) (closing F final) (fun q => V (ix q Ini)) (fun q => V (ix q Fin)) =
    mul A c (amplitude F gs Q' (closing F initial) (closing F final) (fun q => V (ix q Ini)) (fun q => V (ix q Fin)))).
  { intros V B. rewrite (@amplitude_perm circuit Q Q'); auto; [|intros h Hh q Hq; apply HQ; exists h; auto]. apply amplitude_phase; auto. intros q. apply B. }
  assert (KS : forall l : list (list nat), exists ks, NoDup ks /\ forall x, In x ks <-> In x (concat l) /\ ~ In x os).
  { intros l. exists (filter (fun x => negb (memb x os)) (unique (concat l))). split; [apply NoDup_filter, unique_nodup|]. intros x. rewrite filter_In, unique_in, negb_true_iff, memb_nIn. tauto. }
  assert (TWL : forall l : list (list nat), (forall x, In x (concat l) -> ~ In x os -> exists t1 t2, t1 <> t2 /\ has l t1 x /\ has l t2 x) -> forall x, lonely l x -> In x os).
  { intros l H x (t & Ht). destruct (in_dec Nat.eq_dec x os) as [|Nx]; auto. exfalso. destruct (H x) as (t1 & t2 & Ne & H1 & H2); auto; [apply has_concat; exists t; apply Ht; auto|]. apply Ht in H1, H2. congruence. }
  (* after the decomposition *)
  assert (DEC : exists arrays ts, (if dec then (let! (d, m) := decompose_network A (n_eqb F) arrays0 ts0 in let (bs, us) := d in Ok (kronecker F bs us m os)) else Ok (arrays0, ts0)) = Ok (arrays, ts) /\
    shaped two arrays ts /\ Forall well_shaped arrays /\ (forall xs, In xs ts -> NoDup xs) /\ (forall x, In x os -> In x (concat ts)) /\ (forall x, lonely ts x -> In x os) /\ (dec = false -> ts = ts0) /\
    forall ks V, NoDup ks -> (forall x, In x ks <-> In x (concat ts) /\ ~ In x os) -> bits V ->
      amplitude F circuit Q (closing F initial) (closing F final) (fun q => V (ix q Ini)) (fun q => V (ix q Fin)) = mul A c (so ks (network A arrays ts) V)).
  { destruct dec.
    - destruct (@dec_ok gs Q') with (arrays := arrays0) (ts := ts0) (os := os) as (bs & us & m & D1 & D2 & D3 & D4); auto.
      { intros h Hh. split; auto. apply Ug; auto. intros k Hk. apply HU; auto. apply orb_true_r. }
      rewrite D1. cbn [bind]. destruct (kronecker_ok NF S0 W0 N0 D1 OT D2 D3) as (bs' & ts' & Ek & K1 & K2 & K3 & K4 & K6 & K5). exists bs', ts'. rewrite Ek. split; auto. split; auto. split; auto. split; auto. split; auto. split; [apply TWL, K6; auto|]. split; [discriminate|].
      intros ks V Nk Ik B. rewrite AMP by auto. destruct (KS ts0) as (ks0 & Nk0 & Ik0). rewrite (K5 ks0 ks V) by auto. rewrite (Val ks0 V) by auto. auto.
    - exists arrays0, ts0. split; auto. split; auto. split; auto. split; auto. split; auto. split; [|split; auto].
      { intros x Hl. assert (C2 := Hl). destruct C2 as (t & C2). pose proof (proj2 (C2 t) eq_refl) as Ht. assert (Hx : In x (concat ts0)) by (apply has_concat; eauto). specialize (Co x Hx). destruct (memb x os) eqn:M; [apply memb_In; auto|]. exfalso. rewrite (lonely_count N0 Hl) in Co. discriminate. }
      intros ks V Nk Ik B. rewrite AMP, (Val ks V) by auto. auto. }
  destruct DEC as (arrays & ts & E1 & S1 & W1 & N1 & O1 & LN1 & C1 & V1). rewrite E1. cbn [bind].
  destruct fuse_width as [w|].
  - destruct (@fuse_accepts R g lg ts (PyInt 2) w (Some os) [] (r n) Hg N1) as (p & fs & cs & rest & E2 & P2 & _).
    { intros [(x & [] & _)|[(x & _ & H)|[(H & _)|(o & H & x & Hx & H')]]]; [apply (H 2%N); reflexivity|discriminate|]. inversion H; subst o. pose proof (O1 x Hx) as Y. apply has_concat in Y. destruct Y as (t & Y). apply (H' t Y). }
    rewrite E2. cbn [bind].
    assert (Acc : exists z, contract A arr p ts (Some os) (Some arrays) None = Ok z).
    { apply (contract_accepts SR Harr); auto; [intros l E3; inversion E3; subst; auto|]. split; [exists two; auto|]. split; [intros x Hx; apply has_concat; apply O1; auto|eauto]. }
    destruct Acc as (((ts', os'), ar') & E3). rewrite E3. cbn [bind]. destruct (contract_keeps_value SR Harr N1 W1 S1 E3) as (ars & -> & S2 & W2 & N2 & No2 & Io2 & _ & O2 & LN2 & V2).
    exists ars, ts', os', c. split; auto. split; auto. split; auto. split; auto. split; auto. split; auto. split; auto. split; [intros x; rewrite Io2; auto|]. split; [intros x Hx; apply Io2 in Hx; auto|]. split; [intros x Hx; apply Io2; destruct (LN2 x Hx); auto|]. split; [discriminate|].
    intros ks V Nk Ik B. destruct (KS ts) as (ks0 & Nk0 & Ik0). rewrite (V1 ks0 V) by auto. f_equal. symmetry. apply V2; auto; [intros x; rewrite Ik, Io2; tauto|intros x _; apply B].
  - exists arrays, ts, os, c. split; auto. split; auto. split; auto. split; auto. split; auto. split; auto. split; auto. split; auto. split; auto. split; auto. split; auto. intros D _. rewrite (C1 D). auto.
Qed.
End Load.
