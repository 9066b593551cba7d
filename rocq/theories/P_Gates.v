(** Commutation of gates. *)
From Coq Require Import List Arith Lia Permutation Bool Ring.
Import ListNotations.
From Verif Require Import P_Base P_Opt P_PyMain.
From Verif Require Import M_Base M_Path M_PyTree M_OSet M_Tensor M_Contract M_Circuit S_Path S_PyTree S_Random S_Network S_Fuse S_Tensor S_Contract S_Circuit.
From Verif Require Import P_Path P_Split P_PathMain P_PyBuild P_PyTens P_OSet P_Sum P_Array P_Tensordot P_ContractMain P_DecomposeSum P_Circuit.
From Verif Require Import M_Path M_PyTree.
Set Implicit Arguments.
Unset Strict Implicit.

Lemma number_acc l : forall n, fold_left (fun n b => 2 * n + b) l n = n * prod (repeat 2 (length l)) + ravel (repeat 2 (length l)) l.
Proof. induction l as [|b l IH]; intros n; [cbn; lia|]. cbn [fold_left length repeat ravel]. rewrite IH. change (prod (2 :: repeat 2 (length l))) with (2 * prod (repeat 2 (length l))). ring. Qed.
Lemma number_ravel l : ravel (repeat 2 (length l)) l = number l.
Proof. unfold number. rewrite number_acc. lia. Qed.
Lemma prod_twos n : prod (repeat 2 n) = 2 ^ n.
Proof. induction n; cbn [repeat prod fold_right]; auto. fold (prod (repeat 2 n)). rewrite IHn. cbn [Nat.pow]. lia. Qed.
Lemma number_lt l : Forall (fun b => b < 2) l -> number l < 2 ^ length l.
Proof.
  intros H. rewrite <- number_ravel, <- prod_twos. apply ravel_lt. induction H; simpl; constructor; auto.
Qed.
Lemma map_two (l : list nat) : map (fun _ => 2) l = repeat 2 (length l).
Proof. induction l; simpl; congruence. Qed.

Lemma find_label (rho : nat -> nat) Q (v : nat -> nat) : (forall q q', In q Q -> In q' Q -> rho q = rho q' -> q = q') ->
  exists W, (forall q, In q Q -> W (rho q) = v q) /\ (bits v -> bits W).
Proof.
  intros HI. exists (fun x => match find (fun q => rho q =? x) Q with Some q => v q | None => 0 end). split.
  - intros q Hq. destruct (find (fun q0 => rho q0 =? rho q) Q) as [q'|] eqn:E.
    + apply find_some in E. destruct E as [Hq' E]. apply Nat.eqb_eq in E. rewrite (HI q' q); auto.
    + exfalso. apply (find_none _ _ E) in Hq. rewrite Nat.eqb_refl in Hq. discriminate.
  - intros B x. destruct (find _ Q); auto. 
Qed.

Section Gates.
Variable K : Type.
Variable F : nums K.
Local Notation A := (n_alg F).
Hypothesis SR : semiring A.
Let SR1 : semi_ring_theory (zero A) (one A) (add A) (mul A) eq := SR.
Add Ring KR : SR1.
Hypothesis EQ : forall x y, n_eqb F x y = true <-> x = y.
Local Notation two := (fun _ : nat => 2).
Notation so := (sum_over A two).
Variable ix : nat -> mark -> nat.
Hypothesis IX : distinct ix.

Lemma valid_gate_ok (g : nda K * list nat) : valid_gate g = true <-> snd g <> [] /\ NoDup (snd g) /\ shape (fst g) = [2 ^ length (snd g); 2 ^ length (snd g)].
Proof.
  destruct g as [a qs]. unfold valid_gate. cbn [fst snd]. rewrite !andb_true_iff, Nat.ltb_lt, Nat.eqb_eq. split.
  - intros ((H1 & H2) & H3). split; [intros ->; simpl in H1; lia|]. split.
    + apply NoDup_incl_NoDup with (l := unique qs); [apply unique_nodup|lia|]. intros x. rewrite unique_in. auto.
    + destruct (shape a) as [|n [|m [|]]]; try discriminate. apply andb_true_iff in H2. rewrite !Nat.eqb_eq in H2. destruct H2 as [-> ->]. auto.
  - intros (H1 & H2 & ->). rewrite !Nat.eqb_refl. split; [split; auto; destruct qs; simpl; [tauto|lia]|]. rewrite unique_id; auto.
Qed.
Lemma is_gate_valid (g : nda K * list nat) : is_gate g -> valid_gate g = true.
Proof. intros (H1 & H2 & H3 & _). apply valid_gate_ok. auto. Qed.

(** A gate as a tensor with two axes for each qubit. *)
Lemma gate_tensor (g : nda K * list nat) (r c : nat -> nat) : is_gate g ->
  exists b, reshape (fst g) (twos (snd g)) = Ok b /\ data b = data (fst g) /\
    tensor A two b (map r (snd g) ++ map c (snd g)) (fun W => element F g (fun q => W (r q)) (fun q => W (c q))).
Proof.
  intros (_ & N & S & W). destruct g as [a qs]. cbn [fst snd] in *. unfold reshape, twos.
  assert (E : prod (repeat 2 (2 * length qs)) = length (data a)).
  { rewrite W, S, prod_twos. cbn [prod fold_right]. replace (2 * length qs) with (length qs + length qs) by lia. rewrite Nat.pow_add_r. ring. }
  rewrite E, Nat.eqb_refl. eexists. split; [reflexivity|]. split; [reflexivity|]. split; [unfold well_shaped; cbn [data shape]; auto|]. split.
  - cbn [shape]. rewrite map_two, app_length, !map_length. f_equal. lia.
  - intros v V. unfold entry_at, element, entry. cbn [shape data fst snd]. rewrite S. f_equal. rewrite map_app, !map_map.
    replace (2 * length qs) with (length qs + length qs) by lia. rewrite repeat_app, ravel_app by (rewrite map_length, repeat_length; auto).
    pose proof (number_ravel (map (fun q => v (r q)) qs)) as E1. pose proof (number_ravel (map (fun q => v (c q)) qs)) as E2. rewrite map_length in E1, E2. rewrite E1, E2, prod_twos.
    cbn [ravel prod fold_right]. ring.
Qed.

Section Product.
Variables g h : nda K * list nat.
Hypothesis Hg : is_gate g.
Hypothesis Hh : is_gate h.
Variables all shared : list nat.
Hypothesis Nall : NoDup all.
Hypothesis Nsh : NoDup shared.
Hypothesis Iall : forall q, In q all <-> In q (snd g) \/ In q (snd h).
Hypothesis Ish : forall q, In q shared <-> In q (snd g) /\ In q (snd h).
Definition SF (q : nat) := ix q (if memb q shared then Shared else Fin).
Definition SI (q : nat) := ix q (if memb q shared then Shared else Ini).
Definition prod_val (W : nat -> nat) : K :=
  so (map (fun q => ix q Shared) shared)
     (fun W => mul A (element F g (fun q => W (ix q Ini)) (fun q => W (SF q))) (element F h (fun q => W (SI q)) (fun q => W (ix q Fin)))) W.

Lemma nodup_map_in (B C : Type) (f : B -> C) l : NoDup l -> (forall x y, In x l -> In y l -> f x = f y -> x = y) -> NoDup (map f l).
Proof.
  induction l as [|x l IH]; intros N H; simpl; [constructor|]. inversion N; subst. constructor.
  - intros E. apply in_map_iff in E. destruct E as (y & E & Hy). apply H2. rewrite <- (H y x); auto; [right; auto|left; auto].
  - apply IH; auto. intros; apply H; auto; right; auto.
Qed.
Lemma nodup_two (l : list nat) (f k : nat -> mark) : NoDup l -> (forall q q', f q <> k q') -> NoDup (map (fun q => ix q (f q)) l ++ map (fun q => ix q (k q)) l).
Proof.
  intros N H. apply NoDup_app. split; [|split].
  - apply nodup_map_in; auto. intros x y _ _ E. apply IX in E. tauto.
  - apply nodup_map_in; auto. intros x y _ _ E. apply IX in E. tauto.
  - intros x Hx Hy. apply in_map_iff in Hx, Hy. destruct Hx as (q & <- & _), Hy as (q' & E & _). apply IX in E. destruct E as [_ E]. apply (H q q'). auto.
Qed.

Lemma gate_product_ok a b : tensor A two a (map (fun q => ix q Ini) (snd g) ++ map SF (snd g)) (fun W => element F g (fun q => W (ix q Ini)) (fun q => W (SF q))) ->
  tensor A two b (map SI (snd h) ++ map (fun q => ix q Fin) (snd h)) (fun W => element F h (fun q => W (SI q)) (fun q => W (ix q Fin))) ->
  exists c, gate_product F ix all shared a (snd g) b (snd h) = Ok c /\ tensor A two c (map (fun q => ix q Ini) all ++ map (fun q => ix q Fin) all) prod_val.
Proof.
  intros Ta Tb. destruct Hg as (_ & Ng & _), Hh as (_ & Nh & _). unfold gate_product. cbv zeta.
  change (map (fun q => ix q (if memb q shared then Shared else Fin)) (snd g)) with (map SF (snd g)).
  change (map (fun q => ix q (if memb q shared then Shared else Ini)) (snd h)) with (map SI (snd h)).
  set (xa := map (fun q => ix q Ini) (snd g) ++ map SF (snd g)) in *. set (xb := map SI (snd h) ++ map (fun q => ix q Fin) (snd h)) in *.
  assert (Na : NoDup xa) by (apply nodup_two; auto; intros q q'; destruct (memb q' shared); discriminate).
  assert (Nb : NoDup xb) by (apply nodup_two; auto; intros q q'; destruct (memb q shared); discriminate).
  assert (Ia : forall x, In x xa <-> exists q, In q (snd g) /\ (x = ix q Ini \/ (x = ix q Shared /\ In q shared) \/ (x = ix q Fin /\ ~ In q shared))).
  { intros x. unfold xa. rewrite in_app_iff, !in_map_iff. unfold SF. split.
    - intros [(q & <- & H)|(q & <- & H)]; exists q; split; auto. destruct (memb q shared) eqn:E; [apply memb_In in E|apply memb_nIn in E]; auto.
    - intros (q & H & [E|[(E & H')|(E & H')]]); [left; eauto| |]; right; exists q; split; auto; [rewrite (proj2 (memb_In _ _) H')|rewrite (proj2 (memb_nIn _ _) H')]; auto. }
  assert (Ib : forall x, In x xb <-> exists q, In q (snd h) /\ (x = ix q Fin \/ (x = ix q Shared /\ In q shared) \/ (x = ix q Ini /\ ~ In q shared))).
  { intros x. unfold xb. rewrite in_app_iff, !in_map_iff. unfold SI. split.
    - intros [(q & <- & H)|(q & <- & H)]; exists q; split; auto. destruct (memb q shared) eqn:E; [apply memb_In in E|apply memb_nIn in E]; auto.
    - intros (q & H & [E|[(E & H')|(E & H')]]); [right; eauto| |]; left; exists q; split; auto; [rewrite (proj2 (memb_In _ _) H')|rewrite (proj2 (memb_nIn _ _) H')]; auto. }
  assert (Hy : forall x, In x [] -> In x xa /\ In x xb) by (intros x []).
  destruct (@tensordot_ok K A SR two xa xb [] Na Nb Hy a b _ _ Ta Tb) as (c & E & _ & Tc). rewrite E. cbn [bind].
  set (zs := hlist [] ++ only xa xb ++ only xb xa) in *.
  assert (Nz : NoDup zs) by (apply n_z; auto).
  assert (Iz : forall x, In x zs <-> exists q, In q all /\ (x = ix q Ini \/ x = ix q Fin)).
  { intros x. unfold zs. change (hlist []) with (@nil nat). cbn [app]. unfold only. rewrite in_app_iff, !filter_In, !negb_true_iff, !memb_nIn, Ia, Ib. split.
    - intros [((q & Hq & H) & H')|((q & Hq & H) & H')].
      + exists q. split; [apply Iall; auto|]. destruct H as [ -> |[( -> & H)|( -> & H)]]; auto. exfalso. apply H'. exists q. split; [apply Ish in H; tauto|]. auto.
      + exists q. split; [apply Iall; auto|]. destruct H as [ -> |[( -> & H)|( -> & H)]]; auto. exfalso. apply H'. exists q. split; [apply Ish in H; tauto|]. auto.
    - assert (ND : forall q m m', ix q m = ix q m' -> m = m') by (intros q m m' E'; apply IX in E'; tauto).
      intros (q & Hq & [ -> | -> ]); destruct (in_dec Nat.eq_dec q (snd g)) as [G|G], (in_dec Nat.eq_dec q (snd h)) as [H|H]; try (exfalso; apply Iall in Hq; tauto).
      + left. split; [exists q; auto|]. intros (q' & Hq' & [E'|[(E' & Hs)|(E' & Hs)]]); apply IX in E'; destruct E' as [<- E']; try discriminate. apply Hs, Ish. auto.
      + left. split; [exists q; auto|]. intros (q' & Hq' & [E'|[(E' & Hs)|(E' & Hs)]]); apply IX in E'; destruct E' as [<- E']; try discriminate. auto.
      + right. split; [exists q; split; auto; right; right; split; auto; rewrite Ish; tauto|].
        intros (q' & Hq' & [E'|[(E' & Hs)|(E' & Hs)]]); apply IX in E'; destruct E' as [<- E']; try discriminate. auto.
      + right. split; [exists q; auto|]. intros (q' & Hq' & [E'|[(E' & Hs)|(E' & Hs)]]); apply IX in E'; destruct E' as [<- E']; try discriminate. apply Hs, Ish. auto.
      + left. split; [exists q; split; auto; right; right; split; auto; rewrite Ish; tauto|].
        intros (q' & Hq' & [E'|[(E' & Hs)|(E' & Hs)]]); apply IX in E'; destruct E' as [<- E']; try discriminate. auto.
      + right. split; [exists q; auto|]. intros (q' & Hq' & [E'|[(E' & Hs)|(E' & Hs)]]); apply IX in E'; destruct E' as [<- E']; try discriminate. auto. }
  set (xab := map (fun q => ix q Ini) all ++ map (fun q => ix q Fin) all) in *.
  assert (Nab : NoDup xab) by (apply (@nodup_two all (fun _ => Ini) (fun _ => Fin)); auto; discriminate).
  assert (P : Permutation xab zs).
  { apply NoDup_Permutation; auto. intros x. rewrite Iz. unfold xab. rewrite in_app_iff, !in_map_iff. split.
    - intros [(q & <- & H)|(q & <- & H)]; exists q; auto.
    - intros (q & H & [ -> | -> ]); [left|right]; eauto. }
  rewrite mapM_index by (intros x Hx; apply (Permutation_in _ P Hx)). cbn [bind].
  destruct (@transpose_ok K A two c zs xab _ Tc Nz P) as (d & Ed & Td). rewrite Ed. exists d. split; auto.
  destruct Td as (W1 & W2 & W3). split; auto. split; auto. intros v V. rewrite W3 by auto. unfold prod_val.
  apply (@so_perm K A SR two _ _ _ (xa ++ xb)).
  - intros u w H. f_equal.
    + apply element_ext; intros q Hq; apply H; apply in_app_iff; left; unfold xa; apply in_app_iff; [left|right]; apply in_map_iff; eauto.
    + apply element_ext; intros q Hq; apply H; apply in_app_iff; right; unfold xb; apply in_app_iff; [left|right]; apply in_map_iff; eauto.
  - apply NoDup_Permutation.
    + unfold slist. apply NoDup_filter, NoDup_filter. auto.
    + apply nodup_map_in; auto. intros x y _ _ E'. apply IX in E'. tauto.
    + intros x. unfold slist. rewrite !filter_In, memb_In, negb_true_iff, memb_nIn, Ia, Ib, in_map_iff. split.
      * intros (((q & Hq & H1) & (q' & Hq' & H2)) & _).
        destruct H1 as [ -> |[( -> & H)|( -> & H)]], H2 as [E'|[(E' & H')|(E' & H')]]; apply IX in E'; destruct E' as [<- E']; try discriminate.
        -- exfalso. apply H', Ish. auto.
        -- eauto.
        -- exfalso. apply H, Ish. auto.
      * intros (q & <- & H). pose proof (proj1 (Ish q) H) as [G1 G2]. split; [|simpl; tauto]. split; exists q; auto.
Qed.

(** The product of the two gates acts like one after the other. *)
Definition nmc (q t : nat) : nat := match t with 0 => ix q Fin | S t' => if memb q shared then (if t' =? 0 then ix q Shared else ix q Ini) else ix q Ini end.
Definition Lc (q : nat) : nat := if memb q shared then 2 else if memb q all then 1 else 0.
Lemma nmc_inj q q' t t' : t <= Lc q -> t' <= Lc q' -> nmc q t = nmc q' t' -> q = q' /\ t = t'.
Proof.
  intros H H' E. assert (q = q') as <-.
  { unfold nmc in E. destruct t as [|t], t' as [|t']; repeat (destruct (memb _ _) in E || destruct (_ =? 0) in E); apply IX in E; tauto. }
  split; auto. unfold nmc, Lc in *. destruct (memb q shared).
  - destruct t as [|[|[|]]], t' as [|[|[|]]]; try lia; cbn [Nat.eqb] in E; apply IX in E; destruct E as [_ E]; discriminate.
  - destruct (memb q all); destruct t as [|[|]], t' as [|[|]]; try lia; apply IX in E; destruct E as [_ E]; discriminate.
Qed.
Theorem product_acts Q psi v W : incl all Q -> state_of Q psi -> (forall q, In q Q -> W (nmc q (Lc q)) = v q) ->
  act F g (act F h psi) v = so (map (fun q => ix q Fin) all) (fun W' => mul A (prod_val W') (psi (fun q => W' (ix q Fin)))) W.
Proof.
  intros HQ HP HW. destruct Hg as (_ & Ng & _), Hh as (_ & Nh & _).
  assert (D : forall q q' t t', In q Q -> In q' Q -> t <= Lc q -> t' <= Lc q' -> nmc q t = nmc q' t' -> q = q' /\ t = t') by (intros; apply nmc_inj; auto).
  assert (G : forall x, In x [h; g] -> NoDup (snd x) /\ incl (snd x) Q).
  { intros x [<-|[<-|[]]]; split; auto; intros q Hq; apply HQ, Iall; auto. }
  assert (FL : forall q, fin [h; g] (fun _ => 0) q = Lc q).
  { intros q. cbn [fin]. unfold step, Lc. destruct (memb q (snd g)) eqn:Eg, (memb q (snd h)) eqn:Eh;
      (rewrite memb_In in Eg || rewrite memb_nIn in Eg); (rewrite memb_In in Eh || rewrite memb_nIn in Eh).
    - rewrite (proj2 (memb_In _ _)); auto. apply Ish. auto.
    - rewrite (proj2 (memb_nIn _ _)) by (rewrite Ish; tauto). rewrite (proj2 (memb_In _ _)); auto. apply Iall. auto.
    - rewrite (proj2 (memb_nIn _ _)) by (rewrite Ish; tauto). rewrite (proj2 (memb_In _ _)); auto. apply Iall. auto.
    - rewrite (proj2 (memb_nIn _ _)) by (rewrite Ish; tauto). rewrite (proj2 (memb_nIn _ _)); auto. rewrite Iall. tauto. }
  transitivity (run F [h; g] psi (fun q => W (nmc q (fin [h; g] (fun _ => 0) q)))).
  { change (act F g (act F h psi) v) with (run F [h; g] psi v). apply (@run_state K F Q [h; g]); auto; [intros; apply G; auto|]. intros q Hq. rewrite FL. symmetry. auto. }
  rewrite (@path_sum K F SR nmc Q Lc D [h; g] (fun _ => 0) psi W G); auto; [|intros; rewrite FL; auto].
  set (body := fun W' : nat -> nat => mul A (pprod F nmc [h; g] (fun _ => 0) W') (psi (fun q => W' (nmc q 0)))).
  rewrite (@so_perm K A SR two (inner nmc [h; g] (fun _ => 0)) (map (fun q => ix q Fin) all ++ map (fun q => ix q Shared) shared) body (wires nmc [h; g] (fun _ => 0) ++ map (fun q => nmc q 0) Q)).
  - rewrite so_app. apply so_ext. intros W1 _ _. unfold prod_val.
    rewrite (SRmul_comm SR). rewrite <- (@so_mul_l K A SR two (map (fun q => ix q Shared) shared) _ (fun W' => psi (fun q => W' (ix q Fin))) (map (fun q => ix q Fin) Q)).
    + apply so_ext. intros W2 _ _. unfold body. cbn [pprod nmc]. rewrite (SRmul_comm SR). f_equal. rewrite (SRmul_comm SR (gval _ _ _ _ _)). rewrite (SRmul_comm SR _ (one A)), (SRmul_1_l SR). f_equal.
      * unfold gval. apply element_ext; intros q Hq; unfold step, nmc, SF.
        -- destruct (memb q (snd h)) eqn:E; [apply memb_In in E|apply memb_nIn in E].
           ++ rewrite (proj2 (memb_In _ _)); auto. apply Ish. auto.
           ++ rewrite (proj2 (memb_nIn _ _)); auto. rewrite Ish. tauto.
        -- destruct (memb q (snd h)) eqn:E; [apply memb_In in E|apply memb_nIn in E].
           ++ rewrite (proj2 (memb_In _ _)) by (apply Ish; auto). auto.
           ++ rewrite (proj2 (memb_nIn _ _)) by (rewrite Ish; tauto). auto.
      * unfold gval. apply element_ext; intros q Hq; unfold nmc, SI; auto. destruct (memb q shared); auto.
    + intros u w H. apply HP. intros q Hq. apply H, in_map_iff. eauto.
    + intros x Hx Hy. apply in_map_iff in Hx, Hy. destruct Hx as (q & <- & _), Hy as (q' & E & _). apply IX in E. destruct E. discriminate.
  - intros u w H. unfold body. f_equal.
    + apply pprod_depends. intros x Hx. apply H, in_app_iff. auto.
    + apply HP. intros q Hq. apply H, in_app_iff. right. apply in_map_iff. eauto.
  - apply NoDup_Permutation.
    + apply (@inner_nodup K nmc Q Lc D); auto. intros; rewrite FL; auto.
    + apply NoDup_app. split; [|split].
      * apply nodup_map_in; auto. intros x y _ _ E. apply IX in E. tauto.
      * apply nodup_map_in; auto. intros x y _ _ E. apply IX in E. tauto.
      * intros x Hx Hy. apply in_map_iff in Hx, Hy. destruct Hx as (q & <- & _), Hy as (q' & E & _). apply IX in E. destruct E. discriminate.
    + intros x. rewrite (@inner_in K nmc Q) by (intros; apply G; auto). rewrite in_app_iff, !in_map_iff. split.
      * intros (q & t & -> & Hq & Ht). rewrite FL in Ht. unfold Lc in Ht. destruct (memb q shared) eqn:E.
        -- pose proof E as E'. apply memb_In in E'. destruct t as [|[|]]; [left|right|lia]; exists q; unfold nmc; rewrite ?E; auto. split; auto. apply Iall. apply Ish in E'. tauto.
        -- destruct (memb q all) eqn:E1; [|lia]. apply memb_In in E1. assert (t = 0) as -> by lia. left. exists q. auto.
      * intros [(q & <- & H)|(q & <- & H)].
        -- exists q, 0. split; auto. split; auto. rewrite FL. unfold Lc. rewrite (proj2 (memb_In _ _) H). destruct (memb q shared); lia.
        -- exists q, 1. unfold nmc. rewrite FL. unfold Lc. rewrite (proj2 (memb_In _ _) H). split; auto. split; [apply HQ, Iall; apply Ish in H; tauto|lia].
Qed.
End Product.

(** Sums with a single term that is not zero. *)
Definition update (v : nat -> nat) (ks : list nat) (u : nat -> nat) : nat -> nat := fun x => if memb x ks then u x else v x.
Lemma so_delta ks (u : nat -> nat) f xs : depends_on xs f -> NoDup ks -> (forall x, In x ks -> u x < 2) -> forall v,
  so ks (fun w => mul A (f w) (if forallb (fun x => w x =? u x) ks then one A else zero A)) v = f (update v ks u).
Proof.
  intros Df. assert (G : forall ks ls, NoDup ks -> (forall x, In x ks -> In x ls) -> (forall x, In x ks -> u x < 2) -> forall v, (forall x, In x ls -> ~ In x ks -> v x = u x) ->
    so ks (fun w => mul A (f w) (if forallb (fun x => w x =? u x) ls then one A else zero A)) v = f (update v ks u)).
  { clear ks. induction ks as [|k ks IH]; intros ls N I U v V.
    - simpl. assert (E : forallb (fun x => v x =? u x) ls = true) by (apply forallb_forall; intros x Hx; apply Nat.eqb_eq, V; auto). rewrite E. rewrite (Df (update v [] u) v); [ring|auto].
    - cbn [sum_over]. inversion N; subst. rewrite (@sum_single K A SR 2 (u k)).
      + rewrite IH; auto.
        * apply Df. intros x _. unfold update, assign. change (memb x (k :: ks)) with ((x =? k) || memb x ks).
          destruct (Nat.eqb_spec x k) as [->|Ne]; cbn [orb].
          -- destruct (memb k ks); auto.
          -- destruct (memb x ks); auto.
        * intros; apply I; right; auto.
        * intros; apply U; right; auto.
        * intros x Hx Hn. unfold assign. destruct (Nat.eqb_spec x k) as [->|Ne]; auto. apply V; auto. intros [E|E]; auto.
      + apply U. left. auto.
      + intros i Hi Ne. apply so_zero; auto. intros w Hw _. assert (E : forallb (fun x => w x =? u x) ls = false).
        { apply not_true_iff_false. rewrite forallb_forall. intros E. specialize (E k (I k (or_introl eq_refl))). apply Nat.eqb_eq in E. apply Ne. rewrite <- E. rewrite Hw by auto. unfold assign. rewrite Nat.eqb_refl. auto. }
        rewrite E. ring. }
  intros N U v. apply G; auto. intros x H H'. tauto.
Qed.

(** Arrays with the same entries. *)
Lemma ravel_onto sh : forall k, k < prod sh -> exists jx, valid sh jx /\ ravel sh jx = k.
Proof.
  induction sh as [|d sh IH]; intros k Hk.
  - exists []. simpl in *. split; [constructor|lia].
  - cbn [prod fold_right] in Hk. fold (prod sh) in Hk. destruct (Nat.eq_dec (prod sh) 0) as [E|E]; [rewrite E in Hk; lia|].
    destruct (IH (k mod prod sh)) as (jx & V & R); [apply Nat.mod_upper_bound; auto|]. exists (k / prod sh :: jx). split.
    + constructor; auto. apply Nat.div_lt_upper_bound; auto. lia.
    + cbn [ravel]. rewrite R. rewrite (Nat.div_mod k (prod sh)) at 3; auto. lia.
Qed.
Lemma value_of (xs jx : list nat) (sh : list nat) : NoDup xs -> length jx = length xs -> exists v, map v xs = jx /\ (forall x, ~ In x xs -> v x = 0).
Proof.
  revert jx. induction xs as [|x xs IH]; intros [|j jx] N E; try discriminate; [exists (fun _ => 0); auto|]. inversion N; subst. destruct (IH jx) as (v & Hv & H0); auto.
  exists (assign v x j). cbn [map]. split.
  - unfold assign at 1. rewrite Nat.eqb_refl. f_equal. rewrite <- Hv. apply map_ext_in. intros y Hy. unfold assign. destruct (Nat.eqb_spec y x); auto. subst. tauto.
  - intros y Hy. unfold assign. destruct (Nat.eqb_spec y x) as [->|]; [exfalso; apply Hy; left; auto|]. apply H0. intros Z. apply Hy. right. auto.
Qed.
Lemma valid_range (dim : nat -> nat) xs jx v : valid (map dim xs) jx -> map v xs = jx -> in_range dim xs v.
Proof.
  revert jx. induction xs as [|x xs IH]; intros jx H E y Hy; [destruct Hy|]. simpl in *. subst jx. inversion H; subst. destruct Hy as [<-|Hy]; auto. eapply IH; eauto.
Qed.
Lemma tensor_data (dim : nat -> nat) (a b : nda K) xs f k : NoDup xs -> tensor A dim a xs f -> tensor A dim b xs k -> (forall v, in_range dim xs v -> f v = k v) -> data a = data b.
Proof.
  intros N (Wa & Sa & Ea) (Wb & Sb & Eb) H. apply nth_ext with (d := zero A) (d' := zero A).
  - rewrite Wa, Wb, Sa, Sb. auto.
  - intros i Hi. rewrite Wa, Sa in Hi. destruct (ravel_onto Hi) as (jx & V & R).
    destruct (@value_of xs jx [] N) as (v & E & _). { apply forall2_len in V. rewrite map_length in V. auto. }
    assert (Rg : in_range dim xs v) by (apply valid_range with (jx := jx); auto).
    pose proof (Ea v Rg) as E1. pose proof (Eb v Rg) as E2. unfold entry_at, entry in E1, E2. rewrite Sa, E, R in E1. rewrite Sb, E, R in E2. rewrite E1, E2. auto.
Qed.
Lemma allclose_data (a b : nda K) : shape a = shape b -> length (data a) = length (data b) -> (allclose F a b = true <-> data a = data b).
Proof.
  intros S. unfold allclose. rewrite S, (proj2 (list_eqb_ok _ _) eq_refl). cbn [andb]. generalize (data a), (data b). induction l as [|x l IH]; intros [|y l'] E; try discriminate; simpl; [tauto|].
  simpl in E. unfold id at 1. rewrite andb_true_iff, EQ, IH by lia. split; [intros [-> ->]; auto|]. intros Z; inversion Z; auto.
Qed.

(** commute decides whether the operators commute. *)
Lemma commute_unfold um (g h : nda K * list nat) : commute F ix um g h =
  if negb (valid_gate g) then Err Throw else
  if negb (valid_gate h) then Err Throw else
  let all := unique (snd g ++ snd h) in
  let shared := filter (fun q => memb q (snd h)) (snd g) in
  if length shared =? 0 then Ok true else
  if negb um then Ok false else
  let! a' := reshape (fst g) (twos (snd g)) in
  let! b' := reshape (fst h) (twos (snd h)) in
  let! ab := gate_product F ix all shared a' (snd g) b' (snd h) in
  let! ba := gate_product F ix all shared b' (snd h) a' (snd g) in
  Ok (allclose F ab ba).
Proof. destruct g, h. reflexivity. Qed.

Section Commute.
Variables g h : nda K * list nat.
Hypothesis Hg : is_gate g.
Hypothesis Hh : is_gate h.
Let all := unique (snd g ++ snd h).
Let shared := filter (fun q => memb q (snd h)) (snd g).
Lemma all_in q : In q all <-> In q (snd g) \/ In q (snd h).
Proof. unfold all. rewrite unique_in, in_app_iff. tauto. Qed.
Lemma shared_in q : In q shared <-> In q (snd g) /\ In q (snd h).
Proof. unfold shared. rewrite filter_In, memb_In. tauto. Qed.
Lemma nall : NoDup all. Proof. apply unique_nodup. Qed.
Lemma nshared : NoDup shared. Proof. destruct Hg as (_ & N & _). apply NoDup_filter. auto. Qed.
Lemma pv_depends (a b : nda K * list nat) : incl (snd a) all -> incl (snd b) all ->
  depends_on (map (fun q => ix q Ini) all ++ map (fun q => ix q Fin) all) (prod_val a b shared).
Proof.
  intros Ia Ib v w H. unfold prod_val. apply so_depends with (xs := map (fun q => ix q Ini) all ++ map (fun q => ix q Fin) all ++ map (fun q => ix q Shared) shared).
  - intros u u' Hu. assert (U : forall q, In q all -> u (ix q Ini) = u' (ix q Ini) /\ u (ix q Fin) = u' (ix q Fin)).
    { intros q Hq. split; apply Hu; rewrite !in_app_iff, !in_map_iff; eauto. }
    assert (US : forall q, In q shared -> u (ix q Shared) = u' (ix q Shared)).
    { intros q Hq. apply Hu; rewrite !in_app_iff, !in_map_iff; eauto. }
    f_equal; apply element_ext; intros q Hq; unfold SF, SI; try (apply U; auto); destruct (memb q shared) eqn:E; try (apply U; auto); apply US, memb_In, E.
  - intros x Hx Hn. rewrite !in_app_iff in Hx. destruct Hx as [Hx|[Hx|Hx]]; [| |contradiction]; apply H, in_app_iff; auto.
Qed.
Lemma same_products : (forall W, bits W -> prod_val g h shared W = prod_val h g shared W) -> commuting F g h.
Proof.
  intros E Q psi v Ig Ih HP B.
  assert (HQ : incl all Q) by (intros q Hq; apply all_in in Hq; destruct Hq; auto).
  destruct (@find_label (fun q => nmc shared q (Lc all shared q)) Q v) as (W & HW & BW).
  { intros q q' _ _ E'. apply (nmc_inj (all := all)) in E'; auto. tauto. }
  rewrite (@product_acts g h Hg Hh all shared nall nshared all_in shared_in Q psi v W HQ HP HW).
  rewrite (@product_acts h g Hh Hg all shared nall nshared (fun q => iff_trans (all_in q) (or_comm _ _)) (fun q => iff_trans (shared_in q) (and_comm _ _)) Q psi v W HQ HP HW).
  apply so_ext. intros w Hw Rw. f_equal. apply E. intros x. destruct (in_dec Nat.eq_dec x (map (fun q => ix q Fin) all)) as [I|I]; [apply Rw; auto|]. rewrite (Hw x I). apply BW. auto.
Qed.
Lemma products_same : commuting F g h -> forall W, bits W -> prod_val g h shared W = prod_val h g shared W.
Proof.
  intros C W B. set (v := fun q => W (ix q Ini)). set (u := fun q => W (ix q Fin)).
  set (psi := fun w : nat -> nat => if forallb (fun q => w q =? u q) all then one A else zero A).
  assert (HP : state_of all psi).
  { intros w w' H. unfold psi. assert (E : forallb (fun q => w q =? u q) all = forallb (fun q => w' q =? u q) all); [|rewrite E; auto].
    apply eq_true_iff_eq. rewrite !forallb_forall. split; intros E q Hq; specialize (E q Hq); rewrite (H q Hq) in *; auto. }
  assert (Bv : bits v) by (intros q; apply B).
  assert (Ig : incl (snd g) all) by (intros q Hq; apply all_in; auto). assert (Ih : incl (snd h) all) by (intros q Hq; apply all_in; auto).
  assert (HW : forall q, In q all -> W (nmc shared q (Lc all shared q)) = v q).
  { intros q Hq. unfold Lc. rewrite (proj2 (memb_In _ _) Hq). unfold nmc, v. destruct (memb q shared); auto. }
  pose proof (C all psi v Ig Ih HP Bv) as E.
  rewrite (@product_acts g h Hg Hh all shared nall nshared all_in shared_in all psi v W (incl_refl _) HP HW) in E.
  rewrite (@product_acts h g Hh Hg all shared nall nshared (fun q => iff_trans (all_in q) (or_comm _ _)) (fun q => iff_trans (shared_in q) (and_comm _ _)) all psi v W (incl_refl _) HP HW) in E.
  assert (X : forall a b, incl (snd a) all -> incl (snd b) all ->
    so (map (fun q => ix q Fin) all) (fun W' => mul A (prod_val a b shared W') (psi (fun q => W' (ix q Fin)))) W = prod_val a b shared W).
  { intros a b Ia Ib. transitivity (prod_val a b shared (update W (map (fun q => ix q Fin) all) W)).
    - rewrite <- (@so_delta (map (fun q => ix q Fin) all) W (prod_val a b shared) _ (pv_depends Ia Ib)).
      + apply so_ext. intros w _ _. unfold psi. f_equal. assert (E' : forallb (fun q => w (ix q Fin) =? u q) all = forallb (fun x => w x =? W x) (map (fun q => ix q Fin) all)).
        { apply eq_true_iff_eq. rewrite !forallb_forall. split; intros H x Hx; [apply in_map_iff in Hx; destruct Hx as (q & <- & Hq); apply H; auto|apply (H (ix x Fin)), in_map_iff; eauto]. }
        rewrite E'. auto.
      + apply nodup_map_in; [apply nall|]. intros x y _ _ E'. apply IX in E'. tauto.
      + intros x _. apply B.
    - apply (pv_depends Ia Ib). intros x _. unfold update. destruct (memb x _); auto. }
  rewrite !X in E; auto.
Qed.

Theorem commute_exact um : exists b, commute F ix um g h = Ok b /\ (b = true -> commuting F g h) /\ (um = true -> commuting F g h -> b = true) /\
  (b = true -> um = true \/ forall q, In q (snd g) -> ~ In q (snd h)).
Proof.
  rewrite commute_unfold, (is_gate_valid Hg), (is_gate_valid Hh). cbn [negb]. cbv zeta. pose proof (gate_tensor (fun q => ix q Ini) (SF shared) Hg) as TG. pose proof (gate_tensor (SI shared) (fun q => ix q Fin) Hh) as TH.
  pose proof (gate_tensor (fun q => ix q Ini) (SF shared) Hh) as TH'. pose proof (gate_tensor (SI shared) (fun q => ix q Fin) Hg) as TG'.
  fold all. fold shared.
  destruct (Nat.eqb_spec (length shared) 0) as [E0|E0].
  - apply length_zero_iff_nil in E0. exists true. split; auto.
    assert (Dj : forall q, In q (snd g) -> ~ In q (snd h)).
    { intros q H1 H2. assert (H : In q shared) by (apply shared_in; auto). rewrite E0 in H. destruct H. }
    split; [|split; auto]. intros _. apply same_products. intros W _. unfold prod_val, SF, SI. rewrite E0. simpl. ring.
  - destruct um; cbn [negb].
    2:{ exists false. split; auto. split; [discriminate|]. split; [discriminate|]. intros Z. discriminate. }
    destruct TG as (a' & E1 & _ & T1), TH as (b' & E2 & _ & T2), TG' as (a'' & E1' & _ & T1'), TH' as (b'' & E2' & _ & T2').
    rewrite E1 in E1'. inversion E1'; subst a''. rewrite E2 in E2'. inversion E2'; subst b''. rewrite E1, E2. cbn [bind].
    destruct (@gate_product_ok g h Hg Hh all shared nall nshared all_in shared_in a' b') as (c & Ec & Tc); auto.
    destruct (@gate_product_ok h g Hh Hg all shared nall nshared (fun q => iff_trans (all_in q) (or_comm _ _)) (fun q => iff_trans (shared_in q) (and_comm _ _)) b' a') as (c' & Ec' & Tc'); auto.
    rewrite Ec, Ec'. cbn [bind]. eexists. split; [reflexivity|].
    assert (AC : allclose F c c' = true <-> data c = data c').
    { apply allclose_data; destruct Tc as (W1 & S1 & _), Tc' as (W2 & S2 & _); [congruence|]. rewrite W1, W2, S1, S2. auto. }
    split; [|split; [|auto]].
    + intros E. apply AC in E. apply same_products. intros W B. destruct Tc as (W1 & S1 & V1), Tc' as (W2 & S2 & V2).
      rewrite <- V1, <- V2 by (intros x _; apply B). unfold entry_at, entry. rewrite S1, S2, E. auto.
    + intros _ C. apply AC. apply (@tensor_data two c c' _ _ _) with (2 := Tc) (3 := Tc').
      * apply (@nodup_two all (fun _ => Ini) (fun _ => Fin)); [apply nall|]. discriminate.
      * intros v V. set (w := fun x => if memb x (map (fun q => ix q Ini) all ++ map (fun q => ix q Fin) all) then v x else 0).
        assert (Bw : bits w) by (intros x; unfold w; destruct (memb x _) eqn:E; [apply V, memb_In, E|lia]).
        assert (Sw : forall x, In x (map (fun q => ix q Ini) all ++ map (fun q => ix q Fin) all) -> v x = w x) by (intros x Hx; unfold w; rewrite (proj2 (memb_In _ _) Hx); auto).
        assert (Ig : incl (snd g) all) by (intros q Hq; apply all_in; auto). assert (Ih : incl (snd h) all) by (intros q Hq; apply all_in; auto).
        rewrite (pv_depends Ig Ih Sw), (pv_depends Ih Ig Sw). apply products_same; auto.
Qed.
End Commute.
End Gates.
