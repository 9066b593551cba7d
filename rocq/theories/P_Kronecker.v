(** The deltas that load adds for merged open indices. *)
From Coq Require Import List Arith Lia Permutation Bool Ring.
Import ListNotations.
From Verif Require Import P_Base P_Opt P_PyMain.
From Verif Require Import M_Base M_Path M_PyTree M_OSet M_Tensor M_Contract M_Decompose M_Circuit S_Path S_PyTree S_Random S_Network S_Fuse S_Tensor S_Contract S_Decompose S_Circuit S_Amplitude.
From Verif Require Import P_Path P_Split P_PathMain P_PyBuild P_PyTens P_OSet P_Fuse P_Sum P_Array P_Tensordot P_ContractMain P_Symbols P_Decompose P_DecomposeNet P_DecomposeSum P_Circuit P_Gates P_Same P_Simplify P_Amplitude P_DecChain.
From Verif Require Import M_Path M_PyTree.
Set Implicit Arguments.
Unset Strict Implicit.

Lemma dict_set_mem (V : Type) (d : list (nat * V)) k v k' v' : In (k', v') (dict_set d k v) -> (k' = k /\ v' = v) \/ In (k', v') d.
Proof.
  induction d as [|(j, u) d IH]; simpl; [intros [E|[]]; inversion E; auto|]. destruct (Nat.eqb_spec k j) as [->|Ne]; simpl; intros [E|H]; auto; [inversion E; auto|]. apply IH in H. tauto.
Qed.
Lemma dict_of_mem (V : Type) (l : list (nat * V)) k v : In (k, v) (dict_of l) -> In (k, v) l.
Proof.
  unfold dict_of. assert (G : forall l d, In (k, v) (fold_left (fun d e => dict_set d (fst e) (snd e)) l d) -> In (k, v) l \/ In (k, v) d).
  { clear. induction l as [|e l IH]; intros d H; simpl in *; auto. apply IH in H. destruct H as [H|H]; auto. apply dict_set_mem in H. destruct H as [[-> ->]|H]; auto. left. left. destruct e; auto. }
  intros H. apply G in H. destruct H as [H|[]]. auto.
Qed.

(** ** Grouping *)
Definition group_step (d : list (nat * list nat)) (e : nat * nat) : list (nat * list nat) :=
  dict_set d (fst e) ((match dict_get d (fst e) with Ok s => s | Err _ => [] end) ++ [snd e]).
Lemma group_ok (l : list (nat * nat)) : NoDup (map snd l) -> NoDup (map fst (group_by l)) /\
  (forall k vs, In (k, vs) (group_by l) -> vs <> [] /\ NoDup vs /\ forall v, In v vs <-> In (k, v) l) /\ (forall k v, In (k, v) l -> exists vs, In (k, vs) (group_by l)).
Proof.
  unfold group_by. change (fun d e => dict_set d (fst e) ((match dict_get d (fst e) with Ok s => s | Err _ => [] end) ++ [snd e])) with group_step.
  induction l as [|(k0, v0) l IH] using rev_ind; intros N; [split; [constructor|split; [intros k vs []|intros k v []]]|].
  rewrite map_app in N. apply NoDup_app in N. destruct N as (N & _ & N'). destruct (IH N) as (H1 & H2 & H3). rewrite fold_left_app. cbn [fold_left]. set (d := fold_left group_step l []) in *. unfold group_step. cbn [fst snd].
  split; [apply dict_set_nd; auto|]. assert (G : forall k vs, In (k, vs) (dict_set d k0 ((match dict_get d k0 with Ok s => s | Err _ => [] end) ++ [v0])) -> dict_get (dict_set d k0 ((match dict_get d k0 with Ok s => s | Err _ => [] end) ++ [v0])) k = Ok vs) by (intros k vs H; apply dict_get_in; auto; apply dict_set_nd; auto).
  split.
  - intros k vs H. apply G in H. rewrite dict_get_set in H. destruct (Nat.eqb_spec k k0) as [->|Ne].
    + inversion H; subst vs. destruct (dict_get d k0) as [s|] eqn:E.
      * apply dict_get_key in E. destruct (H2 k0 s E) as (E1 & E2 & E3). split; [intros X; apply app_eq_nil in X; destruct X; discriminate|]. split.
        -- apply NoDup_app. split; auto. split; [repeat constructor; intros []|]. intros x Hx [<-|[]]. apply (N' v0); [|left; auto]. apply in_map_iff. exists (k0, v0). split; auto. apply E3. auto.
        -- intros v. rewrite !in_app_iff, E3. simpl. split; (intros [X|[X|[]]]; auto); right; left; congruence.
      * cbn [app]. split; [discriminate|]. split; [repeat constructor; intros []|]. intros v. rewrite in_app_iff. simpl. split; [intros [->|[]]; auto|]. intros [X|[X|[]]]; [|left; congruence].
        exfalso. destruct (H3 k0 v X) as (vs & Y). rewrite (dict_get_in H1 Y) in E. discriminate.
    + apply dict_get_key in H. destruct (H2 k vs H) as (E1 & E2 & E3). split; auto. split; auto. intros v. rewrite in_app_iff, E3. simpl. split; auto. intros [X|[X|[]]]; auto. inversion X; subst. congruence.
  - intros k v H. apply in_app_iff in H. destruct (Nat.eq_dec k k0) as [->|Ne].
    + eexists. apply dict_get_key. rewrite dict_get_set, Nat.eqb_refl. reflexivity.
    + destruct H as [H|[H|[]]]; [|inversion H; congruence]. destruct (H3 k v H) as (vs & Y). exists vs. apply dict_get_key. rewrite dict_get_set. destruct (Nat.eqb_spec k k0); [congruence|]. apply dict_get_in; auto.
Qed.

(** ** Deltas *)
Lemma number_zeros n : number (repeat 0 n) = 0.
Proof. unfold number. induction n; simpl; auto. Qed.
Lemma number_ones n : number (repeat 1 n) = 2 ^ n - 1.
Proof.
  unfold number. assert (G : forall n k, fold_left (fun n b => 2 * n + b) (repeat 1 n) k = (k + 1) * 2 ^ n - 1).
  { induction n0 as [|m IH]; intros k; cbn [repeat fold_left]; [simpl; lia|]. rewrite IH. cbn [Nat.pow]. f_equal. lia. }
  rewrite G. lia.
Qed.

Section Delta.
Variable K : Type.
Variable F : nums K.
Local Notation A := (n_alg F).
Hypothesis NF : numbers F.
Let SR : semiring A := num_ring _ NF.
Let SR1 : semi_ring_theory (zero A) (one A) (add A) (mul A) eq := num_ring _ NF.
Add Ring KR : SR1.
Local Notation two := (fun _ : nat => 2).
Notation so := (sum_over A two).

Lemma delta_shaped n : n > 0 -> well_shaped (get_delta F n).
Proof.
  intros H. unfold well_shaped, get_delta. cbn [data shape length]. rewrite app_length, repeat_length, prod_twos. cbn [length]. assert (2 ^ n >= 2) by (destruct n; [lia|]; cbn [Nat.pow]; pose proof (Nat.pow_nonzero 2 n); lia). lia.
Qed.
Lemma delta_entry k vs V : bits V -> entry_at A (get_delta F (length (k :: vs))) (k :: vs) V = if forallb (fun x => V x =? V k) vs then one A else zero A.
Proof.
  intros B. unfold entry_at, entry, get_delta. cbn [shape data]. set (xs := k :: vs). set (n := length xs). assert (Ln : length (map V xs) = n) by apply map_length.
  assert (FB : Forall (fun b => b < 2) (map V xs)) by (apply Forall_forall; intros x Hx; apply in_map_iff in Hx; destruct Hx as (y & <- & _); apply B).
  rewrite <- Ln, number_ravel, Ln. pose proof (number_lt FB) as Lt. rewrite Ln in Lt.
  assert (P : 2 ^ n >= 2) by (unfold n, xs; cbn [length Nat.pow]; pose proof (Nat.pow_nonzero 2 (length vs)); lia).
  assert (Z : number (map V xs) = 0 <-> map V xs = repeat 0 n).
  { split; [|intros ->; apply number_zeros]. intros E. apply number_inj; [rewrite repeat_length; auto|auto| |rewrite number_zeros; auto]. apply Forall_forall. intros x Hx. apply repeat_spec in Hx. lia. }
  assert (O : number (map V xs) = 2 ^ n - 1 <-> map V xs = repeat 1 n).
  { split; [|intros ->; apply number_ones]. intros E. apply number_inj; [rewrite repeat_length; auto|auto| |rewrite number_ones; auto]. apply Forall_forall. intros x Hx. apply repeat_spec in Hx. lia. }
  assert (C : forall b, map V xs = repeat b n <-> V k = b /\ forallb (fun x => V x =? b) vs = true).
  { intros b. unfold n, xs. cbn [map length repeat]. split.
    - intros E. inversion E as [[E1 E2]]. split; auto. rewrite E1 in *. clear - E2. induction vs as [|x l IH]; auto. cbn [map length repeat forallb] in *. injection E2 as E1 E3. rewrite E1, Nat.eqb_refl. apply IH. auto.
    - intros [-> E]. f_equal. clear - E. induction vs as [|x l IH]; auto. cbn [map length repeat forallb] in *. apply andb_true_iff in E. destruct E as [E1 E2]. apply Nat.eqb_eq in E1. rewrite E1, IH; auto. }
  destruct (forallb (fun x => V x =? V k) vs) eqn:E.
  - pose proof (B k) as Bk. destruct (V k) as [|[|]] eqn:Ek; [| |lia].
    + rewrite (proj2 Z); [reflexivity|]. apply C. auto.
    + rewrite (proj2 O); [|apply C; auto]. replace (2 ^ n - 1) with (S (2 ^ n - 2)) by lia. cbn [nth]. rewrite app_nth2 by (rewrite repeat_length; lia). rewrite repeat_length, Nat.sub_diag. auto.
  - assert (N0 : number (map V xs) <> 0). { intros X. apply Z, C in X. destruct X as [X1 X2]. rewrite X1 in E. congruence. }
    assert (N1 : number (map V xs) <> 2 ^ n - 1). { intros X. apply O, C in X. destruct X as [X1 X2]. rewrite X1 in E. congruence. }
    destruct (number (map V xs)) as [|j]; [lia|]. cbn [nth]. rewrite app_nth1 by (rewrite repeat_length; lia). apply nth_repeat.
Qed.

Lemma deltas_one (l : list (list nat)) V : bits V -> (forall xs, In xs l -> exists k vs, xs = k :: vs /\ forall x, In x vs -> V x = V k) -> network A (map (fun xs => get_delta F (length xs)) l) l V = one A.
Proof.
  intros B. induction l as [|xs l IH]; intros H; cbn [map]; [apply network_nil|]. rewrite network_cons, IH by (intros; apply H; right; auto). destruct (H xs (or_introl eq_refl)) as (k & vs & -> & E). rewrite delta_entry by auto.
  rewrite (proj2 (forallb_forall _ _)); [ring|]. intros x Hx. apply Nat.eqb_eq. auto.
Qed.
Lemma deltas_zero (l : list (list nat)) V k vs x : bits V -> (forall xs, In xs l -> xs <> []) -> In (k :: vs) l -> In x vs -> V x <> V k -> network A (map (fun xs => get_delta F (length xs)) l) l V = zero A.
Proof.
  intros B. induction l as [|xs l IH]; intros H Hl Hx Ne; [destruct Hl|]. cbn [map]. rewrite network_cons. destruct Hl as [->|Hl].
  - rewrite delta_entry by auto. destruct (forallb (fun y => V y =? V k) vs) eqn:E; [|ring]. rewrite forallb_forall in E. specialize (E x Hx). apply Nat.eqb_eq in E. contradiction.
  - rewrite IH; auto; [ring|]. intros; apply H; right; auto.
Qed.

Lemma so_through (t : nat -> nat) (f : (nat -> nat) -> K) XS : depends_on XS f -> forall ks V, (forall k, In k ks -> forall x, In x XS -> (t x = k <-> x = k)) ->
  so ks (fun W => f (fun x => W (t x))) V = so ks f (fun x => V (t x)).
Proof.
  intros D. induction ks as [|k ks IH]; intros V H; [auto|]. rewrite !so_cons. apply sum_upto_ext. intros i _. rewrite IH by (intros; apply H; auto; right; auto).
  apply (@so_depends K A two ks f XS); auto. intros x Hx _. unfold assign. destruct (Nat.eqb_spec (t x) k) as [E|E], (Nat.eqb_spec x k) as [E'|E']; auto; [apply (H k (or_introl eq_refl) x Hx) in E|apply (H k (or_introl eq_refl) x Hx) in E']; congruence.
Qed.
Lemma network_map (t : nat -> nat) : forall (bs : list (nda K)) us W, length bs = length us -> network A bs (map (map t) us) W = network A bs us (fun x => W (t x)).
Proof.
  induction bs as [|b bs IH]; intros [|u us] W L; try discriminate; cbn [map]; [rewrite !network_nil; auto|]. rewrite !network_cons, IH by (simpl in L; lia). f_equal. unfold entry_at. rewrite map_map. auto.
Qed.

(** ** All together *)
Variables (arrays bs : list (nda K)) (ts us : list (list nat)) (m : list (nat * nat)) (os : list nat).
Hypothesis S : shaped two arrays ts.
Hypothesis W : Forall well_shaped arrays.
Hypothesis HN : forall xs, In xs ts -> NoDup xs.
Hypothesis HD : decompose_network A (n_eqb F) arrays ts = Ok (bs, us, m).
Hypothesis HO : forall o, In o os -> In o (concat ts).
Notation r := (sent m).
Hypothesis HV : forall x, In x (concat ts) -> In (r x) (concat us) \/ exists o1 o2, In o1 os /\ In o2 os /\ o1 <> o2 /\ r o1 = r x /\ r o2 = r x.
Hypothesis HU : forall xs, In xs us -> NoDup xs.

Lemma net_facts : Forall well_shaped bs /\ shaped two bs us /\ (forall x, In x (concat us) -> exists y, In y (concat ts) /\ x = r y) /\
  (forall x, In x (map fst m) <-> In x (concat ts)) /\ (forall x, In x (concat ts) -> In (r x) (concat ts) /\ r (r x) = r x) /\ NoDup (map fst m) /\ (forall x y, In (x, y) m <-> In x (concat ts) /\ y = r x).
Proof.
  destruct (network_ok SR (num_eqb _ NF) S W HN) as [[E _]|(bs' & us' & m' & E & N1 & N2 & N3 & N4 & N5 & _)]; [congruence|]. rewrite HD in E. inversion E; subst bs' us' m'.
  destruct (net_parts SR (num_eqb _ NF) S W HN HD) as (us0 & h & _ & _ & _ & ND). pose proof (@has_concat) as HC.
  assert (KM : forall x, In x (map fst m) <-> In x (concat ts)).
  { intros x. rewrite HC, <- N4. split; [intros I; apply dict_get_some; auto|]. intros (y & Hy). apply dict_get_key in Hy. apply in_map_iff. exists (x, y). auto. }
  split; auto. split; auto. split; [intros x Hx; apply HC in Hx; destruct Hx as (t & Hx); destruct (N3 t x Hx) as (y & Hy & ->); exists y; split; auto; apply HC; eauto|]. split; auto.
  split; [intros x Hx; apply HC in Hx; destruct Hx as (t & Hx); destruct (N5 t x Hx) as ((u & Hu) & E2 & _); split; auto; apply HC; eauto|]. split; auto.
  intros x y. split.
  - intros H. split; [apply KM; apply in_map_iff; exists (x, y); auto|]. unfold sent. rewrite (dict_get_in ND H). auto.
  - intros [H ->]. apply KM, dict_get_some in H. destruct H as (y & H). unfold sent. rewrite H. apply dict_get_key. auto.
Qed.

Theorem kronecker_ok : exists bs' ts', kronecker F bs us m os = (bs', ts') /\ Forall well_shaped bs' /\ shaped two bs' ts' /\ (forall xs, In xs ts' -> NoDup xs) /\
  (forall o, In o os -> In o (concat ts')) /\
  ((forall x, In x (concat ts) -> (forall o, In o os -> sent m o <> sent m x) -> exists t1 t2, t1 <> t2 /\ has us t1 (sent m x) /\ has us t2 (sent m x)) ->
   forall x, In x (concat ts') -> ~ In x os -> exists t1 t2, t1 <> t2 /\ has ts' t1 x /\ has ts' t2 x) /\
  forall ks ks' V, NoDup ks -> NoDup ks' -> (forall x, In x ks <-> In x (concat ts) /\ ~ In x os) -> (forall x, In x ks' <-> In x (concat ts') /\ ~ In x os) -> bits V ->
    so ks' (network A bs' ts') V = so ks (network A arrays ts) V.
Proof.
  destruct net_facts as (Wb & Sb & UI & KM & RF & ND & MI). unfold kronecker. set (inner := fun e : nat * nat => memb (fst e) os && negb (memb (snd e) os)).
  set (yes := filter inner m). set (no := filter (fun e => negb (inner e)) m). set (remap := dict_of (map (fun e : nat * nat => (snd e, fst e)) yes)).
  set (items := match m with e :: _ => if inner e then yes ++ no else no ++ yes | [] => [] end). set (rm := get_or remap).
  assert (IN : forall x y, In (x, y) yes <-> In (x, y) m /\ In x os /\ ~ In y os).
  { intros x y. unfold yes. rewrite filter_In. unfold inner. cbn [fst snd]. rewrite andb_true_iff, negb_true_iff, memb_In, memb_nIn. tauto. }
  assert (RM : forall z, (In (rm z) os /\ In (rm z, z) m /\ ~ In z os) \/ (rm z = z /\ (In z os \/ forall o, In o os -> ~ In (o, z) m))).
  { intros z. unfold rm, get_or. destruct (dict_get remap z) as [o|e] eqn:E.
    - left. apply dict_get_key, dict_of_mem, in_map_iff in E. destruct E as ((o', z') & E & H). cbn [fst snd] in E. inversion E; subst. apply IN in H. tauto.
    - right. split; auto. destruct (in_dec Nat.eq_dec z os) as [|Nz]; auto. right. intros o Ho Hm. assert (I : In z (map fst remap)).
      { unfold remap. apply dict_of_keys. rewrite map_map. cbn [fst]. apply in_map_iff. exists (o, z). split; auto. apply IN. auto. }
      apply dict_get_some in I. destruct I as (y & I). congruence. }
  assert (RO : forall o, In o os -> In (rm (r o)) os).
  { intros o Ho. destruct (RM (r o)) as [(H & _)|[E [H|H]]]; auto; [rewrite E; auto|]. exfalso. apply (H o Ho). apply MI. split; auto. }
  assert (RR : forall x, In x (concat ts) -> r (rm (r x)) = r x).
  { intros x Hx. destruct (RM (r x)) as [(_ & H & _)|[E _]]; [apply MI in H; symmetry; tauto|]. rewrite E. apply RF. auto. }
  assert (RN : forall x, In x (concat ts) -> ~ In (rm (r x)) os -> rm (r x) = r x /\ forall o, In o os -> r x <> r o).
  { intros x Hx Nx. destruct (RM (r x)) as [(H & _)|[E [H|H]]]; [tauto|rewrite E in Nx; tauto|]. split; auto. intros o Ho X. apply (H o Ho). apply MI. split; auto. }
  assert (PI : Permutation items m).
  { assert (PF : Permutation (yes ++ no) m). { unfold yes, no. clear. induction m as [|e l IH]; cbn [filter]; auto. destruct (inner e); cbn [negb app]; [constructor; auto|]. rewrite <- Permutation_middle. constructor. auto. }
    unfold items. destruct m as [|e l]; auto. destruct (inner e); auto. rewrite Permutation_app_comm. auto. }
  set (m' := dict_of (map (fun e => (fst e, rm (snd e))) items)).
  assert (MI' : forall x y, In (x, y) m' <-> In x (concat ts) /\ y = rm (r x)).
  { assert (G : forall k v, In (k, v) (map (fun e => (fst e, rm (snd e))) items) <-> In k (concat ts) /\ v = rm (r k)).
    { intros k v. rewrite in_map_iff. split.
      - intros ((x, y) & E & H). cbn [fst snd] in E. inversion E; subst. apply (Permutation_in _ PI), MI in H. destruct H as [H ->]. auto.
      - intros [H ->]. exists (k, r k). split; auto. apply (Permutation_in _ (Permutation_sym PI)), MI. auto. }
    intros x y. split; [intros H; apply G, dict_of_mem; auto|]. intros [H ->]. apply dict_get_key. unfold m'. apply (dict_of_get (val := fun x => rm (r x))); [intros k v Hk; apply G; auto|].
    apply in_map_iff. exists (x, rm (r x)). split; auto. apply G. auto. }
  assert (ND' : NoDup (map fst m')) by apply dict_of_nodup.
  set (sel := filter (fun e => memb (fst e) os && memb (snd e) os && negb (fst e =? snd e)) m').
  assert (SI : forall x y, In (x, y) sel <-> In x os /\ y = rm (r x) /\ x <> y).
  { intros x y. unfold sel. rewrite filter_In, MI'. cbn [fst snd]. rewrite !andb_true_iff, !memb_In, negb_true_iff, Nat.eqb_neq. split; [tauto|]. intros (H1 & H2 & H3). subst y. auto 7. }
  assert (NS : NoDup (map snd (map (fun e : nat * nat => (snd e, fst e)) sel))).
  { rewrite map_map. cbn [snd]. unfold sel. clear - ND'. induction m' as [|e l IH]; cbn [filter map] in *; [constructor|]. inversion ND' as [|? ? N1 N2]; subst. destruct (memb (fst e) os && memb (snd e) os && negb (fst e =? snd e)); auto. cbn [map]. constructor; auto.
    intros I. apply N1. apply in_map_iff in I. destruct I as (e' & <- & I). apply filter_In in I. apply in_map. tauto. }
  destruct (group_ok NS) as (G1 & G2 & G3). set (gr := group_by (map (fun e : nat * nat => (snd e, fst e)) sel)) in *. set (deltas := map (fun e : nat * list nat => fst e :: snd e) gr).
  assert (SW : forall k v, In (k, v) (map (fun e : nat * nat => (snd e, fst e)) sel) <-> In v os /\ k = rm (r v) /\ v <> k).
  { intros k v. rewrite <- (SI v k). rewrite in_map_iff. split; [intros ((x, y) & E & H); cbn [fst snd] in E; inversion E; subst; auto|]. intros H. exists (v, k). auto. }
  assert (DI : forall xs, In xs deltas -> exists k vs, xs = k :: vs /\ vs <> [] /\ NoDup (k :: vs) /\ In k os /\ forall x, In x vs <-> In x os /\ k = rm (r x) /\ x <> k).
  { intros xs Hx. apply in_map_iff in Hx. destruct Hx as ((k, vs) & <- & H). cbn [fst snd]. destruct (G2 k vs H) as (E1 & E2 & E3). exists k, vs. split; auto. split; auto.
    assert (E4 : forall x, In x vs <-> In x os /\ k = rm (r x) /\ x <> k) by (intros x; rewrite E3, SW; tauto). split; [constructor; auto; intros I; apply E4 in I; tauto|]. split; auto.
    destruct vs as [|x vs]; [congruence|]. destruct (proj1 (E4 x) (or_introl eq_refl)) as (Ho & -> & _). auto. }
  assert (DJ : forall o, In o os -> rm (r o) <> o -> exists vs, In (rm (r o) :: vs) deltas /\ In o vs).
  { intros o Ho Ne. destruct (G3 (rm (r o)) o) as (vs & Hv); [apply SW; auto|]. exists vs. split; [apply in_map_iff; exists (rm (r o), vs); auto|]. apply (G2 _ _ Hv). apply SW. auto. }
  assert (DO : forall x, In x (concat deltas) -> In x os).
  { intros x Hx. apply in_concat in Hx. destruct Hx as (xs & Hx & Hi). destruct (DI xs Hx) as (k & vs & -> & _ & _ & Hk & Hvs). destruct Hi as [<-|Hi]; auto. apply Hvs in Hi. tauto. }
  set (D := map (fun xs => get_delta F (length xs)) deltas). exists (bs ++ D), (map (map rm) us ++ deltas). split; [reflexivity|].
  assert (Lb : length bs = length us) by (apply forall2_len in Sb; auto).
  assert (CT : forall x, In x (concat (map (map rm) us)) <-> exists z, In z (concat us) /\ x = rm z).
  { intros x. rewrite <- concat_map, in_map_iff. split; intros (z & H1 & H2); exists z; auto. }
  assert (CTS : forall x, In x (concat (map (map rm) us ++ deltas)) <-> (exists z, In z (concat us) /\ x = rm z) \/ In x (concat deltas)) by (intros x; rewrite concat_app, in_app_iff, CT; tauto).
  split; [|split; [|split; [|split; [|split]]]].
  - apply Forall_app. split; auto. apply Forall_forall. intros a Ha. apply in_map_iff in Ha. destruct Ha as (xs & <- & Hx). destruct (DI xs Hx) as (k & vs & -> & _). apply delta_shaped. simpl. lia.
  - apply Forall2_app.
    + clear - Sb. induction Sb as [|b u bs us Hb Sb IH]; cbn [map]; constructor; auto. rewrite Hb, !map_map. auto.
    + unfold D. clear. induction deltas as [|xs l IH]; cbn [map]; constructor; auto. unfold get_delta. cbn [shape]. symmetry. apply map_two.
  - intros xs Hx. apply in_app_iff in Hx. destruct Hx as [Hx|Hx].
    + apply in_map_iff in Hx. destruct Hx as (u & <- & Hu). apply nodup_map_in; auto. intros x y H1 H2 E.
      destruct (UI x) as (x' & X1 & X2); [apply in_concat; eauto|]. destruct (UI y) as (y' & Y1 & Y2); [apply in_concat; eauto|]. subst x y. rewrite <- (RR x' X1), <- (RR y' Y1), E. auto.
    + destruct (DI xs Hx) as (k & vs & -> & _ & N & _). auto.
  - intros o Ho. apply CTS. destruct (Nat.eq_dec (rm (r o)) o) as [E|Ne].
    + destruct (HV (HO Ho)) as [H|(o1 & o2 & H1 & H2 & Ne & E1 & E2)]; [left; exists (r o); auto|]. right.
      destruct (Nat.eq_dec o1 o) as [->|N1].
      * destruct (DJ o2 H2) as (vs & Hv & _); [rewrite E2, E; auto|]. rewrite E2, E in Hv. apply in_concat. eexists. split; [exact Hv|left; auto].
      * destruct (DJ o1 H1) as (vs & Hv & _); [rewrite E1, E; auto|]. rewrite E1, E in Hv. apply in_concat. eexists. split; [exact Hv|left; auto].
    + right. destruct (DJ o Ho Ne) as (vs & Hv & Hi). apply in_concat. eexists. split; [exact Hv|right; auto].
  - intros TW x Hx No. apply CTS in Hx. destruct Hx as [(z & Hz & ->)|Hx]; [|apply DO in Hx; tauto]. destruct (UI z Hz) as (y & Hy & ->). destruct (RN y Hy No) as [E X].
    destruct (TW y Hy) as (t1 & t2 & Ne & T1 & T2); [intros o Ho E2; apply (X o Ho); auto|]. exists t1, t2. split; auto.
    assert (TR : forall t, has us t (r y) -> has (map (map rm) us ++ deltas) t (rm (r y))).
    { intros t (ys & Y1 & Y2). exists (map rm ys). split; [|apply in_map; auto]. rewrite nth_error_app1 by (rewrite map_length; apply nth_error_Some; rewrite Y1; discriminate). rewrite nth_error_map, Y1. auto. }
    split; apply TR; auto.
  - intros ks ks' V Nk Nk' Ik Ik' B. pose proof (@has_concat) as HC.
    assert (IK : forall x, In x ks' <-> (exists t y, has ts t y /\ x = r y) /\ forall o, In o os -> x <> r o).
    { intros x. rewrite Ik', CTS. split.
      - intros [[(z & Hz & ->)|Hx] No]; [|apply DO in Hx; tauto]. destruct (UI z Hz) as (y & Hy & ->). destruct (RN y Hy No) as [E X]. rewrite E. split; auto. apply HC in Hy. destruct Hy as (t & Hy). eauto.
      - intros [(t & y & Hy & ->) X]. assert (Iy : In y (concat ts)) by (apply HC; eauto). destruct (RM (r y)) as [(H1 & H2 & _)|[E H]].
        + apply MI in H2. destruct H2 as [_ H2]. destruct (X _ H1 H2).
        + assert (NO : ~ In (r y) os). { intros Ho. apply (X (r y) Ho). symmetry. apply RF. auto. }
          split; auto. left. exists (r y). split; auto. destruct (HV Iy) as [|(o1 & _ & H1 & _ & _ & E1 & _)]; auto. destruct (X o1 H1). auto. }
    assert (IR : in_range two os V) by (intros x _; apply B).
    destruct (@network_sum K A (n_eqb F) two arrays ts bs us m os ks ks' V SR (num_eqb _ NF) S W HN HD Nk Nk') as [SUM ZER]; auto; [intros o Ho; apply HC; auto|intros x; rewrite Ik, HC; tauto|].
    transitivity (mul A (network A D deltas V) (so ks' (network A bs us) (fun x => V (rm x)))).
    { transitivity (so ks' (fun w => mul A (network A D deltas w) (network A bs (map (map rm) us) w)) V).
      - apply so_ext. intros w _ _. rewrite (network_app NF) by (rewrite map_length; auto). ring.
      - rewrite (@so_mul_l K A SR two ks' (network A bs (map (map rm) us)) (network A D deltas) (concat deltas)).
        + f_equal. rewrite <- (@so_through rm (network A bs us) (concat us)).
          * apply so_ext. intros w _ _. apply network_map. auto.
          * apply network_depends. auto.
          * intros k Hk x Hx. pose proof Hk as Hk'. apply Ik' in Hk'. destruct Hk' as [_ No]. destruct (UI x Hx) as (y & Hy & ->). split.
            -- intros E. destruct (RN y Hy) as [E2 _]; congruence.
            -- intros E. apply IK in Hk. destruct Hk as [_ X]. destruct (RM (r y)) as [(H1 & H2 & _)|[E2 _]]; [|congruence]. exfalso. apply MI in H2. destruct H2 as [_ H2]. apply (X _ H1). congruence.
        + apply network_depends. unfold D. apply map_length.
        + intros x Hx Hk. apply DO in Hx. apply Ik' in Hk. tauto. }
    assert (DEC : (forall o, In o os -> V o = V (rm (r o))) \/ exists o, In o os /\ V o <> V (rm (r o))).
    { generalize os as l0. induction l0 as [|o l IH]; [left; intros ? []|]. destruct (Nat.eq_dec (V o) (V (rm (r o)))) as [E|E]; [|right; exists o; split; [left|]; auto].
      destruct IH as [IH|(o' & H1 & H2)]; [|right; exists o'; split; [right|]; auto]. left. intros x [<-|Hx]; auto. }
    destruct DEC as [EQV|(o & Ho & Ne)].
    + unfold D. rewrite deltas_one; auto.
      * rewrite (SUM (fun x => V (rm x))); [ring|]. intros o Ho. symmetry. auto.
      * intros xs Hx. destruct (DI xs Hx) as (k & vs & -> & _ & _ & Hk & Hvs). exists k, vs. split; auto. intros x Hxx. apply Hvs in Hxx. destruct Hxx as (H1 & -> & _). auto.
    + assert (No : rm (r o) <> o) by congruence. destruct (DJ o Ho No) as (vs & Hv & Hi). unfold D. rewrite (@deltas_zero deltas V (rm (r o)) vs o); auto.
      * rewrite (ZER o (rm (r o))); auto; [ring|]. symmetry. apply RR. auto.
      * intros xs Hx. destruct (DI xs Hx) as (? & ? & -> & _). discriminate.
Qed.
End Delta.
