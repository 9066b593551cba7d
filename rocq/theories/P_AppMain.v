(** Results of an optimization, continued. *)
From Coq Require Import Permutation Sorted.
From Verif Require Import P_Base P_Opt P_PyMain.
From Verif Require Import M_Base M_Bitset M_Tree M_CTree M_Cost M_Opt M_InfMem M_FinWidth M_Path M_PyTree M_PyNodes M_Random M_App S_Tree S_Opt S_FinWidth S_Path S_PyTree S_Random S_Network S_App.
From Verif Require Import P_Bitset P_Path P_Split P_PathMain P_Canon P_Shape P_TreeValid P_InfMem P_InfMemMain P_InfMemFinal P_FinWidth P_FinWidthFinal P_RandMain P_PyBuild P_PyRun P_PyPath P_PyFinal P_PyNodes P_AppNames P_AppMake P_AppTree P_App.
From Verif Require Import M_Path M_PyTree.
Set Implicit Arguments.
Unset Strict Implicit.
Local Notation core := M_PyTree.core.
Local Notation hasx := S_Opt.has.
Local Notation has := S_Random.has.

Section Net.
Variables (ts : list (list nat)) (d : pydims) (out sparse : list nat) (np : option Z) (dim : nat -> N).
Local Notation costs := (cost_is ts out sparse np dim).

(** * The cost is a function *)
Lemma size_perm l l' : Permutation l l' -> size dim l = size dim l'.
Proof. unfold size. induction 1; cbn [fold_right]; try congruence. ring. Qed.
Lemma perm_filter (f : nat -> bool) l l' : Permutation l l' -> Permutation (filter f l) (filter f l').
Proof.
  induction 1; simpl; auto.
  - destruct (f x); auto.
  - destruct (f x); destruct (f y); auto. apply perm_swap.
  - eapply perm_trans; eauto.
Qed.
Lemma lists_perm l l' (P : nat -> Prop) : lists l P -> lists l' P -> Permutation l l'.
Proof. intros (A & B) (A' & B'). apply NoDup_Permutation; auto. intros x. rewrite B, B'. tauto. Qed.
Lemma values_perm l l' : Permutation l l' -> values sparse np dim l = values sparse np dim l'.
Proof. intros H. unfold values. f_equal; [|f_equal]; apply size_perm, perm_filter; auto. Qed.
Lemma cost_fun sl cs k : costs sl cs k -> forall k', costs sl cs k' -> k = k'.
Proof.
  induction 1 as [|a b cs l k L H IH]; intros k' H'; inversion H' as [|a' b' cs' l' k1 L' H1]; subst; auto.
  rewrite (IH _ H1), (values_perm (lists_perm L L')). auto.
Qed.
Lemma cost_ext sl sl' cs k : (forall x, In x sl <-> In x sl') -> costs sl cs k -> costs sl' cs k.
Proof. intros E. induction 1 as [|a b cs l k L H IH]; constructor; auto. destruct L as (A & B). split; auto. intros x. rewrite B, E. tauto. Qed.

Hypothesis HK : network_ok ts d dim sparse np.

Lemma log_filter lg (f : nat -> bool) l : log_like lg -> (forall x, In x l -> dim x <> 0%N) ->
  (log_size dim lg (filter f l) <= log_size dim lg l)%Z.
Proof.
  intros Hl. unfold log_size. induction l as [|x l IH]; intros Hd; [simpl; lia|]. cbn [filter]. assert (0 <= lg (dim x))%Z.
  { apply Hl. specialize (Hd x (or_introl eq_refl)). lia. }
  specialize (IH (fun y H => Hd y (or_intror H))). destruct (f x); cbn [fold_right]; lia.
Qed.
Lemma filter_swap (f h : nat -> bool) l : filter f (filter h l) = filter h (filter f l).
Proof. induction l as [|x l IH]; auto. simpl. destruct (h x) eqn:E; destruct (f x) eqn:G; simpl; rewrite ?E, ?G, IH; auto. Qed.

Lemma fits_more lg mx sl sl' k : log_like lg -> (forall x, In x sl -> In x sl') ->
  fits ts out sparse np dim lg mx sl k -> fits ts out sparse np dim lg mx sl' k.
Proof.
  intros Hl Hi (l & (N & L) & W). exists (filter (fun x => negb (memb x sl')) l). split; [split|].
  - apply NoDup_filter; auto.
  - intros x. rewrite filter_In, L, negb_true_iff, memb_nIn. split; [tauto|]. intros (A & B). split; auto.
  - eapply Z.le_trans; [|exact W]. unfold width. rewrite !(filter_swap _ (fun x => negb (memb x sl'))).
    assert (Hd : forall x, In x l -> dim x <> 0%N). { intros x Hx. apply L in Hx. destruct Hx as (((t & _ & Ht) & _) & _). apply (nk_dims HK Ht). }
    assert (A : forall f, (log_size dim lg (filter (fun x => negb (memb x sl')) (filter f l)) <= log_size dim lg (filter f l))%Z).
    { intros f. apply log_filter; auto. intros x Hx. apply filter_In in Hx. apply Hd, Hx. }
    pose proof (A (dense_index sparse)). pose proof (A (sparse_index sparse)). lia.
Qed.

(** * Finite width *)
Lemma reduce_in ls : ls <> [] -> exists s, reduce_or ls = Ok s /\ (forall x, In x s <-> exists k, In k ls /\ In x k).
Proof.
  destruct ls as [|k ls]; [congruence|]. intros _. simpl. eexists. split; [reflexivity|]. revert k. induction ls as [|k' ls IH]; intros k x; simpl.
  - split; [intros H; exists k; auto|]. intros (k0 & [->|[]] & H). auto.
  - rewrite IH. split.
    + intros (k0 & [<-|H0] & H); [|exists k0; auto]. rewrite unique_in in H. apply in_app_or in H. destruct H; [exists k|exists k']; auto.
    + intros (k0 & [<-|[<-|H0]] & H); [exists (unique (k ++ k'))|exists (unique (k ++ k'))|exists k0]; split; auto; apply unique_in; apply in_or_app; auto.
Qed.

Lemma fw_core_ok (P R B : Type) (g : prng P) pick lg mx (fr0 : frand R) (rule : B -> frand R) betas n_steps u (r : P) (r0 : R) stop :
  prng_ok g -> pick_ok pick -> log_like lg -> shuffles fr0 -> (forall b, shuffles (rule b)) -> (0 <= mx)%Z -> 0 < u ->
  ts <> [] -> sparse = [] \/ one_component ts ->
  exists res comps extra zs, fw_core ts d out sparse np g pick lg mx fr0 rule betas n_steps u r r0 stop = Ok res /\
    component_paths ts (fr_paths res) comps /\
    completes (length ts) (fr_path res) (concat (map fst comps)) extra /\
    priced ts out sparse np dim comps (fr_dslices res) zs /\
    fr_cost res = fold_right Z.add 0%Z zs /\ ((exists t x, has ts t x) -> fr_costs res = zs) /\
    (forall x, In x (fr_slices res) <-> exists sl, In sl (fr_dslices res) /\ In x sl) /\
    (forall k, In k comps -> fst k <> [] ->
       (forall c, In c (fst k) -> fits ts out sparse np dim lg mx (fr_slices res) (tensors c)) /\
       (forall v, In v (tensors (snd k)) -> fits ts out sparse np dim lg mx (fr_slices res) [v])).
Proof.
  intros Hg Hp Hl Hf0 Hfr Hmx Hu Hts Hs. destruct (random_ok ts r Hg Hp) as (ps & comps & Eps & F & Hcov & Hdis). unfold fw_core. rewrite Eps. cbn [bind].
  assert (HCP : component_paths ts ps comps) by (split; auto).
  destruct (@each_ok (Z * path * list nat) (fun k => fw_component ts d out sparse np lg mx fr0 rule betas n_steps u r0 (stop k)) _ _
    (fun k x => exists k', contracts_component ts (snd (fst x)) (fst k') (snd k') /\ (forall v, In v (tensors (snd k')) <-> In v (tensors (snd k))) /\
       costs (snd x) (fst k') (fst (fst x)) /\ (forall y, In y (snd x) -> exists v, In v (tensors (snd k)) /\ has ts v y) /\
       (fst k' <> [] -> (forall c, In c (fst k') -> fits ts out sparse np dim lg mx (snd x) (tensors c)) /\
                  (forall v, In v (tensors (snd k')) -> fits ts out sparse np dim lg mx (snd x) [v]))) ps comps F) with (k := 0) as (xs & Exs & Fx).
  { intros k p c Hc _. destruct (@fw_component_ok ts d out sparse np dim HK p (fst c) (snd c) Hc (sparse_ok HK Hc Hs) R B lg mx fr0 rule betas n_steps u r0 (stop k) Hl Hf0 Hfr Hmx Hu)
      as (z & q & sl & cs' & root' & E & A1 & A2 & A3 & A4 & A5).
    exists (z, q, sl). split; auto. exists (cs', root'). auto. }
  rewrite Exs. cbn [bind].
  assert (G : exists comps', Forall2 (fun q k => contracts_component ts q (fst k) (snd k)) (map (fun x => snd (fst x)) xs) comps' /\
     Forall2 (fun k k' => forall v, In v (tensors (snd k')) <-> In v (tensors (snd k))) comps comps' /\
     priced ts out sparse np dim comps' (map snd xs) (map (fun x => fst (fst x)) xs) /\
     forall k, In k comps' -> fst k <> [] -> exists sl, In sl (map snd xs) /\ (forall c, In c (fst k) -> fits ts out sparse np dim lg mx sl (tensors c)) /\
                  (forall v, In v (tensors (snd k)) -> fits ts out sparse np dim lg mx sl [v])).
  { clear -Fx. induction Fx as [|k x ks xs H F IH]; [exists []; simpl; do 3 (split; [constructor|]); intros k []|].
    destruct H as (k' & A1 & A2 & A3 & A4 & A5). destruct IH as (comps' & B1 & B2 & B3 & B4).
    exists (k' :: comps'). simpl. do 2 (split; [constructor; auto|]). split; [constructor; auto; intros y Hy; destruct (A4 y Hy) as (v & Hv & Hv'); exists v; split; auto; apply A2; auto|].
    intros k0 [<-|H0] Hne; [exists (snd x); split; auto|]. destruct (B4 k0 H0 Hne) as (sl & X & Y). eauto. }
  destruct G as (comps' & G1 & G2 & G3 & G4).
  pose proof (paths_same HCP G1 G2) as HCP'.
  destruct xs as [|x xs].
  - inversion Fx; subst. assert (Hn : forall t x, ~ has ts t x). { intros t x H. destruct (Hcov t x H) as (a & k & E & _). destruct a; discriminate. }
    pose proof (no_index_paths Hn) as HCN. destruct (merge_comps HCN) as (p & extra & Ep & Hcp). rewrite Ep. cbn [bind].
    assert (E0 : concat (map fst (map (fun t : nat => (@nil term, S_Path.T t)) (seq 0 (length ts)))) = []).
    { rewrite map_map. simpl. generalize (seq 0 (length ts)). intros l. induction l; auto. }
    destruct (@reduce_in (repeat [] (length ts))) as (s & Es & Hin). { destruct ts; [congruence|discriminate]. } rewrite Es. cbn [bind].
    eexists. exists (map (fun t => ([], S_Path.T t)) (seq 0 (length ts))), extra, (repeat 0%Z (length ts)). split; [reflexivity|].
    cbn [fr_paths fr_path fr_cost fr_costs fr_slices fr_dslices]. rewrite E0 in *.
    split; auto. split; auto.
    split. { generalize 0 at 1 as s0. generalize (length ts) as m. induction m; intros s0; simpl; constructor; auto; [intros y []|constructor]. }
    split. { simpl. generalize (length ts) as m. induction m; simpl; auto. }
    split; [intros (t & x & H); exfalso; eapply Hn; eauto|]. split; auto.
    intros k Hk Hne. apply in_map_iff in Hk. destruct Hk as (t & <- & _). simpl in Hne. congruence.
  - destruct (merge_comps HCP') as (p & extra & Ep & Hcp). rewrite Ep. cbn [bind].
    destruct (@reduce_in (map snd (x :: xs))) as (s & Es & Hin); [discriminate|]. rewrite Es. cbn [bind].
    eexists. exists comps', extra, (map (fun x => fst (fst x)) (x :: xs)). split; [reflexivity|]. cbn [fr_paths fr_path fr_cost fr_costs fr_slices fr_dslices]. split; auto. split; auto.
    split; auto. split; auto. split; auto. split; auto. intros k Hk Hne. destruct (G4 k Hk Hne) as (sl & Hsl & A1 & A2).
    split; [intros c Hc|intros v Hv]; (apply (@fits_more lg mx sl); [auto|intros y Hy; apply Hin; exists sl; auto|auto]).
Qed.

(** * Connected networks *)
Lemma conn_has t u : connected ts t u -> t <> u -> exists x, has ts u x.
Proof. intros H. destruct H; [congruence|eauto]. Qed.

Lemma rest_one n p cs rest root : performs n p cs rest -> In root rest -> (forall t, t < n -> In t (tensors root)) -> rest = [root] /\ length cs = n - 1.
Proof.
  intros H Hin Hall. destruct (@perform_nodup p (map S_Path.T (seq 0 n)) cs rest) as (X1 & X2); auto. { rewrite alltens_start. apply seq_NoDup. }
  rewrite alltens_start in X2.
  assert (Hl : length rest = 1).
  { destruct (in_split _ _ Hin) as (l1 & l2 & E). subst rest.
    assert (Hno : forall a, In a (l1 ++ l2) -> False).
    { intros a Ha. assert (Hperm : Permutation (l1 ++ root :: l2) (root :: l1 ++ l2)) by (symmetry; apply Permutation_middle).
      pose proof (alltens_perm Hperm) as Hp2. rewrite Hp2 in X1, X2. cbn [alltens flat_map] in X1, X2. apply P_Path.NoDup_app in X1. destruct X1 as (_ & _ & X).
      assert (Hf : In (first_tensor a) (alltens (l1 ++ l2))) by (apply in_flat_map; exists a; split; auto; apply first_in).
      apply (X (first_tensor a)); auto. apply Hall. assert (Hs : In (first_tensor a) (seq 0 n)). { rewrite X2. apply in_or_app. auto. }
      apply in_seq in Hs. lia. }
    destruct l1; [destruct l2|]; simpl; auto; exfalso; eapply Hno; simpl; eauto. }
  destruct (perform_length H) as (A & B). rewrite map_length, seq_length in A.
  destruct rest as [|a [|]]; simpl in Hl; try lia. destruct Hin as [->|[]]. split; auto. simpl in A. lia.
Qed.

Lemma root_bound p cs root : contracts_component ts p cs root -> first_tensor root < length ts.
Proof.
  intros ((rest & H & Hin) & _). destruct (@perform_nodup p (map S_Path.T (seq 0 (length ts))) cs rest) as (X1 & X2); auto. { rewrite alltens_start. apply seq_NoDup. }
  rewrite alltens_start in X2. assert (Hs : In (first_tensor root) (seq 0 (length ts))). { rewrite X2. apply in_flat_map. exists root. split; auto. apply first_in. }
  apply in_seq in Hs. lia.
Qed.

(** In a connected network of at least two tensors there is one component. *)
Lemma one_comp ps comps : component_paths ts ps comps -> all_connected ts -> 2 <= length ts ->
  exists q k, ps = [q] /\ comps = [k] /\ contracts_component ts q (fst k) (snd k) /\ (forall t, t < length ts -> In t (tensors (snd k))) /\ length (fst k) = length ts - 1.
Proof.
  intros (F & Hcov & Hdis) HA H2.
  assert (Hh : exists x, has ts 0 x). { apply (@conn_has 1 0); auto. apply HA; lia. } destruct Hh as (x & Hx).
  assert (HF : forall a k, nth_error comps a = Some k -> forall t, t < length ts -> In t (tensors (snd k))).
  { intros a k Ek t Ht. destruct (Forall2_nth1 F Ek) as (q & _ & Hq). pose proof (root_bound Hq) as Hb. destruct Hq as (_ & _ & _ & Hc).
    apply (Hc (first_tensor (snd k)) t); [apply first_in|]. apply HA; auto. }
  destruct (Hcov 0 x Hx) as (a & k & Ek & Hk).
  destruct comps as [|k0 [|k1 comps]]; [destruct a; discriminate| |exfalso].
  - inversion F as [|q k' ps' ks' Hq F']; subst. inversion F'; subst. exists q, k0. split; auto. split; auto. split; auto. split; [apply (HF 0); auto|].
    destruct Hq as ((rest & H & Hin) & _). apply (rest_one H Hin). apply (HF 0); auto.
  - assert (0 = 1); [|lia]. apply (Hdis 0 1 k0 k1 0); auto; [apply (HF 0 k0)|apply (HF 1 k1)]; auto; lia.
Qed.

Lemma completes_one n p cs extra : completes n p cs extra -> 0 < n -> length cs = n - 1 -> exists root, performs n p cs [root].
Proof.
  intros (rest & H & Hl) Hn Lc. destruct (Hl Hn) as (Lp & t & ->). destruct (perform_length H) as (A & B). rewrite app_length in B.
  assert (extra = []) as -> by (apply length_zero_iff_nil; lia). rewrite app_nil_r in H. eauto.
Qed.

Lemma all_one : all_connected ts -> one_component ts.
Proof. intros H t u x y (xs & E & _) (ys & E' & _). apply H; eapply nth_error_lt; eauto. Qed.

(** Also with a single tensor. *)
Lemma connected_path ps comps p extra : component_paths ts ps comps -> completes (length ts) p (concat (map fst comps)) extra ->
  all_connected ts -> ts <> [] -> exists root, performs (length ts) p (concat (map fst comps)) [root].
Proof.
  intros HCP Hc HA Hne. assert (Hn : 0 < length ts) by (destruct ts; [congruence|simpl; lia]). destruct (Nat.eq_dec (length ts) 1) as [E1|E1].
  - eapply completes_one; eauto. destruct Hc as (rest & H & Hl). destruct (Hl Hn) as (Lp & _). destruct (perform_length H) as (_ & B). rewrite app_length in B. lia.
  - destruct (one_comp HCP HA ltac:(lia)) as (q & k & -> & -> & _ & _ & Hk). eapply completes_one; eauto. simpl. rewrite app_nil_r. auto.
Qed.

Lemma comps_share ps comps : component_paths ts ps comps -> forall c, In c (concat (map fst comps)) -> exists a b, c = C a b /\ share ts (tensors a) (tensors b).
Proof.
  intros (F & _) c Hc. apply in_concat in Hc. destruct Hc as (cs & Hcs & Hc). apply in_map_iff in Hcs. destruct Hcs as (k & <- & Hk).
  apply In_nth_error in Hk. destruct Hk as (i & Ei). destruct (Forall2_nth1 F Ei) as (q & _ & _ & _ & Hs & _). apply Hs. auto.
Qed.

Lemma priced_zero comps sls zs : priced ts out sparse np dim comps sls zs -> concat (map fst comps) = [] -> fold_right Z.add 0%Z zs = 0%Z.
Proof.
  induction 1 as [|k ks sl sls z zs Hs Hc Hp IH]; intros E; auto. simpl in E. apply app_eq_nil in E. destruct E as (E1 & E2). rewrite E1 in Hc.
  inversion Hc; subst. simpl. rewrite IH; auto.
Qed.

Lemma priced_single k sls zs : priced ts out sparse np dim [k] sls zs -> exists sl z, sls = [sl] /\ zs = [z] /\ costs sl (fst k) z.
Proof. intros H. inversion H as [|k' ks sl sls' z zs' Hs Hc Hp]; subst. inversion Hp; subst. eauto. Qed.

Lemma im_connected (P R B : Type) (g : prng P) pick (rule : B -> rand R) betas n_steps (r : P) (r0 : R) stop :
  prng_ok g -> pick_ok pick -> all_connected ts -> ts <> [] ->
  exists res cs root, im_core ts d out sparse np g pick rule betas n_steps r r0 stop = Ok res /\
    performs (length ts) (ir_path res) cs [root] /\ costs [] cs (ir_cost res) /\
    (forall c, In c cs -> exists a b, c = C a b /\ share ts (tensors a) (tensors b)).
Proof.
  intros Hg Hp HA Hne. destruct (@im_core_ok ts d out sparse np dim HK P R B g pick rule betas n_steps r r0 stop Hg Hp (or_intror (all_one HA)))
    as (res & comps & extra & E & HC & Hc & Hk & _).
  destruct (connected_path HC Hc HA Hne) as (root & Hr). exists res, (concat (map fst comps)), root. split; auto. split; auto. split; auto. apply (comps_share HC).
Qed.

Lemma fw_connected (P R B : Type) (g : prng P) pick lg mx (fr0 : frand R) (rule : B -> frand R) betas n_steps u (r : P) (r0 : R) stop :
  prng_ok g -> pick_ok pick -> log_like lg -> shuffles fr0 -> (forall b, shuffles (rule b)) -> (0 <= mx)%Z -> 0 < u ->
  all_connected ts -> ts <> [] ->
  exists res cs root, fw_core ts d out sparse np g pick lg mx fr0 rule betas n_steps u r r0 stop = Ok res /\
    performs (length ts) (fr_path res) cs [root] /\ costs (fr_slices res) cs (fr_cost res) /\
    (forall c, In c cs -> exists a b, c = C a b /\ share ts (tensors a) (tensors b)) /\
    (forall x, In x (fr_slices res) -> exists t, has ts t x) /\
    (2 <= length ts -> (forall c, In c cs -> fits ts out sparse np dim lg mx (fr_slices res) (tensors c)) /\
                       (forall t, t < length ts -> fits ts out sparse np dim lg mx (fr_slices res) [t])).
Proof.
  intros Hg Hp Hl Hf0 Hfr Hmx Hu HA Hne.
  destruct (@fw_core_ok P R B g pick lg mx fr0 rule betas n_steps u r r0 stop Hg Hp Hl Hf0 Hfr Hmx Hu Hne (or_intror (all_one HA)))
    as (res & comps & extra & zs & E & HC & Hc & Hk & Hz & _ & Hsl & Hfit).
  destruct (connected_path HC Hc HA Hne) as (root & Hr). exists res, (concat (map fst comps)), root. split; auto. split; auto.
  assert (Hh : forall x, In x (fr_slices res) -> exists t, has ts t x).
  { intros x Hx. apply Hsl in Hx. destruct Hx as (sl & Hin & Hx). clear -Hk Hin Hx. induction Hk as [|k ks sl' sls z zs Hs Hc Hp IH]; [destruct Hin|].
    destruct Hin as [->|Hin]; auto. destruct (Hs x Hx) as (t & _ & Ht). eauto. }
  destruct (le_lt_dec 2 (length ts)) as [H2|H2].
  - destruct (one_comp HC HA H2) as (q & k & _ & Ek & Hq & Hall & Lk). split; [|split; [apply (comps_share HC)|]].
    + rewrite Ek in *. destruct (priced_single Hk) as (sl & z & Es & Ez & Hcost). rewrite Hz, Ez. simpl. rewrite app_nil_r, Z.add_0_r.
      eapply cost_ext; [|exact Hcost]. intros x. rewrite Hsl, Es. split; [intros Hy; exists sl; simpl; auto|]. intros (s & [<-|[]] & Hy). auto.
    + split; auto. intros _. assert (Hne' : fst k <> []) by (intros E0; rewrite E0 in Lk; simpl in Lk; lia).
      destruct (Hfit k) as (A1 & A2); auto. { rewrite Ek. left. auto. } rewrite Ek. simpl. rewrite app_nil_r. split; auto.
  - assert (E0 : concat (map fst comps) = []). { apply length_zero_iff_nil. destruct (perform_length Hr) as (A1 & B1). rewrite map_length, seq_length in A1. simpl in A1. lia. }
    split; [rewrite E0, Hz, (priced_zero Hk E0); constructor|]. split; [apply (comps_share HC)|]. split; auto. lia.
Qed.
End Net.

(** * All runs *)
Section Sorted.
Variables (A : Type) (cost : A -> Z).
Lemma insert_by_perm x l : Permutation (insert_by cost x l) (x :: l).
Proof. induction l as [|y l IH]; simpl; auto. destruct (cost y <? cost x)%Z; auto. rewrite IH. apply perm_swap. Qed.
Lemma sorted_by_perm l : Permutation (sorted_by cost l) l.
Proof. induction l as [|x l IH]; simpl; auto. unfold sorted_by in *. simpl. rewrite insert_by_perm, IH. auto. Qed.
Lemma insert_by_sorted x l : StronglySorted (fun a b => (cost a <= cost b)%Z) l -> StronglySorted (fun a b => (cost a <= cost b)%Z) (insert_by cost x l).
Proof.
  induction l as [|y l IH]; intros H; simpl; [repeat constructor|]. inversion H as [|y' l' H1 H2]; subst. destruct (Z.ltb_spec (cost y) (cost x)) as [L|L].
  - constructor; auto. rewrite Forall_forall in *. intros z Hz. apply (Permutation_in z (insert_by_perm x l)) in Hz. destruct Hz as [<-|Hz]; [lia|auto].
  - constructor; auto. constructor; auto. rewrite Forall_forall in *. intros z Hz. specialize (H2 z Hz). simpl in H2. lia.
Qed.
Lemma sorted_by_sorted l : StronglySorted (fun a b => (cost a <= cost b)%Z) (sorted_by cost l).
Proof. induction l as [|x l IH]; simpl; [constructor|]. apply insert_by_sorted. auto. Qed.
Lemma insert_by_filter x l k : filter (fun a => (cost a =? k)%Z) (insert_by cost x l) = filter (fun a => (cost a =? k)%Z) (x :: l).
Proof.
  induction l as [|y l IH]; auto. simpl insert_by. destruct (Z.ltb_spec (cost y) (cost x)) as [L|L]; auto.
  cbn [filter] in *. rewrite IH. destruct (Z.eqb_spec (cost y) k); destruct (Z.eqb_spec (cost x) k); auto. lia.
Qed.
Lemma sorted_by_stable l k : filter (fun a => (cost a =? k)%Z) (sorted_by cost l) = filter (fun a => (cost a =? k)%Z) l.
Proof. induction l as [|x l IH]; auto. unfold sorted_by in *. simpl fold_right. rewrite insert_by_filter. cbn [filter]. rewrite IH. auto. Qed.
End Sorted.

Lemma mapM_forall2 (A B : Type) (f : A -> res B) l : (forall a, In a l -> exists b, f a = Ok b) -> exists k, mapM f l = Ok k /\ Forall2 (fun a b => f a = Ok b) l k.
Proof.
  induction l as [|a l IH]; intros H; [exists []; auto|]. destruct (H a (or_introl eq_refl)) as (b & Eb). destruct IH as (k & Ek & F); [intros; apply H; right; auto|].
  exists (b :: k). simpl. rewrite Eb. cbn [bind]. rewrite Ek. auto.
Qed.

Section Optimize.
Variables (ts : list (list nat)) (d : pydims) (out sparse : list nat) (np : option Z) (dim : nat -> N).
Hypothesis HK : network_ok ts d dim sparse np.

Lemma check_model_ok : check_model sparse np = Ok tt.
Proof.
  unfold check_model. destruct np as [k|] eqn:E.
  - rewrite (proj2 (Z.ltb_ge _ _)); auto. apply (nk_projs HK). auto.
  - destruct sparse eqn:Es; auto. exfalso. apply (nk_given HK); auto. discriminate.
Qed.
Lemma check_steps_ok n : (forall k, n = Some k -> (0 < k)%Z) -> check_steps n = Ok (option_map Z.to_nat n).
Proof. destruct n as [k|]; intros H; simpl; auto. rewrite (proj2 (Z.leb_gt _ _)); auto. Qed.

Lemma im_optimize_ok (P R B : Type) (g : prng P) pick (rule : B -> rand R) betas n_steps (runs : list (P * R * (nat -> nat))) :
  prng_ok g -> pick_ok pick -> sparse = [] \/ one_component ts -> (forall k, n_steps = Some k -> (0 < k)%Z) -> runs <> [] ->
  exists rs rs0, im_optimize ts d out sparse np g pick rule betas n_steps runs = Ok rs /\
    Forall2 (fun x r => im_core ts d out sparse np g pick rule betas (option_map Z.to_nat n_steps) (fst (fst x)) (snd (fst x)) (snd x) = Ok r) runs rs0 /\
    Permutation rs rs0 /\ StronglySorted (fun a b => (ir_cost a <= ir_cost b)%Z) rs /\
    forall k, filter (fun a => (ir_cost a =? k)%Z) rs = filter (fun a => (ir_cost a =? k)%Z) rs0.
Proof.
  intros Hg Hp Hs Hn Hr. unfold im_optimize. rewrite (check_steps_ok Hn). cbn [bind]. rewrite check_model_ok. cbn [bind].
  destruct (Nat.eqb_spec (length runs) 0) as [E|_]; [apply length_zero_iff_nil in E; congruence|].
  destruct (@mapM_forall2 _ _ (fun x => let '(r, r0, stop) := x in im_core ts d out sparse np g pick rule betas (option_map Z.to_nat n_steps) r r0 stop) runs) as (rs & E & F).
  { intros ((r, r0), stop) _. destruct (@im_core_ok ts d out sparse np dim HK P R B g pick rule betas (option_map Z.to_nat n_steps) r r0 stop Hg Hp Hs) as (res & _ & _ & Er & _). eauto. }
  rewrite E. cbn [bind]. exists (sorted_by (@ir_cost) rs), rs. split; auto. split.
  - clear -F. induction F as [|((r, r0), stop) y l k H F IH]; constructor; auto.
  - split; [apply sorted_by_perm|]. split; [apply sorted_by_sorted|]. intros k. apply sorted_by_stable.
Qed.

Lemma fw_optimize_ok (P R B : Type) (g : prng P) pick lg mx (fr0 : frand R) (rule : B -> frand R) betas n_steps u (runs : list (P * R * (nat -> nat))) :
  prng_ok g -> pick_ok pick -> log_like lg -> shuffles fr0 -> (forall b, shuffles (rule b)) -> (0 <= mx)%Z -> 0 < u ->
  ts <> [] -> sparse = [] \/ one_component ts -> (forall k, n_steps = Some k -> (0 < k)%Z) -> runs <> [] ->
  exists rs rs0, fw_optimize ts d out sparse np g pick lg mx fr0 rule betas n_steps u runs = Ok rs /\
    Forall2 (fun x r => fw_core ts d out sparse np g pick lg mx fr0 rule betas (option_map Z.to_nat n_steps) u (fst (fst x)) (snd (fst x)) (snd x) = Ok r) runs rs0 /\
    Permutation rs rs0 /\ StronglySorted (fun a b => (fr_cost a <= fr_cost b)%Z) rs /\
    forall k, filter (fun a => (fr_cost a =? k)%Z) rs = filter (fun a => (fr_cost a =? k)%Z) rs0.
Proof.
  intros Hg Hp Hl Hf0 Hfr Hmx Hu Hne Hs Hn Hr. unfold fw_optimize. rewrite (check_steps_ok Hn). cbn [bind]. rewrite (proj2 (Z.ltb_ge _ _) Hmx), check_model_ok. cbn [bind].
  destruct (Nat.eqb_spec (length runs) 0) as [E|_]; [apply length_zero_iff_nil in E; congruence|].
  destruct (@mapM_forall2 _ _ (fun x => let '(r, r0, stop) := x in fw_core ts d out sparse np g pick lg mx fr0 rule betas (option_map Z.to_nat n_steps) u r r0 stop) runs) as (rs & E & F).
  { intros ((r, r0), stop) _. destruct (@fw_core_ok ts d out sparse np dim HK P R B g pick lg mx fr0 rule betas (option_map Z.to_nat n_steps) u r r0 stop Hg Hp Hl Hf0 Hfr Hmx Hu Hne Hs) as (res & _ & _ & _ & Er & _). eauto. }
  rewrite E. cbn [bind]. exists (sorted_by (@fr_cost) rs), rs. split; auto. split.
  - clear -F. induction F as [|((r, r0), stop) y l k H F IH]; constructor; auto.
  - split; [apply sorted_by_perm|]. split; [apply sorted_by_sorted|]. intros k. apply sorted_by_stable.
Qed.
End Optimize.

(** The cheapest result is the first one. *)
Lemma sorted_head (A : Type) (cost : A -> Z) rs rs0 : Permutation rs rs0 -> StronglySorted (fun a b => (cost a <= cost b)%Z) rs ->
  forall a, In a rs0 -> exists b l, rs = b :: l /\ (cost b <= cost a)%Z.
Proof.
  intros HP HS a Ha. apply (Permutation_in a (Permutation_sym HP)) in Ha. destruct rs as [|b l]; [destruct Ha|]. exists b, l. split; auto.
  destruct Ha as [<-|Ha]; [lia|]. inversion HS as [|b' l' _ HF]; subst. rewrite Forall_forall in HF. auto.
Qed.

Lemma im_bad_args ts d out sparse np (P R B : Type) (g : prng P) pick (rule : B -> rand R) betas n_steps (runs : list (P * R * (nat -> nat))) :
  (exists k, n_steps = Some k /\ (k <= 0)%Z) \/ (exists k, np = Some k /\ (k < 1)%Z) \/ (np = None /\ sparse <> []) \/ runs = [] ->
  im_optimize ts d out sparse np g pick rule betas n_steps runs = Err Throw.
Proof.
  intros H. unfold im_optimize.
  destruct (check_steps n_steps) as [n|e] eqn:E; cbn [bind].
  - destruct (check_model sparse np) as [u|e] eqn:E'; cbn [bind].
    + destruct H as [(k & -> & Hk)|[(k & -> & Hk)|[(-> & Hk)| ->]]]; auto.
      * simpl in E. rewrite (proj2 (Z.leb_le _ _) Hk) in E. discriminate.
      * simpl in E'. rewrite (proj2 (Z.ltb_lt _ _) Hk) in E'. discriminate.
      * simpl in E'. destruct sparse; [congruence|discriminate].
    + unfold check_model in E'. destruct np as [k|]; [destruct (k <? 1)%Z|destruct sparse]; congruence.
  - unfold check_steps in E. destruct n_steps as [k|]; [destruct (k <=? 0)%Z|]; congruence.
Qed.
Lemma fw_bad_args ts d out sparse np (P R B : Type) (g : prng P) pick lg mx (fr0 : frand R) (rule : B -> frand R) betas n_steps u (runs : list (P * R * (nat -> nat))) :
  (exists k, n_steps = Some k /\ (k <= 0)%Z) \/ (mx < 0)%Z \/ (exists k, np = Some k /\ (k < 1)%Z) \/ (np = None /\ sparse <> []) \/ runs = [] ->
  fw_optimize ts d out sparse np g pick lg mx fr0 rule betas n_steps u runs = Err Throw.
Proof.
  intros H. unfold fw_optimize.
  destruct (check_steps n_steps) as [n|e] eqn:E; cbn [bind].
  - destruct (Z.ltb_spec mx 0) as [L|L]; auto. destruct (check_model sparse np) as [w|e] eqn:E'; cbn [bind].
    + destruct H as [(k & -> & Hk)|[Hk|[(k & -> & Hk)|[(-> & Hk)| ->]]]]; auto; try lia.
      * simpl in E. rewrite (proj2 (Z.leb_le _ _) Hk) in E. discriminate.
      * simpl in E'. rewrite (proj2 (Z.ltb_lt _ _) Hk) in E'. discriminate.
      * simpl in E'. destruct sparse; [congruence|discriminate].
    + unfold check_model in E'. destruct np as [k|]; [destruct (k <? 1)%Z|destruct sparse]; congruence.
  - unfold check_steps in E. destruct n_steps as [k|]; [destruct (k <=? 0)%Z|]; congruence.
Qed.

(** * Python trees of an optimizer *)
Lemma im_trees (R : Type) t m (r : R) ds s0 rds s : over t (core t) -> well_formed (nodes (core t)) ->
  im_make (core t) m r ds None = Ok s0 -> im_run rds s0 = Ok s ->
  get_ctree t (im_ct s) = Ok (mkPT (im_ct s) (n_tensors t) (tensors_pos t) (inds_order t)) /\
  get_ctree t (im_min_ct s) = Ok (mkPT (im_min_ct s) (n_tensors t) (tensors_pos t) (inds_order t)).
Proof.
  intros O W Hm Hr. destruct (c08 W Hm Hr) as (V1 & V2). destruct (c11 W Hm Hr) as (S1 & _ & S2 & _).
  split; apply get_ctree_ok; apply over_moves; auto.
Qed.
Lemma fw_trees (R : Type) lg (fr : frand R) t m maxnew r ds skip sl msl s0 us s : over t (core t) ->
  fw_built lg fr (core t) m maxnew r ds skip None sl msl s0 -> all_shuffle us -> fw_run lg us s0 = Ok s ->
  get_ctree t (fw_ct s) = Ok (mkPT (fw_ct s) (n_tensors t) (tensors_pos t) (inds_order t)) /\
  get_ctree t (fw_min_ct s) = Ok (mkPT (fw_min_ct s) (n_tensors t) (tensors_pos t) (inds_order t)).
Proof.
  intros O HB Hs Hr. destruct (f08 HB Hs Hr) as (V1 & V2). destruct (f11 HB Hs Hr) as (S1 & _ & S2 & _).
  split; apply get_ctree_ok; apply over_moves; auto; apply (fb_tree HB).
Qed.

(** * Widths *)
Lemma log_perm dim lg l l' : Permutation l l' -> log_size dim lg l = log_size dim lg l'.
Proof. unfold log_size. induction 1; cbn [fold_right]; try congruence. ring. Qed.
Lemma width_perm sparse np dim lg l l' : Permutation l l' -> width sparse np dim lg l = width sparse np dim lg l'.
Proof. intros H. unfold width. f_equal; [|f_equal]; apply log_perm, perm_filter; auto. Qed.
Lemma fits_width ts out sparse np dim lg mx sl k l : lists l (fun x => stays ts out k x /\ ~ In x sl) ->
  fits ts out sparse np dim lg mx sl k <-> (width sparse np dim lg l <= mx)%Z.
Proof. intros L. split; [intros (l' & L' & W); rewrite (@width_perm sparse np dim lg l l'); [auto|eapply lists_perm; eauto]|]. intros W. exists l. auto. Qed.
