(** Results of an optimization. *)
From Coq Require Import Permutation Sorted.
From Verif Require Import P_Base P_Opt P_PyMain.
From Verif Require Import M_Base M_Bitset M_Tree M_CTree M_Cost M_Opt M_InfMem M_FinWidth M_Path M_PyTree M_PyNodes M_Random M_App S_Tree S_Opt S_FinWidth S_Path S_PyTree S_Random S_Network S_App.
From Verif Require Import P_Bitset P_Path P_Split P_PathMain P_Canon P_Shape P_TreeValid P_InfMem P_InfMemMain P_InfMemFinal P_FinWidth P_FinWidthFinal P_RandMain P_PyRun P_PyPath P_PyFinal P_PyNodes P_AppNames P_AppMake P_AppTree.
From Verif Require Import M_Path M_PyTree.
Set Implicit Arguments.
Unset Strict Implicit.
Local Notation core := M_PyTree.core.
Local Notation hasx := S_Opt.has.
Local Notation has := S_Random.has.

Lemma over_n_inds t c : over t c -> n_inds c = length (inds_order t).
Proof.
  intros O. unfold n_inds. pose proof (ov_valid O) as V. unfold ctree_is_valid in V. rewrite !andb_true_iff in V. destruct V as ((((_ & V) & _) & _) & _).
  apply Nat.eqb_eq in V. assert (H : 0 < length (inds c)).
  { pose proof (ov_some O). rewrite V. destruct (nodes c); [congruence|simpl; lia]. }
  apply (ov_len O). apply nth_In. auto.
Qed.

Section Net.
Variables (ts : list (list nat)) (d : pydims) (out sparse : list nat) (np : option Z) (dim : nat -> N).
Hypothesis HK : network_ok ts d dim sparse np.
Local Notation costs := (cost_is ts out sparse np dim).

Lemma cost_perm sl cs cs' : Permutation cs cs' -> forall k, costs sl cs k -> costs sl cs' k.
Proof.
  induction 1 as [|x l l' H IH|x y l|l l' l'' H1 IH1 H2 IH2]; intros k Hk; auto.
  - inversion Hk; subst. constructor; auto.
  - inversion Hk as [|a b cs0 l0 k0 L0 H0]; subst. inversion H0 as [|a' b' cs1 l1 k1 L1 H1]; subst.
    replace (values sparse np dim l0 + (values sparse np dim l1 + k1))%Z with (values sparse np dim l1 + (values sparse np dim l0 + k1))%Z by lia.
    constructor; auto. constructor; auto.
Qed.

(** The component has all sparse indices. *)
Definition sparse_in (root : term) : Prop := forall x, In x sparse -> exists v, In v (tensors root) /\ has ts v x.

Lemma core_of root t : built ts out dim root t -> sparse_in root ->
  exists m, get_core sparse np (inds_order t) = Ok m /\ model_is (inds_order t) sparse np m.
Proof.
  intros HB Hs. apply get_core_ok; [apply (ov_nodup (b_over HB))|apply (nk_given HK)|]. intros x Hx. apply (b_occ HB). auto.
Qed.

Section Comp.
Variables (p : path) (cs : list term) (root : term).
Hypothesis HC : contracts_component ts p cs root.
Hypothesis Hsp : p <> [] -> sparse_in root.

Lemma empty_path : p = [] -> cs = [].
Proof. intros E. destruct HC as ((rest & H & _) & _). rewrite E in H. unfold performs in H. simpl in H. congruence. Qed.

(** ** Infinite memory *)
Lemma im_component_ok (R B : Type) (rule : B -> rand R) betas n_steps (r0 : R) stop :
  exists k q cs' root', im_component ts d out sparse np rule betas n_steps r0 stop p = Ok (k, q) /\
    contracts_component ts q cs' root' /\ (forall v, In v (tensors root') <-> In v (tensors root)) /\
    costs [] cs' k /\ exists k0, costs [] cs k0 /\ (k <= k0)%Z.
Proof.
  unfold im_component. destruct (Nat.eqb_spec (length p) 0) as [L|L].
  { apply length_zero_iff_nil in L. pose proof (empty_path L) as Ec. exists 0%Z, [], [], root. split; auto. split; [rewrite <- L, <- Ec; auto|].
    split; [tauto|]. split; [constructor|]. exists 0%Z. rewrite Ec. split; [constructor|lia]. }
  assert (Hp : p <> []) by (intros ->; apply L; auto).
  destruct (comp_tree out HK HC Hp) as (t & T & E & HB & HT & Er & Hperm). rewrite E. cbn [bind].
  destruct (core_of HB (Hsp Hp)) as (m & Em & Hm). rewrite Em. cbn [bind].
  assert (W : well_formed (nodes (core t))) by (exists T; auto).
  assert (Hcm : cmodel_ok m (n_inds (core t))).
  { rewrite (over_n_inds (b_over HB)). eapply model_ok; eauto. apply (nk_projs HK). }
  destruct (@im_make_some R (core t) m r0 false Hcm W (b_two HB) (b_valid HB)) as (s0 & Es0). rewrite Es0. cbn [bind].
  set (rds := map rule (performed betas n_steps stop)).
  destruct (@c12 R (core t) m r0 false None s0 W Es0 rds) as (s & Es & _). rewrite Es. cbn [bind].
  destruct (c07 Es0 (b_exact HB) Es) as (_ & HX). specialize (HX eq_refl).
  destruct (c08_shared (b_exact HB) Es0 Es) as (_ & _ & Hsh). destruct (Hsh eq_refl) as (_ & Hsh').
  destruct (c08 W Es0 Es) as (_ & V). destruct (c11 W Es0 Es) as (_ & _ & HS & _). specialize (HS eq_refl).
  destruct (c10 W Es0 Es) as (_ & Hcost & _ & Hmin & _). specialize (Hmin eq_refl).
  pose proof (over_moves (b_over HB) W HS V) as O. rewrite (get_ctree_ok O). cbn [bind].
  pose proof HS as (_ & (T' & HT') & _).
  destruct (reached_path HB HS HX HT' Hsh' HC) as (q & Eq & Hq). rewrite Eq. cbn [bind].
  exists (im_min s), q, (contractions (tensors_pos t) T'), (term_of (tensors_pos t) T'). split; auto. split; auto.
  split; [intros v; symmetry; apply (r_root HB HS HT')|].
  pose proof (over_n_inds O) as EO. pose proof (over_n_inds (b_over HB)) as EO0. rewrite EO in Hcost.
  assert (Hno : forall x, In x (@nil nat) <-> exists i, nth_error (inds_order t) i = Some x /\ no_slices i = true).
  { intros x. split; [intros []|]. intros (i & _ & F). discriminate. }
  split.
  - rewrite (Hcost T' HT') by (rewrite <- EO0; auto). apply (cost_tree HK HB HS HX HT' Hm Hno). constructor.
  - destruct (@c09 R (core t) m r0 false None s0 [] s0 W Hcm Es0 eq_refl) as (T0 & HT0 & Etot & _).
    apply wf_iff in W. destruct (im_make_inv W Es0) as (_ & _ & Ect & _). rewrite Ect in HT0, Etot. rewrite (tree_uniq HT0 HT) in Etot.
    specialize (Hmin _ Etot). eexists. split; [|exact Hmin]. apply wf_iff in W. eapply cost_perm; [exact Hperm|]. rewrite EO0.
    assert (HS0 : same_problem (core t) (core t)) by (repeat split; auto).
    apply (cost_tree HK HB HS0 (b_exact HB) HT Hm Hno). constructor.
Qed.

(** ** Finite width *)
Lemma zero_width lg m dd n : log_like lg -> (forall k, np = Some k -> (1 <= k)%Z) -> cmodel_ok m n -> set_width lg m dd n (fun _ => false) = 0%Z.
Proof.
  intros Hl _ Hm. assert (G : forall f, sum_over (fun _ => false) f n = 0%Z).
  { intros f. rewrite sum_list. replace (filter (fun _ => false) (seq 0 n)) with (@nil nat); auto. generalize (seq 0 n). intros l. induction l; auto. }
  unfold set_width. destruct m as [|b k]; [apply G|].
  assert (E : forall q, sum_over (fun x => false && q x) (log_dim lg dd) n = 0%Z) by (intros q; apply G). rewrite !E.
  destruct Hm as (_ & Hk). assert (0 <= lg (Z.to_N k))%Z by (apply Hl; lia). lia.
Qed.

Lemma numbered_shuffle (R B : Type) (rule : B -> frand R) u bs : (forall b, shuffles (rule b)) -> forall n, all_shuffle (numbered_steps rule u n bs).
Proof. intros H. induction bs as [|b bs IH]; intros n; simpl; [constructor|]. apply Forall_cons; [simpl; auto|apply IH]. Qed.

Lemma names_of_ok order b : length b = length order -> exists l, names_of order b = Ok l /\
  forall x, In x l <-> exists i, nth_error order i = Some x /\ mem b i = true.
Proof.
  intros L. exists (map (fun i => nth i order 0) (bpositions b)).
  assert (Hlt : forall i, btest b i = true -> i < length order) by (intros i Hi; rewrite <- L; apply btest_lt; auto). split.
  - unfold names_of. apply mapM_ok. intros i Hi. apply bpositions_in in Hi. apply get_some. apply nth_error_nth'. auto.
  - intros x. rewrite in_map_iff. split.
    + intros (i & <- & Hi). apply bpositions_in in Hi. exists i. split; auto. apply nth_error_nth'. auto.
    + intros (i & Ei & Hi). exists i. split; [apply nth_error_nth; auto|]. apply bpositions_in. auto.
Qed.

Lemma fw_component_ok (R B : Type) lg mx (fr0 : frand R) (rule : B -> frand R) betas n_steps u (r0 : R) stop :
  log_like lg -> shuffles fr0 -> (forall b, shuffles (rule b)) -> (0 <= mx)%Z -> 0 < u ->
  exists k q sl cs' root', fw_component ts d out sparse np lg mx fr0 rule betas n_steps u r0 stop p = Ok (k, q, sl) /\
    contracts_component ts q cs' root' /\ (forall v, In v (tensors root') <-> In v (tensors root)) /\
    costs sl cs' k /\
    (forall x, In x sl -> exists v, In v (tensors root) /\ has ts v x) /\
    (cs' <> [] -> (forall c, In c cs' -> fits ts out sparse np dim lg mx sl (tensors c)) /\
                  (forall v, In v (tensors root') -> fits ts out sparse np dim lg mx sl [v])).
Proof.
  intros Hl Hf0 Hfr Hmx Hu. unfold fw_component. destruct (Nat.eqb_spec (length p) 0) as [L|L].
  { apply length_zero_iff_nil in L. pose proof (empty_path L) as Ec. exists 0%Z, [], [], [], root. split; auto. split; [rewrite <- L, <- Ec; auto|].
    split; [tauto|]. split; [constructor|]. split; [intros x []|]. congruence. }
  assert (Hp : p <> []) by (intros ->; apply L; auto).
  destruct (comp_tree out HK HC Hp) as (t & T & E & HB & HT & Er & Hperm). rewrite E. cbn [bind].
  destruct (core_of HB (Hsp Hp)) as (m & Em & Hm). rewrite Em. cbn [bind].
  assert (W : well_formed (nodes (core t))) by (exists T; auto).
  pose proof (over_n_inds (b_over HB)) as EO0.
  assert (Hcm : cmodel_ok m (n_inds (core t))).
  { rewrite EO0. eapply model_ok; eauto. apply (nk_projs HK). }
  assert (Efm : fmodel_make m mx = Ok (mkFM m mx)).
  { unfold fmodel_make. rewrite (proj2 (Z.ltb_ge _ _) Hmx). destruct m as [|b k]; auto. destruct Hcm as (_ & Hk). rewrite (proj2 (Z.eqb_neq _ _)); auto. lia. }
  rewrite Efm. cbn [bind].
  destruct (@f16_make R lg (mkFM m mx) fr0 (core t) 0 r0 false (bempty (n_inds (core t)))) as (s0 & Es0 & Hb); auto.
  { apply (b_two HB). } { apply (b_valid HB). } { apply repeat_length. }
  { intros v Hv. simpl. erewrite set_width_ext; [rewrite (@zero_width lg m (dims (core t)) (n_inds (core t))); auto; apply (nk_projs HK)|].
    intros i _. unfold mem, bempty. rewrite nth_repeat. apply andb_false_r. }
  rewrite Es0. cbn [bind]. set (bs := performed betas n_steps stop).
  replace (match bs, u with _ :: _, O => Err Crash | _, _ => fw_run lg (numbered_steps rule u 0 bs) s0 end) with (fw_run lg (numbered_steps rule u 0 bs) s0)
    by (destruct bs; auto; destruct u; [lia|auto]).
  pose proof (@numbered_shuffle R B rule u bs Hfr 0) as Hsf. set (us := numbered_steps rule u 0 bs) in *.
  destruct (f12 Hb Hsf) as [(s & Es)|(_ & F & _)]; [|lia]. rewrite Es. cbn [bind].
  destruct (f07 Hb Hsf Es (b_exact HB)) as (_ & HX). specialize (HX eq_refl).
  destruct (f08_all_share Hb (b_exact HB) Hsf Es eq_refl) as (_ & Hsh).
  destruct (f08 Hb Hsf Es) as (_ & V). destruct (f11 Hb Hsf Es) as (_ & _ & HS & _). specialize (HS eq_refl).
  destruct (f18_min Hb Hsf Es) as (T' & HT' & Hmin). destruct (min_shape Hb Hsf Es) as (_ & _ & Lsl & _).
  destruct (f17 Hb (or_intror eq_refl) Hsf Es) as (_ & Hfit).
  pose proof (over_moves (b_over HB) W HS V) as O. rewrite (get_ctree_ok O). cbn [bind].
  destruct (reached_path HB HS HX HT' Hsh HC) as (q & Eq & Hq). rewrite Eq. cbn [bind].
  rewrite EO0 in *. destruct (@names_of_ok (inds_order t) (fw_min_sl s) Lsl) as (sl & Esl & Hsl). unfold slice_names. rewrite Esl. cbn [bind].
  exists (fw_min s), q, sl, (contractions (tensors_pos t) T'), (term_of (tensors_pos t) T'). split; auto. split; auto.
  split; [intros v; symmetry; apply (r_root HB HS HT')|].
  split; [rewrite Hmin; apply (cost_tree HK HB HS HX HT' Hm Hsl); constructor|].
  split; [intros x Hx; apply Hsl in Hx; destruct Hx as (i & Ei & _); apply (b_occ HB); eapply nth_error_In; eauto|].
  intros _. split.
  - intros c Hc. apply contractions_sub in Hc. destruct Hc as (S & HSub & -> & _). apply (fits_tree HK HB HS HX HT' Hm Hsl Hl HSub Hfit).
  - intros v Hv. apply term_in in Hv. destruct Hv as (l & Hlv & ->). assert (HSub : subtree (Lf l) T') by (apply P_PyBuild.leaf_sub; auto).
    apply (fits_tree HK HB HS HX HT' Hm Hsl Hl HSub Hfit).
Qed.
End Comp.

(** * The network *)
Lemma each_ok (A : Type) (f : nat -> path -> res A) (K : Type) (Rl : path -> K -> Prop) (Q : K -> A -> Prop) :
  forall ps ks, Forall2 Rl ps ks -> (forall k p c, Rl p c -> In c ks -> exists x, f k p = Ok x /\ Q c x) ->
  forall k, exists xs, each f k ps = Ok xs /\ Forall2 Q ks xs.
Proof.
  induction 1 as [|p c ps ks H F IH]; intros Hf k; simpl; [exists []; auto|].
  destruct (Hf k p c H) as (x & Ex & Hx); [left; auto|]. rewrite Ex. cbn [bind]. destruct (IH (fun k p c H H' => Hf k p c H (or_intror H')) (S k)) as (xs & Exs & Hxs).
  rewrite Exs. cbn [bind]. exists (x :: xs). auto.
Qed.

Lemma Forall2_nth1 (A B : Type) (Rl : A -> B -> Prop) l k : Forall2 Rl l k -> forall i b, nth_error k i = Some b -> exists a, nth_error l i = Some a /\ Rl a b.
Proof. induction 1; intros [|i] b E; simpl in *; try discriminate; eauto. inversion E; subst. eauto. Qed.
Lemma Forall2_nth2 (A B : Type) (Rl : A -> B -> Prop) l k : Forall2 Rl l k -> forall i a, nth_error l i = Some a -> exists b, nth_error k i = Some b /\ Rl a b.
Proof. induction 1; intros [|i] b E; simpl in *; try discriminate; eauto. inversion E; subst. eauto. Qed.

(** New paths for the same components. *)
Lemma paths_same ps comps qs comps' : component_paths ts ps comps -> Forall2 (fun q k => contracts_component ts q (fst k) (snd k)) qs comps' ->
  Forall2 (fun k k' => forall v, In v (tensors (snd k')) <-> In v (tensors (snd k))) comps comps' -> component_paths ts qs comps'.
Proof.
  intros (_ & H2 & H3) F G. split; auto. split.
  - intros t x Hx. destruct (H2 t x Hx) as (a & k & Ek & Hk). destruct (Forall2_nth2 G Ek) as (k' & Ek' & Hs). exists a, k'. split; auto. apply Hs. auto.
  - intros a b k k' t Ha Hb Hk Hk'. destruct (Forall2_nth1 G Ha) as (j & Ej & Hj). destruct (Forall2_nth1 G Hb) as (j' & Ej' & Hj').
    apply (H3 a b j j' t); auto; [apply Hj|apply Hj']; auto.
Qed.

Lemma merge_comps ps comps : component_paths ts ps comps ->
  exists p extra, merge_paths (length ts) ps true = Ok p /\ completes (length ts) p (concat (map fst comps)) extra.
Proof.
  intros (F & _ & Hd). destruct (@c26_merge (length ts) ps (map fst comps) true) as (p & extra & rest & A & B & D & G).
  - clear -F. induction F as [|p k ps ks H F IH]; simpl; constructor; auto. destruct H as ((rest & A & _) & _). eauto.
  - intros a b cs cs' t Ha Hb Hn (c & Hc & Ht) (c' & Hc' & Ht'). apply Hn.
    rewrite nth_error_map in Ha, Hb. destruct (nth_error comps a) as [k|] eqn:Ka; [|discriminate]. destruct (nth_error comps b) as [k'|] eqn:Kb; [|discriminate].
    inversion Ha; inversion Hb; subst.
    assert (In1 : forall a k c t, nth_error comps a = Some k -> In c (fst k) -> In t (tensors c) -> In t (tensors (snd k))).
    { intros a0 k0 c0 t0 H1 H2 H3. destruct (Forall2_nth1 F H1) as (q & _ & _ & Y & _). apply (Y c0); auto. }
    apply (Hd a b k k' t); eauto.
  - exists p, extra. split; auto. exists rest. auto.
Qed.

(** Without indices every tensor is a component. *)
Lemma no_index_paths : (forall t x, ~ has ts t x) ->
  component_paths ts (repeat [] (length ts)) (map (fun t => ([], S_Path.T t)) (seq 0 (length ts))).
Proof.
  intros Hn. assert (Hc : forall t u, connected ts t u -> t = u). { intros t u H. induction H as [|t u v x H IH H1 H2]; auto. exfalso. eapply Hn; eauto. }
  split; [|split].
  - assert (G : forall m s, s + m <= length ts -> Forall2 (fun p k => contracts_component ts p (fst k) (snd k)) (repeat [] m) (map (fun t => ([], S_Path.T t)) (seq s m))).
    { induction m as [|m IH]; intros s Hs; simpl; constructor; [|apply IH; lia]. simpl. split; [|split; [|split]].
      - exists (map S_Path.T (seq 0 (length ts))). split; [reflexivity|]. apply in_map. apply in_seq. lia.
      - intros c [].
      - intros c [].
      - intros t u [<-|[]]. simpl. split; [intros [<-|[]]; apply conn_refl|]. intros H. apply Hc in H. auto. }
    apply G. lia.
  - intros t x H. exfalso. eapply Hn; eauto.
  - intros a b k k' t Ha Hb Hk Hk'. rewrite nth_error_map in Ha, Hb.
    destruct (nth_error (seq 0 (length ts)) a) as [i|] eqn:Ia; [|discriminate]. destruct (nth_error (seq 0 (length ts)) b) as [j|] eqn:Ib; [|discriminate].
    inversion Ha; inversion Hb; subst. simpl in Hk, Hk'. destruct Hk as [<-|[]]. destruct Hk' as [E|[]]. subst j.
    apply (proj1 (NoDup_nth_error (seq 0 (length ts))) (seq_NoDup _ _)); [eapply nth_error_lt; eauto|congruence].
Qed.

Lemma cost_concat sl (comps : list (list term * term)) zs : Forall2 (fun k z => costs sl (fst k) z) comps zs -> costs sl (concat (map fst comps)) (zsum zs).
Proof. induction 1 as [|k z ks zs H F IH]; simpl; [constructor|]. apply cost_app; auto. Qed.

(** Sparse indices are in the one component. *)
Lemma sparse_ok p cs root : contracts_component ts p cs root -> sparse = [] \/ one_component ts -> p <> [] -> sparse_in root.
Proof.
  intros HC [E0|H1] Hp x Hx; [rewrite E0 in Hx; destruct Hx|]. destruct HC as ((rest & Hpf & _) & Hin & Hsh & Hcon).
  assert (Hcs : cs <> []).
  { intros ->. destruct p as [|(a, b) p']; [congruence|]. unfold performs in Hpf. simpl in Hpf.
    destruct (a =? b); [discriminate|]. destruct (nth_error _ a); [|discriminate]. destruct (nth_error _ b); [|discriminate].
    destruct (perform _ p') as [(cs', r')|]; discriminate. }
  destruct cs as [|c cs']; [congruence|]. destruct (Hsh c (or_introl eq_refl)) as (a & b & E & u & v & y & Hu & _ & Hyu & _). subst c.
  destruct (nk_sparse HK x Hx) as (t & Ht). exists t. split; auto.
  assert (Hur : In u (tensors root)) by (apply (Hin (C a b)); simpl; auto; apply in_or_app; auto).
  apply (Hcon u t Hur). eapply H1; eauto.
Qed.

Lemma im_core_ok (P R B : Type) (g : prng P) pick (rule : B -> rand R) betas n_steps (r : P) (r0 : R) stop :
  prng_ok g -> pick_ok pick -> sparse = [] \/ one_component ts ->
  exists res comps extra, im_core ts d out sparse np g pick rule betas n_steps r r0 stop = Ok res /\
    component_paths ts (ir_paths res) comps /\
    completes (length ts) (ir_path res) (concat (map fst comps)) extra /\
    costs [] (concat (map fst comps)) (ir_cost res) /\
    ((exists t x, has ts t x) -> Forall2 (fun k z => costs [] (fst k) z) comps (ir_costs res)) /\
    exists ps0 comps0 k0, random_paths g pick ts r = Ok ps0 /\ component_paths ts ps0 comps0 /\
      costs [] (concat (map fst comps0)) k0 /\ (ir_cost res <= k0)%Z.
Proof.
  intros Hg Hp Hs. destruct (random_ok ts r Hg Hp) as (ps & comps & Eps & F & Hcov & Hdis). unfold im_core. rewrite Eps. cbn [bind].
  assert (HCP : component_paths ts ps comps) by (split; auto).
  destruct (@each_ok (Z * path) (fun k => im_component ts d out sparse np rule betas n_steps r0 (stop k)) _ _
    (fun k x => exists k', contracts_component ts (snd x) (fst k') (snd k') /\ (forall v, In v (tensors (snd k')) <-> In v (tensors (snd k))) /\
       costs [] (fst k') (fst x) /\ exists k0, costs [] (fst k) k0 /\ (fst x <= k0)%Z) ps comps F) with (k := 0) as (xs & Exs & Fx).
  { intros k p c Hc _. destruct (@im_component_ok p (fst c) (snd c) Hc (sparse_ok Hc Hs) R B rule betas n_steps r0 (stop k)) as (z & q & cs' & root' & E & A1 & A2 & A3 & A4).
    exists (z, q). split; auto. exists (cs', root'). auto. }
  rewrite Exs. cbn [bind].
  assert (G : exists comps', Forall2 (fun q k => contracts_component ts q (fst k) (snd k)) (map snd xs) comps' /\
     Forall2 (fun k k' => forall v, In v (tensors (snd k')) <-> In v (tensors (snd k))) comps comps' /\
     Forall2 (fun k z => costs [] (fst k) z) comps' (map fst xs) /\
     exists k0, costs [] (concat (map fst comps)) k0 /\ (zsum (map fst xs) <= k0)%Z).
  { clear -Fx. induction Fx as [|k x ks xs H F IH]; [exists []; simpl; do 3 (split; [constructor|]); exists 0%Z; split; [constructor|lia]|].
    destruct H as (k' & A1 & A2 & A3 & k0 & A4 & A5). destruct IH as (comps' & B1 & B2 & B3 & k1 & B4 & B5).
    exists (k' :: comps'). simpl. do 3 (split; [constructor; auto|]). exists (k0 + k1)%Z. split; [apply cost_app; auto|]. simpl in *. lia. }
  destruct G as (comps' & G1 & G2 & G3 & k0 & G4 & G5).
  pose proof (paths_same HCP G1 G2) as HCP'.
  destruct xs as [|x xs].
  - inversion Fx; subst. assert (Hn : forall t x, ~ has ts t x). { intros t x H. destruct (Hcov t x H) as (a & k & E & _). destruct a; discriminate. }
    pose proof (no_index_paths Hn) as HCN. destruct (merge_comps HCN) as (p & extra & Ep & Hcp). rewrite Ep. cbn [bind].
    assert (E0 : concat (map fst (map (fun t : nat => (@nil term, S_Path.T t)) (seq 0 (length ts)))) = []).
    { rewrite map_map. simpl. generalize (seq 0 (length ts)). intros l. induction l; auto. }
    eexists. exists (map (fun t => ([], S_Path.T t)) (seq 0 (length ts))), extra. split; [reflexivity|]. simpl. rewrite E0 in *.
    split; auto. split; auto. split; [constructor|]. split; [intros (t & x & H); exfalso; eapply Hn; eauto|].
    exists ps, [], 0%Z. split; auto. split; auto. split; [constructor|lia].
  - destruct (merge_comps HCP') as (p & extra & Ep & Hcp). rewrite Ep. cbn [bind].
    eexists. exists comps', extra. split; [reflexivity|]. cbn [ir_paths ir_path ir_cost ir_costs]. split; auto. split; auto.
    split; [apply cost_concat; auto|]. split; auto. exists ps, comps, k0. auto.
Qed.
End Net.
