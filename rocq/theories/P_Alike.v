(** Equality of cost models, trees and optimizers (C72). *)
From Coq Require Import QArith ZArith NArith List Permutation Lia Bool.
From Verif Require Import P_Base P_Opt P_PyMain.
From Verif Require Import M_Base M_Bitset M_Tree M_CTree M_Cost M_Opt M_InfMem M_FinWidth M_Path M_PyTree M_PyNodes M_Random M_App M_ValidTree M_Json
  S_Tree S_Opt S_FinWidth S_PyTree.
From Verif Require Import P_Bitset P_Split P_Tree P_Shape P_TreeProps P_TreeValid P_OptCost P_InfMem P_InfMemMain P_InfMemFinal P_FinWidth P_FinWidthOpt P_FinWidthMain P_FinWidthFinal
  P_PyNodes P_App P_AppMain P_ValidTree P_ValidFinal.
From Verif Require P_Json.
From Verif Require Import M_Alike S_Alike.
Import ListNotations.
Set Implicit Arguments. Unset Strict Implicit.
Local Open Scope nat_scope.
Local Notation core := M_PyTree.core.

(** ** Sets and models *)
Lemma same_set_iff l k : same_set l k = true <-> same_members l k.
Proof.
  unfold same_set, same_members. rewrite andb_true_iff, !forallb_forall. split.
  - intros (A & B) x. split; intros H; [apply A in H|apply B in H]; apply memb_In; auto.
  - intros H. split; intros x Hx; apply memb_In, H; auto.
Qed.
Lemma opt_eqb_iff A (f : A -> A -> bool) r : (forall x y, f x y = true <-> r x y) -> forall a b, opt_eqb f a b = true <-> same_option r a b.
Proof. intros H [x|] [y|]; simpl; [apply H| | |]; split; auto; try discriminate; tauto. Qed.
Lemma same_option_eq A (a b : option A) : same_option eq a b <-> a = b.
Proof. destruct a, b; simpl; split; intros H; try congruence; try tauto; try discriminate. Qed.
Lemma pmodel_iff a b : pmodel_eqb a b = true <-> same_model a b.
Proof.
  unfold pmodel_eqb, same_model. rewrite !andb_true_iff, P_Json.teqb_eq, (opt_eqb_iff same_set_iff), (opt_eqb_iff Z.eqb_eq), same_option_eq. tauto.
Qed.
Lemma pfmodel_iff a b : pfmodel_eqb a b = true <-> same_fmodel a b.
Proof. unfold pfmodel_eqb, same_fmodel. rewrite !andb_true_iff, Z.eqb_eq, pmodel_iff, P_Json.teqb_eq. tauto. Qed.

Lemma bits_same order l k b : NoDup order -> incl l order -> same_members l k -> name_bits order l = Ok b -> name_bits order k = Ok b.
Proof.
  intros HN Hl HS. assert (Hk : incl k order) by (intros x Hx; apply Hl, HS; auto). unfold name_bits. rewrite !rank_all_ok by auto. cbn [bind]. intros E.
  apply of_positions_inv in E. destruct E as (L & T).
  destruct (@of_positions_ok (map (rf order) k) (length order)) as (b' & E' & L' & T').
  { intros i Hi. apply rf_in in Hi; auto. destruct Hi as (x & Ei & _). eapply nth_error_lt; eauto. }
  rewrite E'. f_equal. apply btest_eq; [congruence|]. intros i. rewrite T, T', !rf_in by auto. split; intros (x & Ex & Hx); exists x; split; auto; apply HS; auto.
Qed.
Lemma members_sym l k : same_members l k -> same_members k l.
Proof. intros H x. symmetry. apply H. Qed.
Lemma pm_core_same a b order k : NoDup order -> same_model a b -> pm_core a order = Ok k -> pm_core b order = Ok k.
Proof.
  intros HN (_ & Hs & Hp). unfold pm_core. rewrite Hp.
  assert (HS : same_members (match pm_sparse a with Some l => l | None => [] end) (match pm_sparse b with Some l => l | None => [] end)).
  { destruct (pm_sparse a), (pm_sparse b); simpl in Hs; try tauto. intros x. tauto. }
  clear Hs. revert HS. generalize (match pm_sparse a with Some l => l | None => [] end) (match pm_sparse b with Some l => l | None => [] end). intros l l' HS.
  unfold get_core. destruct l as [|x l]; [destruct l' as [|y l']; auto; exfalso; apply (proj2 (HS y)); simpl; auto|].
  destruct l' as [|y l']; [exfalso; apply (proj1 (HS x)); simpl; auto|].
  destruct (pm_projs b) as [np|]; auto.
  destruct (forallb (fun x0 => memb x0 order) (x :: l)) eqn:F; [|discriminate].
  assert (F' : forallb (fun x0 => memb x0 order) (y :: l') = true).
  { rewrite forallb_forall in *. intros z Hz. apply F, HS. auto. }
  rewrite F'. cbn [negb]. intros E.
  assert (E2 : (let! b0 := name_bits order (x :: l) in Ok (Sparse b0 np)) = Ok k) by (unfold name_bits; destruct (rank_all order (x :: l)); auto).
  destruct (name_bits order (x :: l)) as [b0|] eqn:Eb; [|discriminate].
  assert (Hl : incl (x :: l) order) by (intros z Hz; rewrite forallb_forall in F; apply memb_In; auto).
  pose proof (bits_same HN Hl HS Eb) as E3. unfold name_bits in E3. destruct (rank_all order (y :: l')) as [ps|]; [|discriminate].
  cbn [bind] in *. rewrite E3. exact E2.
Qed.
Lemma pm_core_ok m order k : good_projs m -> pm_core m order = Ok k -> cmodel_ok k (length order).
Proof.
  intros G. unfold pm_core, get_core. destruct (match pm_sparse m with Some l => l | None => [] end) as [|x l]; [intros H; injection H as <-; exact I|].
  destruct (pm_projs m) as [np|] eqn:E; [|discriminate]. destruct (negb _); [discriminate|].
  destruct (rank_all order (x :: l)) as [ps|]; [|discriminate]. cbn [bind]. destruct (of_positions ps (length order)) as [b|] eqn:Eb; [|discriminate]. cbn [bind].
  intros H. injection H as <-. apply of_positions_inv in Eb. split; [apply Eb|apply G; auto].
Qed.

(** ** Trees *)
Lemma dims_eqb_iff a b : dims_eqb a b = true <-> a = b.
Proof.
  split.
  - destruct a, b; simpl; intros H; try discriminate; f_equal; [apply N.eqb_eq; auto|]. eapply all2_eq; [intros x y; apply N.eqb_eq|auto].
  - intros <-. destruct a; simpl; [apply N.eqb_refl|]. apply all2_refl. intros; apply N.eqb_refl.
Qed.
Lemma bits_eqb_eq (l k : list bool) : all2 Bool.eqb l k = true -> l = k.
Proof. apply all2_eq. intros x y. apply Bool.eqb_prop. Qed.
Lemma pytree_iff a b : pytree_eqb a b = true <-> core a = core b /\ inds_order a = inds_order b.
Proof.
  split.
  - unfold pytree_eqb, ctree_eqb. rewrite !andb_true_iff. intros [[[H1 H2] H3] H4]. apply dims_eqb_iff in H3.
    apply (all2_eq node_eqb_eq) in H1. apply (all2_eq bits_eqb_eq) in H2. split.
    + destruct (core a), (core b); simpl in *. congruence.
    + eapply all2_eq; [intros x y; apply Nat.eqb_eq|auto].
  - destruct a as [ca na pa oa], b as [cb nb pb ob]. simpl. intros (-> & ->). exact (pytree_eqb_refl (mkPT cb nb pb ob)).
Qed.
Lemma get_ctree_over t c' c : dims c' = dims (core t) ->
  get_ctree (mkPT c' (n_tensors t) (tensors_pos t) (inds_order t)) c = get_ctree t c.
Proof. intros E. unfold get_ctree, py_dims, cache_of. cbn [inds_order n_tensors tensors_pos M_PyTree.core]. rewrite E. reflexivity. Qed.

Section Objects.
Variables (R : Type) (eqr : R -> R -> bool).
Hypothesis Heqr : forall x y, eqr x y = true <-> x = y.

(** ** Infinite memory *)
Record im_facts (o : im_obj R) : Prop := {
  if_inv : exists n, inv (io_state o) n none;
  if_min : the_min (io_state o);
  if_nodup : NoDup (inds_order (io_tree o));
  if_model : pm_core (io_model o) (inds_order (io_tree o)) = Ok (im_cm (io_state o));
  if_tree : get_ctree (io_tree o) (im_ct (io_state o)) = Ok (mkPT (im_ct (io_state o)) (n_tensors (io_tree o)) (tensors_pos (io_tree o)) (inds_order (io_tree o)));
  if_mtree : get_ctree (io_tree o) (im_min_ct (io_state o)) = Ok (mkPT (im_min_ct (io_state o)) (n_tensors (io_tree o)) (tensors_pos (io_tree o)) (inds_order (io_tree o)))
}.
Lemma im_lived_facts (o : im_obj R) : im_lived o -> im_facts o.
Proof.
  intros [(p & ts & d & output & chk & t & m & r & ds & o0 & rds & Ht & W & G & H0 & Hr)].
  pose proof (over_make Ht) as O. unfold io_make in H0. destruct (pm_core m (inds_order t)) as [k|] eqn:Ek; [|discriminate]. cbn [bind] in H0.
  destruct (im_make (core t) k r ds None) as [s0|] eqn:E0; [|discriminate]. cbn [bind] in H0. injection H0 as <-.
  unfold io_run in Hr. cbn [io_state io_tree io_model] in Hr. destruct (im_run rds s0) as [s|] eqn:Er; [|discriminate]. cbn [bind] in Hr. injection Hr as <-.
  assert (W' := W). apply wf_iff in W'. destruct (im_make_inv W' E0) as (HI & Hmin & Ec & Ed & Em & _).
  destruct (run_ok rds HI) as (s' & E' & HI' & D' & M' & P'). rewrite E' in Er. injection Er as ->.
  destruct (im_trees O W E0 E') as (T1 & T2).
  constructor; cbn [io_state io_tree io_model]; auto; [eauto|apply (run_the_min HI Hmin E')|apply (ov_nodup O)|congruence].
Qed.
Lemma im_state_eq (s s' : im_state R) n n' : inv s n none -> the_min s -> inv s' n' none -> the_min s' ->
  im_ct s = im_ct s' -> im_min_ct s = im_min_ct s' -> im_cm s = im_cm s' -> im_rng s = im_rng s' -> im_ds s = im_ds s' -> s = s'.
Proof.
  intros HI Hm HI' Hm' E1 E2 E3 E4 E5. pose proof HI as [HC HH HK HP]. pose proof HI' as [HC' HH' HK' HP'].
  pose proof (cost_cache_ok HC HK HP) as C1. pose proof (cost_cache_ok HC' HK' HP') as C2.
  pose proof (hyper_fold HC HH (core_n_inds HC)) as G1. pose proof (hyper_fold HC' HH' (core_n_inds HC')) as G2.
  unfold the_min in *. rewrite E1, E3 in *. rewrite E2 in *. rewrite C1 in C2. rewrite G1 in G2. rewrite Hm in Hm'.
  clear - E1 E2 E3 E4 E5 C2 G2 Hm'. destruct s as [a1 a2 a3 a4 a5 [p1 k1] a7 a8], s' as [b1 b2 b3 b4 b5 [p2 k2] b7 b8]. cbn in *. congruence.
Qed.
Lemma io_equal_val (a b : im_obj R) : im_facts a -> im_facts b -> exists v, io_equal eqr a b = Ok v /\
  (v = true <-> (im_ct (io_state a) = im_ct (io_state b) /\ im_min_ct (io_state a) = im_min_ct (io_state b) /\
                 inds_order (io_tree a) = inds_order (io_tree b) /\
                 im_rng (io_state a) = im_rng (io_state b) /\ im_ds (io_state a) = im_ds (io_state b)) /\ same_model (io_model a) (io_model b)).
Proof.
  intros Fa Fb. unfold io_equal, io_reduce. rewrite (if_tree Fa), (if_mtree Fa), (if_tree Fb), (if_mtree Fb). cbn [bind].
  eexists. split; [reflexivity|]. rewrite !andb_true_iff, !pytree_iff, pmodel_iff, Heqr, Bool.eqb_true_iff. cbn [M_PyTree.core inds_order]. tauto.
Qed.
Lemma io_state_eq (a b : im_obj R) : im_facts a -> im_facts b -> im_ct (io_state a) = im_ct (io_state b) -> im_min_ct (io_state a) = im_min_ct (io_state b) ->
  inds_order (io_tree a) = inds_order (io_tree b) -> im_rng (io_state a) = im_rng (io_state b) -> im_ds (io_state a) = im_ds (io_state b) ->
  same_model (io_model a) (io_model b) -> io_state a = io_state b.
Proof.
  intros Fa Fb E1 E2 E3 E4 E5 Hs. destruct (if_inv Fa) as (n & Ia). destruct (if_inv Fb) as (n' & Ib).
  apply (im_state_eq Ia (if_min Fa) Ib (if_min Fb)); auto.
  pose proof (pm_core_same (if_nodup Fa) Hs (if_model Fa)) as H. rewrite E3, (if_model Fb) in H. congruence.
Qed.
Lemma io_equal_iff (a b : im_obj R) : im_lived a -> im_lived b -> exists v, io_equal eqr a b = Ok v /\ (v = true <-> im_alike a b /\ same_model (io_model a) (io_model b)).
Proof.
  intros La Lb. pose proof (im_lived_facts La) as Fa. pose proof (im_lived_facts Lb) as Fb. destruct (io_equal_val Fa Fb) as (v & E & H). exists v. split; auto.
  rewrite H. unfold im_alike. split; [|tauto]. intros ((E1 & E2 & E3 & E4 & E5) & Hs). rewrite (io_state_eq Fa Fb E1 E2 E3 E4 E5 Hs). tauto.
Qed.
Lemma io_equal_run (a b : im_obj R) rds a' : im_lived a -> im_lived b -> io_equal eqr a b = Ok true -> io_run rds a = Ok a' ->
  exists b', io_run rds b = Ok b' /\ im_alike a' b'.
Proof.
  intros La Lb E Hr. pose proof (im_lived_facts La) as Fa. pose proof (im_lived_facts Lb) as Fb. destruct (io_equal_val Fa Fb) as (v & E' & H).
  rewrite E in E'. injection E' as <-. destruct (proj1 H eq_refl) as ((E1 & E2 & E3 & E4 & E5) & Hs).
  pose proof (io_state_eq Fa Fb E1 E2 E3 E4 E5 Hs) as ES. unfold io_run in *. rewrite ES in Hr. destruct (im_run rds (io_state b)) as [s|]; [|discriminate].
  cbn [bind] in *. injection Hr as <-. eexists. split; [reflexivity|]. unfold im_alike. cbn [io_state io_tree]. tauto.
Qed.
Lemma io_run_ok (a : im_obj R) rds : im_lived a -> exists a', io_run rds a = Ok a'.
Proof.
  intros La. destruct (if_inv (im_lived_facts La)) as (n & HI). destruct (run_ok rds HI) as (s' & E' & _). unfold io_run. rewrite E'. cbn [bind]. eauto.
Qed.
Lemma io_copy_ok (o : im_obj R) : im_lived o -> (exists out, exact_inds (core (io_tree o)) out) \/ im_ds (io_state o) = true ->
  exists o', io_copy o = Ok o' /\ io_reduce o' = io_reduce o /\ io_state o' = io_state o /\ io_equal eqr o o' = Ok true.
Proof.
  intros L HX. pose proof (im_lived_facts L) as F. destruct L as [(p & ts & d & output & chk & t & m & r & ds & o0 & rds & Ht & W & G & H0 & Hr)].
  pose proof (over_make Ht) as O. unfold io_make in H0. destruct (pm_core m (inds_order t)) as [k|] eqn:Ek; [|discriminate]. cbn [bind] in H0.
  destruct (im_make (core t) k r ds None) as [s0|] eqn:E0; [|discriminate]. cbn [bind] in H0. injection H0 as <-.
  unfold io_run in Hr. cbn [io_state io_tree io_model] in Hr. destruct (im_run rds s0) as [s|] eqn:Er; [|discriminate]. cbn [bind] in Hr. injection Hr as <-.
  cbn [io_state io_tree io_model] in *. assert (W' := W). apply wf_iff in W'. destruct (im_make_inv W' E0) as (HI & _ & Ec & Ed & Em & _).
  destruct (run_ok rds HI) as (s' & E' & HI' & D' & M' & P'). rewrite E' in Er. injection Er as ->.
  assert (HX' : (exists out, exact_inds (core t) out) \/ (ds = true /\ well_formed (nodes (core t)))) by (destruct HX as [HX|HX]; [auto|right; split; auto; congruence]).
  assert (Hcm : cmodel_ok k (n_inds (core t))) by (rewrite (over_n_inds O); eapply pm_core_ok; eauto).
  pose proof (c15 HX' Hcm E0 E') as H15. unfold im_unpickle, im_pickle in H15.
  destruct (if_model F). destruct F as [_ _ _ FM FT FMT]. cbn [io_state io_tree io_model] in *.
  assert (EM : im_cm s = k) by congruence. rewrite EM in *.
  unfold io_copy, io_reduce at 1. cbn [io_state io_tree io_model]. rewrite FT, FMT. cbn [bind]. unfold io_make. cbn [inds_order M_PyTree.core]. rewrite Ek. cbn [bind].
  rewrite H15. cbn [bind]. eexists. split; [reflexivity|].
  assert (Hdim : dims (im_ct s) = dims (core t)) by (rewrite (moves_dims P'), Ec; reflexivity).
  split; [|split; [reflexivity|]].
  - unfold io_reduce. cbn [io_state io_tree io_model]. rewrite !get_ctree_over by auto. reflexivity.
  - unfold io_equal, io_reduce. cbn [io_state io_tree io_model]. rewrite !get_ctree_over by auto. rewrite FT, FMT. cbn [bind].
    rewrite !pytree_eqb_refl. rewrite (proj2 (Heqr _ _) eq_refl), Bool.eqb_reflx.
    rewrite (proj2 (pmodel_iff m m)); [reflexivity|]. split; auto. split; auto. destruct (pm_sparse m); simpl; auto. intros x. tauto.
Qed.

(** ** Finite width *)
Variable lg : N -> Z.
Record fw_facts (maxnew : nat) (o : fw_obj R) : Prop := {
  ff_inv : exists n, finv lg (fo_state o) n none;
  ff_min : the_fmin (fo_state o);
  ff_nodup : NoDup (inds_order (fo_tree o));
  ff_model : (let! k := pm_core (pf_model (fo_model o)) (inds_order (fo_tree o)) in fmodel_make k (pf_max (fo_model o))) = Ok (fw_m (fo_state o));
  ff_maxnew : fw_maxnew (fo_state o) = maxnew;
  ff_incl : incl (fo_skip o) (inds_order (fo_tree o));
  ff_skip : exists b, name_bits (inds_order (fo_tree o)) (fo_skip o) = Ok b /\ fw_skip (fo_state o) = oskip b;
  ff_len : length (fw_sl (fo_state o)) = length (inds_order (fo_tree o));
  ff_mlen : length (fw_min_sl (fo_state o)) = length (inds_order (fo_tree o));
  ff_tree : get_ctree (fo_tree o) (fw_ct (fo_state o)) = Ok (mkPT (fw_ct (fo_state o)) (n_tensors (fo_tree o)) (tensors_pos (fo_tree o)) (inds_order (fo_tree o)));
  ff_mtree : get_ctree (fo_tree o) (fw_min_ct (fo_state o)) = Ok (mkPT (fw_min_ct (fo_state o)) (n_tensors (fo_tree o)) (tensors_pos (fo_tree o)) (inds_order (fo_tree o)))
}.

Lemma fo_make_inv fr t m maxnew (r : R) ds skip o0 : over t (core t) -> well_formed (nodes (core t)) -> good_projs (pf_model m) -> log_like lg -> shuffles fr ->
  fo_make lg fr t m maxnew r ds skip None None None = Ok o0 ->
  exists b fm s0, incl skip (inds_order t) /\ name_bits (inds_order t) skip = Ok b /\
    (let! k := pm_core (pf_model m) (inds_order t) in fmodel_make k (pf_max m)) = Ok fm /\
    fw_built lg fr (core t) fm maxnew r ds b None None None s0 /\ o0 = mkFO t m skip s0.
Proof.
  intros O W G Hl Hf H. unfold fo_make in H. destruct (forallb (fun x => memb x (inds_order t)) skip) eqn:F; [|discriminate]. cbn [negb opt_bits bind] in H.
  destruct (name_bits (inds_order t) skip) as [b|] eqn:Eb; [|discriminate]. cbn [bind] in H.
  destruct (pm_core (pf_model m) (inds_order t)) as [k|] eqn:Ek; [|discriminate]. cbn [bind] in H.
  destruct (fmodel_make k (pf_max m)) as [fm|] eqn:Em; [|discriminate]. cbn [bind] in H.
  destruct (py_fw_make lg fr (core t) fm maxnew r ds b None None None) as [s0|] eqn:E0; [|discriminate]. cbn [bind] in H. injection H as <-.
  exists b, fm, s0. split. { intros x Hx. rewrite forallb_forall in F. apply memb_In. auto. }
  split; auto. split; [cbn [bind]; auto|]. split; auto.
  assert (Hcm : cmodel_ok k (length (inds_order t))) by (eapply pm_core_ok; eauto).
  assert (Efm : fm_cm fm = k).
  { unfold fmodel_make in Em. destruct (_ <? 0)%Z; [discriminate|]. destruct k as [|sp np]; [injection Em as <-; reflexivity|]. destruct (np =? 0)%Z; [discriminate|]. injection Em as <-. reflexivity. }
  constructor; auto.
  - rewrite Efm, (over_n_inds O). auto.
  - split; [|split]; [|intros z [Hz|Hz]; discriminate|intros z Hz; discriminate].
    unfold name_bits in Eb. destruct (rank_all _ _) as [ps|]; [|discriminate]. cbn [bind] in Eb. apply of_positions_inv in Eb. rewrite (over_n_inds O). apply Eb.
Qed.
Lemma fw_lived_facts maxnew (o : fw_obj R) : fw_lived lg maxnew o -> fw_facts maxnew o.
Proof.
  intros [(fr & p & ts & d & output & chk & t & m & r & ds & skip & o0 & us & Hl & Hf & Hus & Ht & W & G & H0 & Hr)].
  pose proof (over_make Ht) as O. destruct (fo_make_inv O W G Hl Hf H0) as (b & fm & s0 & Hi & Eb & Em & HB & ->).
  unfold fo_run in Hr. cbn [fo_state fo_tree fo_model fo_skip] in Hr. destruct (fw_run lg us s0) as [s|] eqn:Er; [|discriminate]. cbn [bind] in Hr. injection Hr as <-.
  destruct (built_run HB Hus Er) as (HI & D1 & D2 & D3 & D4 & P & _). destruct (fw_trees O HB Hus Er) as (T1 & T2).
  pose proof (min_shape HB Hus Er) as (G1 & G2 & G3 & G4 & G5).
  constructor; cbn [fo_state fo_tree fo_model fo_skip]; auto; [eauto|apply (run_fmin HB Hus Er)|apply (ov_nodup O)|congruence|eauto| |].
  - rewrite <- (over_n_inds O). apply (fv_sl HI).
  - rewrite <- (over_n_inds O). auto.
Qed.
Lemma names_bits_eq order a b la lb : NoDup order -> length a = length order -> length b = length order ->
  names_of order a = Ok la -> names_of order b = Ok lb -> (same_members la lb <-> a = b).
Proof.
  intros HN La Lb Ea Eb. destruct (names_of_ok La) as (l1 & E1 & H1). destruct (names_of_ok Lb) as (l2 & E2 & H2). rewrite Ea in E1. rewrite Eb in E2. injection E1 as <-. injection E2 as <-.
  split; [|intros ->; rewrite Ea in Eb; injection Eb as <-; intros x; tauto]. intros HS. apply btest_eq; [congruence|].
  assert (G : forall (c e : bitset) lc le, length c = length order -> (forall x, In x lc <-> exists i, nth_error order i = Some x /\ mem c i = true) ->
    (forall x, In x le <-> exists i, nth_error order i = Some x /\ mem e i = true) -> same_members lc le -> forall i, btest c i = true -> btest e i = true).
  { clear - HN. intros c e lc le Lc Hc He HS i Hi. assert (Li : i < length order) by (rewrite <- Lc; apply btest_lt; auto).
    assert (Hx : In (nth i order 0) le). { apply HS, Hc. exists i. split; [apply nth_error_nth'; auto|exact Hi]. }
    apply He in Hx. destruct Hx as (j & Ej & Hj). assert (i = j); [|subst; exact Hj]. rewrite NoDup_nth_error in HN. apply HN; auto. rewrite Ej. apply nth_error_nth'. auto. }
  intros i. split; [apply (G a b la lb)|apply (G b a lb la)]; auto. apply members_sym. auto.
Qed.
Lemma names_round order b l : NoDup order -> length b = length order -> names_of order b = Ok l -> name_bits order l = Ok b.
Proof.
  intros HN L E. destruct (names_of_ok L) as (l1 & E1 & H1). rewrite E in E1. injection E1 as <-.
  assert (Hi : incl l order) by (intros x Hx; apply H1 in Hx; destruct Hx as (i & Ei & _); eapply nth_error_In; eauto).
  unfold name_bits. rewrite rank_all_ok by auto. cbn [bind].
  destruct (@of_positions_ok (map (rf order) l) (length order)) as (b' & E' & L' & T').
  { intros i H. apply rf_in in H; auto. destruct H as (x & Ei & _). eapply nth_error_lt; eauto. }
  rewrite E'. f_equal. apply btest_eq; [congruence|]. intros i. rewrite T', rf_in by auto. split.
  - intros (x & Ex & Hx). apply H1 in Hx. destruct Hx as (j & Ej & Hj). assert (i = j); [|subst; exact Hj]. rewrite NoDup_nth_error in HN. apply HN; [eapply nth_error_lt; eauto|congruence].
  - intros Hb. assert (Li : i < length order) by (rewrite <- L; apply btest_lt; auto). exists (nth i order 0). split; [apply nth_error_nth'; auto|].
    apply H1. exists i. split; [apply nth_error_nth'; auto|exact Hb].
Qed.

Lemma fw_state_eq (s s' : fw_state R) n n' : finv lg s n none -> the_fmin s -> finv lg s' n' none -> the_fmin s' ->
  fw_ct s = fw_ct s' -> fw_min_ct s = fw_min_ct s' -> fw_m s = fw_m s' -> fw_rng s = fw_rng s' -> fw_ds s = fw_ds s' -> fw_maxnew s = fw_maxnew s' ->
  fw_skip s = fw_skip s' -> fw_sl s = fw_sl s' -> fw_min_sl s = fw_min_sl s' -> s = s'.
Proof.
  intros HI Hm HI' Hm' E1 E2 E3 E4 E5 E6 E7 E8 E9. pose proof (fv_core HI) as HC. pose proof (fv_core HI') as HC'.
  pose proof (cost_cache_ok HC (fv_cc HI) (fv_pc HI)) as C1. pose proof (cost_cache_ok HC' (fv_cc HI') (fv_pc HI')) as C2.
  pose proof (hyper_fold HC (fv_hyper HI) (core_n_inds HC)) as G1. pose proof (hyper_fold HC' (fv_hyper HI') (core_n_inds HC')) as G2.
  pose proof (fv_width HI) as W1. pose proof (fv_width HI') as W2.
  unfold the_fmin in *. rewrite E1, E3, E8 in *. rewrite E2, E9 in *. rewrite C1 in C2. rewrite G1 in G2. rewrite Hm in Hm'. rewrite <- W2 in W1.
  clear - E1 E2 E3 E4 E5 E6 E7 E8 E9 C2 G2 Hm' W1. destruct s as [a1 a2 a3 a4 a5 a6 a7 a8 a9 a10 [p1 k1] a11 a12], s' as [b1 b2 b3 b4 b5 b6 b7 b8 b9 b10 [p2 k2] b11 b12]. cbn in *. congruence.
Qed.

Definition fw_parts (a b : fw_obj R) : Prop :=
  fw_ct (fo_state a) = fw_ct (fo_state b) /\ fw_min_ct (fo_state a) = fw_min_ct (fo_state b) /\
  inds_order (fo_tree a) = inds_order (fo_tree b) /\
  fw_rng (fo_state a) = fw_rng (fo_state b) /\ fw_ds (fo_state a) = fw_ds (fo_state b) /\
  fw_sl (fo_state a) = fw_sl (fo_state b) /\ fw_min_sl (fo_state a) = fw_min_sl (fo_state b) /\ same_members (fo_skip a) (fo_skip b).
Lemma fo_equal_val n n' (a b : fw_obj R) : fw_facts n a -> fw_facts n' b -> exists v, fo_equal eqr a b = Ok v /\
  (v = true <-> fw_parts a b /\ same_fmodel (fo_model a) (fo_model b)).
Proof.
  intros Fa Fb. unfold fo_equal, fo_reduce, slice_names. rewrite (ff_tree Fa), (ff_mtree Fa), (ff_tree Fb), (ff_mtree Fb). cbn [bind].
  destruct (names_of_ok (ff_len Fa)) as (l1 & N1 & _). destruct (names_of_ok (ff_mlen Fa)) as (l2 & N2 & _).
  destruct (names_of_ok (ff_len Fb)) as (l3 & N3 & _). destruct (names_of_ok (ff_mlen Fb)) as (l4 & N4 & _).
  rewrite N1, N2, N3, N4. cbn [bind].
  eexists. split; [reflexivity|]. rewrite !andb_true_iff, !pytree_iff, pfmodel_iff, Heqr, Bool.eqb_true_iff, !same_set_iff. cbn [M_PyTree.core inds_order]. unfold fw_parts.
  assert (G : inds_order (fo_tree a) = inds_order (fo_tree b) ->
    (same_members l1 l3 <-> fw_sl (fo_state a) = fw_sl (fo_state b)) /\ (same_members l2 l4 <-> fw_min_sl (fo_state a) = fw_min_sl (fo_state b))).
  { intros E. rewrite <- E in N3, N4. pose proof (ff_len Fb) as Lb. pose proof (ff_mlen Fb) as Lb'. rewrite <- E in Lb, Lb'.
    split; [apply (names_bits_eq (ff_nodup Fa) (ff_len Fa) Lb N1 N3)|apply (names_bits_eq (ff_nodup Fa) (ff_mlen Fa) Lb' N2 N4)]. }
  tauto.
Qed.
Lemma fo_state_eq n (a b : fw_obj R) : fw_facts n a -> fw_facts n b -> fw_parts a b -> same_fmodel (fo_model a) (fo_model b) -> fo_state a = fo_state b.
Proof.
  intros Fa Fb (E1 & E2 & E3 & E4 & E5 & E6 & E7 & E8) (S1 & S2 & S3). destruct (ff_inv Fa) as (na & Ia). destruct (ff_inv Fb) as (nb & Ib).
  apply (fw_state_eq Ia (ff_min Fa) Ib (ff_min Fb)); auto.
  - pose proof (ff_model Fa) as M1. pose proof (ff_model Fb) as M2. destruct (pm_core (pf_model (fo_model a)) (inds_order (fo_tree a))) as [k|] eqn:Ek; [|discriminate].
    pose proof (pm_core_same (ff_nodup Fa) S2 Ek) as H. rewrite <- E3 in M2. rewrite H in M2. cbn [bind] in *. rewrite S1 in M1. rewrite M1 in M2. congruence.
  - rewrite (ff_maxnew Fa), (ff_maxnew Fb). reflexivity.
  - destruct (ff_skip Fa) as (ba & B1 & ->). destruct (ff_skip Fb) as (bb & B2 & ->). pose proof (bits_same (ff_nodup Fa) (ff_incl Fa) E8 B1) as H. rewrite E3 in H. congruence.
Qed.
Lemma fo_equal_iff n (a b : fw_obj R) : fw_lived lg n a -> fw_lived lg n b -> exists v, fo_equal eqr a b = Ok v /\
  (v = true <-> fw_alike a b /\ same_fmodel (fo_model a) (fo_model b)).
Proof.
  intros La Lb. pose proof (fw_lived_facts La) as Fa. pose proof (fw_lived_facts Lb) as Fb. destruct (fo_equal_val Fa Fb) as (v & E & H). exists v. split; auto.
  rewrite H. unfold fw_alike, fw_parts. split; [|tauto]. intros (HP & Hs). pose proof (fo_state_eq Fa Fb HP Hs) as ES. destruct HP as (E1 & E2 & E3 & E4 & E5 & E6 & E7 & E8).
  rewrite ES. tauto.
Qed.
Lemma fo_equal_run n (a b : fw_obj R) us : fw_lived lg n a -> fw_lived lg n b -> fo_equal eqr a b = Ok true ->
  match fo_run lg us a, fo_run lg us b with
  | Ok a', Ok b' => fw_alike a' b'
  | Err e, Err e' => e = e'
  | _, _ => False
  end.
Proof.
  intros La Lb E. pose proof (fw_lived_facts La) as Fa. pose proof (fw_lived_facts Lb) as Fb. destruct (fo_equal_val Fa Fb) as (v & E' & H).
  rewrite E in E'. injection E' as <-. destruct (proj1 H eq_refl) as (HP & Hs). pose proof (fo_state_eq Fa Fb HP Hs) as ES. unfold fo_run. rewrite ES.
  destruct (fw_run lg us (fo_state b)) as [s|e]; cbn [bind]; auto. destruct HP as (_ & _ & E3 & _ & _ & _ & _ & E8).
  unfold fw_alike. cbn [fo_state fo_tree fo_skip]. tauto.
Qed.
Lemma fo_copy_ok fr (o : fw_obj R) : fw_lived lg 0 o -> (exists out, exact_inds (core (fo_tree o)) out) \/ fw_ds (fo_state o) = true ->
  exists o', fo_copy lg fr o = Ok o' /\ fo_reduce o' = fo_reduce o /\ fo_state o' = fo_state o /\ fo_equal eqr o o' = Ok true.
Proof.
  intros L HX. pose proof (fw_lived_facts L) as F. destruct L as [(fr0 & p & ts & d & output & chk & t & m & r & ds & skip & o0 & us & Hl & Hf & Hus & Ht & W & G & H0 & Hr)].
  pose proof (over_make Ht) as O. destruct (fo_make_inv O W G Hl Hf H0) as (b & fm & s0 & Hi & Eb & Em & HB & ->).
  unfold fo_run in Hr. cbn [fo_state fo_tree fo_model fo_skip] in Hr. destruct (fw_run lg us s0) as [s|] eqn:Er; [|discriminate]. cbn [bind] in Hr. injection Hr as <-.
  destruct (built_run HB Hus Er) as (HI & D1 & D2 & D3 & D4 & P & _). destruct (f11 HB Hus Er) as (_ & _ & _ & _ & _ & _ & Hss).
  cbn [fo_state fo_tree fo_model fo_skip] in *.
  assert (HX' : (exists out, exact_inds (core t) out) \/ ds = true) by (destruct HX as [HX|HX]; [auto|right; congruence]).
  pose proof (f15 HB fr HX' eq_refl Hus Er) as H15. unfold fw_unpickle, fw_pickle in H15. rewrite Hss, D2 in H15.
  assert (FT := ff_tree F). assert (FMT := ff_mtree F). cbn [fo_state fo_tree fo_model fo_skip] in FT, FMT.
  destruct (names_of_ok (ff_len F)) as (l1 & N1 & _). destruct (names_of_ok (ff_mlen F)) as (l2 & N2 & _). cbn [fo_state fo_tree] in N1, N2.
  pose proof (names_round (ff_nodup F) (ff_len F) N1) as R1. pose proof (names_round (ff_nodup F) (ff_mlen F) N2) as R2. cbn [fo_state fo_tree] in R1, R2.
  assert (HR : fo_reduce (mkFO t m skip s) = Ok (mkPT (fw_ct s) (n_tensors t) (tensors_pos t) (inds_order t), m, fw_rng s, fw_ds s,
    mkPT (fw_min_ct s) (n_tensors t) (tensors_pos t) (inds_order t), l1, l2, skip)).
  { unfold fo_reduce, slice_names. cbn [fo_state fo_tree fo_model fo_skip]. rewrite FT, FMT, N1, N2. reflexivity. }
  unfold fo_copy. rewrite HR. cbn [bind]. unfold fo_make. cbn [inds_order M_PyTree.core].
  replace (forallb (fun x => memb x (inds_order t)) skip) with true by (symmetry; apply forallb_forall; intros x Hx; apply memb_In; auto).
  cbn [negb opt_bits]. rewrite R1, R2. cbn [bind]. rewrite Eb. cbn [bind].
  destruct (pm_core (pf_model m) (inds_order t)) as [k|] eqn:Ek; [|discriminate]. cbn [bind] in Em |- *. rewrite Em. cbn [bind]. rewrite H15. cbn [bind].
  eexists. split; [reflexivity|].
  assert (Hdim : dims (fw_ct s) = dims (core t)) by apply (built_dims HB Hus Er).
  assert (HR2 : fo_reduce (mkFO (mkPT (fw_ct s) (n_tensors t) (tensors_pos t) (inds_order t)) m skip s) = fo_reduce (mkFO t m skip s)).
  { unfold fo_reduce. cbn [fo_state fo_tree fo_model fo_skip inds_order]. rewrite !get_ctree_over by auto. reflexivity. }
  split; [rewrite HR2; auto|]. split; [reflexivity|]. unfold fo_equal. rewrite HR2, HR. cbn [bind].
  rewrite !pytree_eqb_refl, (proj2 (Heqr _ _) eq_refl), Bool.eqb_reflx.
  rewrite !(proj2 (same_set_iff _ _)) by (intros x; tauto).
  rewrite (proj2 (pfmodel_iff m m)); [reflexivity|]. split; auto. split; auto. split; auto. split; auto. destruct (pm_sparse (pf_model m)); simpl; auto. intros x. tauto.
Qed.
End Objects.
