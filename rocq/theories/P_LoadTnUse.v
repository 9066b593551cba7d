(** The tensors and tags of a loaded network; loading, optimizing and contracting. *)
From Coq Require Import List Arith NArith ZArith Lia Permutation Bool.
Import ListNotations.
From Verif Require Import P_Base P_Opt P_PyMain.
From Verif Require Import M_Base M_Path M_PyTree M_OSet M_Random M_Fuse M_Tensor M_Contract M_Decompose M_TnApp M_LoadTn.
From Verif Require Import S_Path S_PyTree S_Random S_Network S_Fuse S_Tensor S_Contract S_Decompose S_TnApp S_LoadTn.
From Verif Require Import P_Path P_Split P_PathMain P_PyBuild P_PyTens P_OSet P_Fuse P_Sum P_Contract P_ContractMain P_ContractThm P_DecomposeNet P_DecomposeSum P_Keeps P_TnApp P_LoadTn P_LoadTnMain.
From Verif Require Import M_Path M_PyTree.
Set Implicit Arguments.
Unset Strict Implicit.
Local Open Scope nat_scope.
Local Notation has := S_Random.has.

Lemma nth_forall2 (X Y : Type) (P : X -> Y -> Prop) l k : Forall2 P l k -> forall i x, nth_error l i = Some x -> exists y, nth_error k i = Some y /\ P x y.
Proof. induction 1 as [|a b l k Hab H IH]; intros [|i] x E; cbn in *; try discriminate; [inversion E; subst; eauto|eauto]. Qed.

Section Use.
Variable K : Type.
Variable A : alg K.
Hypothesis SR : semiring A.
Variable eqb : K -> K -> bool.
Variable R : Type.
Variable g : prng R.
Hypothesis Hg : prng_ok g.
Variable lg : N -> Z.
Variable arr : list nat -> list nat.
Hypothesis Harr : forall l, Permutation (arr l) l.

Lemma dummy dim (ts : list (list nat)) : exists l : list (nda K), shaped dim l ts /\ Forall (@well_shaped K) l.
Proof.
  exists (map (fun xs => mkA (map dim xs) (repeat (zero A) (fold_right Nat.mul 1 (map dim xs)))) ts). unfold shaped. induction ts as [|xs ts [I1 I2]]; cbn [map]; split; constructor; auto.
  unfold well_shaped. cbn. rewrite repeat_length. auto.
Qed.
Lemma provided_nothing (l : list (option (nda K))) : (forall a, In a l -> a = None) -> provided l = [].
Proof. unfold provided. induction l as [|a l IH]; intros H; cbn [flat_map]; auto. rewrite (H a (or_introl eq_refl)), IH; auto. intros; apply H; right; auto. Qed.

(** Neither decomposed nor fused. *)
Theorem load_unchanged o dec width r : built (o_net o) -> length (o_tags o) = length (n_list (o_net o)) ->
  n_sparse (o_net o) <> [] \/ (exists t a t', In t (n_list (o_net o)) /\ t_array t = Some a /\ In t' (n_list (o_net o)) /\ t_array t' = None) \/
    (dec = false \/ exists t, In t (n_list (o_net o)) /\ t_array t = None) /\ (forall w, width = Some w -> (w <= 0)%Z) ->
  exists o', load_tn A eqb g lg arr o dec width r = Ok o' /\ n_list (o_net o') = n_list (o_net o) /\
    (forall x, In x (n_out (o_net o')) <-> In x (n_out (o_net o))) /\ (forall x, In x (n_sparse (o_net o')) <-> In x (n_sparse (o_net o))) /\
    o_tags o' = o_tags o /\ o_hyper o' = o_hyper o /\ o_path o' = o_path o.
Proof.
  intros HB HT HC. pose proof (built_facts HB) as FN. unfold load_tn.
  set (arrays := map (@t_array K) (n_list (o_net o))). set (sp := negb (length (n_sparse (o_net o)) =? 0)).
  assert (LA : length arrays = length (n_list (o_net o))) by apply map_length.
  assert (LE : forall l : list (option (nda K)), length (provided l) <= length l).
  { unfold provided. induction l as [|[a|] l IH]; cbn in *; lia. }
  assert (LT : forall l : list (option (nda K)), In None l -> length (provided l) < length l).
  { unfold provided in *. induction l as [|[a|] l IH]; cbn; [tauto| |]; intros H; [destruct H as [H|H]; [discriminate|]; apply IH in H; lia|]. specialize (LE l). lia. }
  assert (GT : forall (l : list (option (nda K))) a, In (Some a) l -> 0 < length (provided l)).
  { unfold provided. induction l as [|[b|] l IH]; cbn; [tauto| |]; intros a H; [lia|]. destruct H as [H|H]; [discriminate|]. eapply IH; eauto. }
  assert (IN : forall t, In t (n_list (o_net o)) -> In (t_array t) arrays) by (intros t Ht; apply in_map; auto).
  assert (D : dec && negb sp && negb (length (provided arrays) <? length arrays) = false).
  { destruct HC as [H|[(t & a & t' & Ht & Ha & Ht' & Ha')|[[->|(t & Ht & Ha)] _]]]; auto.
    - replace sp with true; [rewrite andb_false_r; auto|]. unfold sp. destruct (n_sparse (o_net o)); [congruence|auto].
    - apply IN in Ht'. rewrite Ha' in Ht'. apply LT, Nat.ltb_lt in Ht'. rewrite Ht'. apply andb_false_r.
    - apply IN in Ht. rewrite Ha in Ht. apply LT, Nat.ltb_lt in Ht. rewrite Ht. apply andb_false_r. }
  rewrite D. cbn [bind]. clear D.
  assert (W : forall X (k : Z -> res X) z, (forall w, (w <= 0)%Z -> k w = z) -> match (if sp || negb ((length (provided arrays) =? 0) || (length (provided arrays) =? length arrays)) then None else width) with Some w => k w | None => z end = z).
  { intros X k z Hk. destruct HC as [H|[(t & a & t' & Ht & Ha & Ht' & Ha')|[_ H]]].
    - replace sp with true; auto. unfold sp. destruct (n_sparse (o_net o)); [congruence|auto].
    - apply IN in Ht, Ht'. rewrite Ha in Ht. rewrite Ha' in Ht'. apply LT in Ht'. apply GT in Ht. destruct (Nat.eqb_spec (length (provided arrays)) 0); [lia|]. destruct (Nat.eqb_spec (length (provided arrays)) (length arrays)); [lia|]. cbn. rewrite orb_true_r. auto.
    - destruct (_ || _); auto. destruct width as [w|]; auto. }
  rewrite W. 2:{ intros w Hw. destruct (Z.ltb_spec 0 w); [lia|auto]. }
  cbn [bind].
  destruct (@rebuild K (o_net o) (inds_of (o_net o)) arrays (map Some (o_tags o)) (n_out (o_net o)) (o_hyper o) (o_path o) FN) as (n' & E & B & EI & EA & EO & ES & EZ); auto.
  { rewrite LA, inds_length. lia. } { rewrite map_length, inds_length. auto. }
  { intros i xs a H1 H2. unfold arrays in H2. unfold inds_of in H1. rewrite nth_error_map in H1, H2. destruct (nth_error (n_list (o_net o)) i) as [t|] eqn:Et; [|discriminate]. cbn in *. inversion H1; subst. apply (f_array FN); [eapply nth_error_In; eauto|congruence]. }
  { apply (f_out FN). } { apply (f_sparse FN). }
  fold (inds_of (o_net o)). rewrite E. eexists. split; [reflexivity|]. cbn [o_net o_tags o_hyper o_path].
  split; [|split; auto; split; auto; split; auto; rewrite map_map; cbn; apply map_id].
  rewrite firstn_all2 in EA by (rewrite inds_length; lia). pose proof (built_facts B) as FN'.
  assert (X : forall l1 l2 : list (tensor K), map (@t_inds K) l1 = map (@t_inds K) l2 -> map (@t_array K) l1 = map (@t_array K) l2 -> (forall t, In t l1 -> In t (n_list n')) -> (forall t, In t l2 -> In t (n_list (o_net o))) -> l1 = l2).
  { induction l1 as [|[i1 d1 a1] l1 IH]; intros [|[i2 d2 a2] l2] H1 H2 H3 H4; try discriminate; auto. cbn [map] in *. inversion H1; inversion H2; subst. f_equal; [|apply IH; auto; intros t Ht; [apply H3|apply H4]; right; auto].
    f_equal. pose proof (f_dims FN' (H3 _ (or_introl eq_refl))) as D1. pose proof (f_dims FN (H4 _ (or_introl eq_refl))) as D2. cbn [t_dims t_inds] in *. subst d1 d2. apply map_ext_in. intros x Hx. rewrite EZ; auto.
    apply concat_inds. exists (mkT i2 (map (fun x => Z.of_nat (size (o_net o) x)) i2) a2). split; auto. apply H4. left. auto. }
  apply X; auto.
Qed.

(** Fused, not decomposed. *)
Theorem load_fused o dec w r : built (o_net o) -> plain (o_net o) -> length (o_tags o) = length (n_list (o_net o)) -> n_sparse (o_net o) = [] -> o_path o = None -> (0 < w)%Z ->
  dec = false /\ (exists l, arrays_are (o_net o) l) \/ no_arrays (o_net o) /\ n_list (o_net o) <> [] ->
  exists o' p cs rest, load_tn A eqb g lg arr o dec (Some w) r = Ok o' /\ o_path o' = Some p /\ o_hyper o' = o_hyper o /\
    performs (length (n_list (o_net o))) p cs rest /\ length (n_list (o_net o')) = length rest /\ length (o_tags o') = length rest /\
    (forall x, In x (n_out (o_net o')) <-> In x (n_out (o_net o))) /\ built (o_net o') /\ (forall x, In x (concat (inds_of (o_net o'))) -> size (o_net o') x = size (o_net o) x) /\
    (forall c, In c cs -> exists zs, NoDup zs /\ (forall x, In x zs <-> stays (inds_of (o_net o)) (n_out (o_net o)) (tensors c) x) /\
       forall k, total_width lg (py_dims (n_dims (o_net o))) zs k -> (k <= w)%Z) /\
    forall i c, nth_error rest i = Some c -> exists t h, nth_error (n_list (o_net o')) i = Some t /\ nth_error (o_tags o') i = Some h /\
      NoDup (t_inds t) /\ (forall x, In x (t_inds t) <-> stays (inds_of (o_net o)) (n_out (o_net o)) (tensors c) x) /\
      Permutation (leaves h) (flat_map (fun k => leaves (nth k (o_tags o) Empty)) (tensors c)) /\
      (no_arrays (o_net o) -> t_array t = None).
Proof.
  intros HB HP HT Hs Hpa Hw HC. pose proof (built_facts HB) as FN. set (n := o_net o) in *. set (ts := inds_of n).
  assert (IO : forall x, In x (n_out n) -> In x (concat ts)) by (apply (f_out FN)).
  destruct (@fuse_accepts R g lg ts (py_dims (n_dims n)) w (Some (n_out n)) [] r Hg HP) as (p & fs & cs & rest & Ef & P & F).
  { intros [(x & [] & _)|[(x & H1 & H)|[(H & _)|(o2 & H & x & Hx & H')]]]; [|discriminate|].
    - apply (H (N.of_nat (size n x))). apply py_dims_is; auto. apply has_concat. auto.
    - inversion H; subst o2. apply IO, has_concat in Hx. destruct Hx as (t & Ht). apply (H' t Ht). }
  assert (LN : length ts = length (n_list n)) by apply inds_length.
  (* tags *)
  destruct (@fuse_tags_ok (fun c t => exists h, t = Some h /\ Permutation (leaves h) (flat_map (fun k => leaves (nth k (o_tags o) Empty)) (tensors c)))) with (p := p) (us := map T (seq 0 (length ts))) (l := map Some (o_tags o)) (cs := cs) (rest := rest) as (tags2 & Et & Ft); auto.
  { intros a b x y (h1 & -> & H1) (h2 & -> & H2). split; exists (Pair h1 h2); split; auto; cbn [leaves tensors]; rewrite flat_map_app; [apply Permutation_app; auto|]. rewrite Permutation_app_comm. apply Permutation_app; auto. }
  { rewrite LN, <- HT. assert (G : forall l pre, Forall2 (fun c t => exists h, t = Some h /\ Permutation (leaves h) (flat_map (fun k => leaves (nth k (pre ++ l) Empty)) (tensors c))) (map T (seq (length pre) (length l))) (map Some l)).
    { induction l as [|a l IH]; intros pre; cbn [length seq map]; constructor.
      - exists a. split; auto. cbn [tensors flat_map]. rewrite app_nil_r, app_nth2, Nat.sub_diag by lia. auto.
      - specialize (IH (pre ++ [a])). rewrite <- app_assoc in IH. cbn [app] in IH. rewrite app_length in IH. cbn [length] in IH. rewrite Nat.add_1_r in IH. exact IH. }
    apply (G (o_tags o) []). }
  (* the arrays, or others in their place *)
  assert (LL : exists l, shaped (size n) l ts /\ Forall (@well_shaped K) l /\ (arrays_are n l \/ no_arrays n /\ n_list n <> [])).
  { destruct HC as [[_ (l & Hl)]|HC]; [exists l; destruct (arrays_shaped FN Hl); auto|]. destruct (dummy (size n) ts) as (l & H1 & H2). exists l. auto. }
  destruct LL as (l & S & W & AL).
  assert (Acc : exists z, contract A arr p ts (Some (n_out n)) (Some l) (Some (py_dims (n_dims n))) = Ok z).
  { apply (contract_accepts SR Harr); auto; [intros k E3; inversion E3; subst; auto|]. split; [|split; [intros x Hx; apply has_concat; auto|eauto]].
    exists (size n). split; auto. intros t x Hx. apply py_dims_is; auto. apply has_concat. eauto. }
  destruct Acc as (((ts2, out2), ar2) & E). destruct (contract_result SR Harr HP W S E) as (cs' & rest' & l2 & P' & -> & L1 & L2 & No2 & Io2 & _ & RR).
  assert (Er : rest' = rest) by (unfold performs in P, P'; fold ts in P'; rewrite P in P'; congruence). subst rest'.
  destruct (contract_keeps_value SR Harr HP W S E) as (l3 & El3 & S2 & W2 & N2 & _ & _ & I2 & O2 & _). inversion El3; subst l3. clear El3.
  pose proof (@contract_inds_only K A arr p ts (Some (n_out n)) l _ (py_dims (n_dims n)) _ _ _ E (fun t x Hx => ex_intro _ _ (py_dims_is FN (proj1 (has_concat ts x) (ex_intro _ t Hx))))) as E0.
  assert (LR : length rest <= length (n_list n)).
  { destruct (contract_result SR Harr HP W S E) as (c2 & r2 & a2 & P2 & _ & _ & _ & _ & _ & PM & _). assert (r2 = rest) by (unfold performs in P, P2; fold ts in P2; rewrite P in P2; congruence). subst r2. apply Permutation_length in PM. fold ts in PM. rewrite seq_length, LN in PM. rewrite <- PM.
    clear. unfold alltens. induction rest as [|c rest IH]; cbn [flat_map length]; [lia|]. rewrite app_length. assert (1 <= length (tensors c)); [|lia]. clear. induction c; cbn; [lia|]. rewrite app_length. lia. }
  assert (LT2 : length tags2 = length rest) by (symmetry; apply (forall2_len Ft)).
  assert (FIN : forall arrs : list (option (nda K)), length arrs >= length ts2 -> (forall i xs a, nth_error ts2 i = Some xs -> nth_error arrs i = Some (Some a) -> shape a = map (size n) xs /\ well_shaped a) -> (no_arrays n -> forall a, In a arrs -> a = None) ->
    exists o', (let! (Ts, gs) := remake (n_dims n) ts2 arrs tags2 in let! n' := make_network Ts (Some out2) (Some (n_sparse n)) in Ok (mkO n' gs (o_hyper o) (Some p))) = Ok o' /\ o_path o' = Some p /\ o_hyper o' = o_hyper o /\
    performs (length (n_list n)) p cs rest /\ length (n_list (o_net o')) = length rest /\ length (o_tags o') = length rest /\
    (forall x, In x (n_out (o_net o')) <-> In x (n_out n)) /\ built (o_net o') /\ (forall x, In x (concat (inds_of (o_net o'))) -> size (o_net o') x = size n x) /\
    (forall c, In c cs -> exists zs, NoDup zs /\ (forall x, In x zs <-> stays ts (n_out n) (tensors c) x) /\
       forall k, total_width lg (py_dims (n_dims n)) zs k -> (k <= w)%Z) /\
    forall i c, nth_error rest i = Some c -> exists t h, nth_error (n_list (o_net o')) i = Some t /\ nth_error (o_tags o') i = Some h /\
      NoDup (t_inds t) /\ (forall x, In x (t_inds t) <-> stays ts (n_out n) (tensors c) x) /\
      Permutation (leaves h) (flat_map (fun k => leaves (nth k (o_tags o) Empty)) (tensors c)) /\
      (no_arrays n -> t_array t = None)).
  { intros arrs La Ha Hn. destruct (@rebuild K n ts2 arrs tags2 out2 (o_hyper o) (Some p) FN) as (n' & Eb & B & EI & EA & EO & ES & EZ); auto.
    { congruence. } { intros x Hx. apply Io2 in Hx. apply O2; auto. } { rewrite Hs. intros x []. }
    eexists. split; [exact Eb|]. cbn [o_path o_hyper o_net o_tags]. split; auto. split; auto. split; [rewrite <- LN; auto|].
    split; [rewrite <- inds_length, EI; auto|]. split; [rewrite map_length; auto|]. split; [intros x; rewrite EO; apply Io2|]. split; auto. split; [intros x Hx; apply EZ; rewrite EI in Hx; auto|]. split.
    { intros c Hc. clear -F Hc. induction F as [|c0 zs cs fs (_ & H1 & H2 & H3 & _) F IH]; [destruct Hc|]. destruct Hc as [->|Hc]; [exists zs; auto|auto]. }
    intros i c Hi. destruct (RR i c Hi) as (zs & az & Z1 & Z2 & Nz & Iz & _). destruct (nth_forall2 Ft Hi) as (tg & T1 & h & -> & Hh).
    pose proof Z1 as Z3. rewrite <- EI in Z3. unfold inds_of in Z3. rewrite nth_error_map in Z3. destruct (nth_error (n_list n') i) as [t|] eqn:Eti; [|discriminate]. cbn in Z3. inversion Z3 as [Z4].
    exists t, h. split; auto. split; [rewrite nth_error_map, T1; auto|]. rewrite Z4. split; auto. split; auto. split; auto.
    intros Hno. apply Hn; auto. assert (X : In (t_array t) (map (@t_array K) (n_list n'))) by (apply in_map; eapply nth_error_In; eauto). rewrite EA in X. clear -X. revert X. generalize (length ts2) as k. intros k X. rewrite <- (firstn_skipn k arrs). apply in_or_app. auto. }
  unfold load_tn. fold n. fold (inds_of n). fold ts. rewrite Hs in FIN. rewrite Hs. cbn [length Nat.eqb negb orb]. rewrite andb_true_r.
  destruct AL as [AL|[AL Ne]].
  - pose proof (lens AL) as Ll. fold n in Ll. unfold arrays_are in AL. rewrite AL, provided_some, map_length, Nat.ltb_irrefl, Nat.eqb_refl, orb_true_r. cbn [negb]. rewrite andb_true_r.
    assert (Hd : dec = false \/ no_arrays n /\ n_list n <> []) by tauto. assert (DF : dec = false). { destruct Hd as [|[Na Ne]]; auto. exfalso. destruct (n_list n) as [|t nl] eqn:X; [congruence|]. destruct l as [|a l0]; [discriminate|]. cbn [map] in AL. inversion AL as [[AL1 AL2]]. rewrite (Na t) in AL1; [discriminate|rewrite X; left; auto]. }
    rewrite DF. cbn [bind]. destruct (Z.ltb_spec 0 w); [|lia]. rewrite Ef. cbn [bind]. rewrite Hpa.
    destruct (length l =? 0) eqn:L0.
    + apply Nat.eqb_eq in L0. rewrite E0. cbn [bind]. rewrite Et. cbn [bind fst snd]. destruct (FIN (map Some l)) as (o' & X & Y); [rewrite map_length; lia| |intros Hno a Ha; destruct l; [destruct Ha|discriminate]|exists o', p, cs, rest; split; [exact X|exact Y]].
      intros i xs a _ H2. destruct l; [destruct i; discriminate|discriminate].
    + rewrite provided_some, E. cbn [bind]. rewrite Et. cbn [bind fst snd]. destruct (FIN (map Some l2)) as (o' & X & Y); [rewrite map_length; lia|intros i xs a; apply (shaped_nth S2 W2)| |exists o', p, cs, rest; split; [exact X|exact Y]].
      intros Hno a Ha. exfalso. destruct l as [|b l0]; [discriminate|]. destruct (n_list n) as [|t nl] eqn:X; [discriminate|]. cbn [map] in AL. inversion AL as [[AL1 AL2]]. rewrite (Hno t) in AL1; [discriminate|rewrite X; left; auto].
  - assert (PN : provided (map (@t_array K) (n_list n)) = []) by (apply provided_nothing; intros a Ha; apply in_map_iff in Ha; destruct Ha as (t & <- & Ht); auto).
    rewrite PN. cbn [length Nat.eqb orb negb]. rewrite map_length. destruct (Nat.ltb_spec 0 (length (n_list n))) as [_|X]; [|destruct (n_list n); [congruence|cbn in X; lia]]. cbn [negb]. rewrite andb_false_r. cbn [bind].
    destruct (Z.ltb_spec 0 w); [|lia]. rewrite Ef. cbn [bind]. rewrite Hpa, E0. cbn [bind]. rewrite Et. cbn [bind fst snd].
    assert (NN : forall a, In a (map (@t_array K) (n_list n)) -> a = None) by (intros a Ha; apply in_map_iff in Ha; destruct Ha as (t & <- & Ht); auto).
    destruct (FIN (map (@t_array K) (n_list n))) as (o' & X & Y); [rewrite map_length; lia| |auto|exists o', p, cs, rest; split; [exact X|exact Y]].
    intros i xs a _ H2. apply nth_error_In in H2. apply NN in H2. discriminate.
Qed.
End Use.
