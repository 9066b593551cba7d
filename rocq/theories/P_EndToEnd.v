(** From a circuit to its amplitudes: load, optimize and contract together. *)
From Coq Require Import List Arith NArith ZArith Lia Permutation Bool Ring.
Import ListNotations.
From Verif Require Import P_Base P_Opt P_PyMain.
From Verif Require Import M_Base M_Bitset M_Tree M_CTree M_Cost M_Opt M_InfMem M_FinWidth M_Path M_PyTree M_PyNodes M_OSet M_Random M_Fuse M_Tensor M_Contract M_Decompose M_Circuit M_App.
From Verif Require Import S_Tree S_Opt S_FinWidth S_Path S_PyTree S_Random S_Network S_Fuse S_Tensor S_Contract S_Slice S_Decompose S_Circuit S_Amplitude S_App.
From Verif Require Import P_Path P_Split P_PathMain P_PyBuild P_PyTens P_OSet P_Tensordot P_ContractMain P_ContractThm P_DecomposeNet P_Keeps P_Circuit P_Gates P_Amplitude P_Kronecker P_Load P_Slice P_App P_AppMain.
From Verif Require Import M_Path M_PyTree.
Set Implicit Arguments.
Unset Strict Implicit.
Local Open Scope nat_scope.
Local Notation has := S_Random.has.

(** ** The network of a circuit is not empty *)
Section Nonempty.
Variable K : Type.
Variable F : nums K.
Local Notation A := (n_alg F).
Variable ix : nat -> mark -> nat.

Lemma build_len gs : forall cur bs ts last, @build K ix gs cur = Ok (bs, ts, last) -> length ts = length gs /\ length bs = length gs.
Proof.
  induction gs as [|[a qs] gs IH]; intros cur bs ts last H; cbn [build] in H; [inversion H; auto|].
  apply bind_ok in H. destruct H as (b & Eb & H). apply bind_ok in H. destruct H as ([[bs1 ts1] last1] & E1 & H). inversion H; subst. cbn [length]. destruct (IH _ _ _ _ E1). auto.
Qed.
Lemma mapM_len (X Y : Type) (f : X -> res Y) l : forall l', mapM f l = Ok l' -> length l' = length l.
Proof. induction l as [|x l IH]; intros l' H; cbn [mapM] in H; [inversion H; auto|]. apply bind_ok in H. destruct H as (y & _ & H). apply bind_ok in H. destruct H as (k & Ek & H). inversion H; subst. cbn [length]. auto. Qed.
Lemma dec_all_len (eqb : K -> K -> bool) arrays : forall ts bs us h, decompose_all A eqb arrays ts = Ok (bs, us, h) -> length arrays = length ts -> length us = length ts.
Proof.
  induction arrays as [|a arrays IH]; intros [|xs ts] bs us h H L; try discriminate; cbn [decompose_all] in H; [inversion H; auto|].
  apply bind_ok in H. destruct H as ([[b ys] h1] & _ & H). apply bind_ok in H. destruct H as ([[bs1 us1] h2] & E & H). inversion H; subst. cbn [length] in *. f_equal. eapply IH; eauto.
Qed.
Lemma loop_nonempty arr out p : forall ts (arrays : option (list (nda K))) h ts' ar', contract_loop A arr out p ts arrays h = Ok (ts', ar') -> ts <> [] -> ts' <> [].
Proof.
  assert (AP : forall (l : list (list nat)) z, l ++ [z] <> []) by (intros l z E; apply app_eq_nil in E; destruct E; discriminate).
  induction p as [|[a b] p IH]; intros ts arrays h ts' ar' H N; cbn [contract_loop] in H; [inversion H; subst; auto|].
  destruct (sort2 a b) as [x y]. destruct (x =? y); [discriminate|]. apply bind_ok in H. destruct H as ([ys ts1] & _ & H). apply bind_ok in H. destruct H as ([xs ts2] & _ & H).
  destruct (existsb _ _); [discriminate|]. destruct arrays as [l|].
  - apply bind_ok in H. destruct H as ([ay l1] & _ & H). apply bind_ok in H. destruct H as ([ax l2] & _ & H). apply bind_ok in H. destruct H as ([az zs] & _ & H). eapply IH; eauto.
  - apply bind_ok in H. destruct H as (zs & _ & H). eapply IH; eauto.
Qed.

Lemma pop_less (X : Type) (l : list X) i x l' : pop l i = Ok (x, l') -> length l = Datatypes.S (length l').
Proof.
  intros H. destruct (le_lt_dec (length l) i) as [L|L]; [rewrite (pop_none L) in H; discriminate|]. destruct (@P_Fuse.pop_lt [] X l i L) as (y & k & E & E2). rewrite H in E. inversion E; subst. auto.
Qed.
Lemma loop_lens arr out p : forall ts (l : list (nda K)) h ts' ar', contract_loop A arr out p ts (Some l) h = Ok (ts', ar') -> length l = length ts -> exists l', ar' = Some l' /\ length l' = length ts'.
Proof.
  induction p as [|[a b] p IH]; intros ts l h ts' ar' H N; cbn [contract_loop] in H; [inversion H; subst; eauto|].
  destruct (sort2 a b) as [x y]. destruct (x =? y); [discriminate|]. apply bind_ok in H. destruct H as ([ys ts1] & E1 & H). apply bind_ok in H. destruct H as ([xs ts2] & E2 & H).
  destruct (existsb _ _); [discriminate|].
  apply bind_ok in H. destruct H as ([ay l1] & E3 & H). apply bind_ok in H. destruct H as ([ax l2] & E4 & H). apply bind_ok in H. destruct H as ([az zs] & _ & H). eapply IH; eauto.
  apply pop_less in E1, E2, E3, E4. rewrite !app_length. cbn [length]. lia.
Qed.
Lemma contract_lens arr p ts output l dims ts' out' ar' : contract A arr p ts output (Some l) dims = Ok (ts', out', ar') -> length l = length ts -> exists l', ar' = Some l' /\ length l' = length ts'.
Proof.
  intros EC L. unfold contract in EC. apply bind_ok in EC. destruct EC as (u & _ & EC). apply bind_ok in EC. destruct EC as (o & _ & EC). destruct (negb _); [discriminate|]. apply bind_ok in EC. destruct EC as ([ts2 ar2] & EL & EC). inversion EC; subst.
  eapply loop_lens; eauto.
Qed.

Lemma load_nonempty (R : Type) (g : prng R) lg arr r circuit initial final simplify um dec fuse_width arrays ts os q :
  load F ix g lg arr r circuit initial final simplify um dec fuse_width = Ok (arrays, ts, os) -> touches circuit q -> ts <> [].
Proof.
  intros H T. unfold load in H. apply bind_ok in H. destruct H as ([gs n] & EG & H). apply bind_ok in H. destruct H as ([[ar0 ts0] os0] & EN & H).
  assert (G : gs <> []).
  { unfold final_gates in EG. apply bind_ok in EG. destruct EG as ([gs' n'] & _ & EG). inversion EG; subst. intros E. apply app_eq_nil in E. destruct E as [-> E]. apply map_eq_nil in E. cbn [map concat] in E.
    assert (Hq : In q (filter (fun q : nat => negb (memb q [])) (qubits_of circuit))).
    { apply filter_In. split; [|reflexivity]. unfold qubits_of. rewrite unique_in, in_concat. destruct T as (h & Hh & Hq). exists (snd h). split; auto. apply in_map. auto. }
    rewrite E in Hq. destruct Hq. }
  assert (N0 : ts0 <> [] /\ length ar0 = length ts0).
  { unfold network_of in EN. apply bind_ok in EN. destruct EN as ([[bs us] last] & EB & EN). apply bind_ok in EN. destruct EN as (i & _ & EN). apply bind_ok in EN. destruct EN as (f & _ & EN). inversion EN; subst.
    destruct (build_len EB) as [L1 L2]. split.
    - intros E. apply app_eq_nil in E. destruct E as [E _]. apply map_eq_nil in E. subst us. apply G. apply length_zero_iff_nil. auto.
    - rewrite !app_length, !map_length, app_length, !map_length. lia. }
  destruct N0 as [N0 L0]. apply bind_ok in H. destruct H as ([bs us] & ED & H).
  assert (N1 : us <> []).
  { destruct dec; [|inversion ED; subst; auto]. apply bind_ok in ED. destruct ED as ([[b1 u1] m] & E1 & ED). unfold kronecker in ED. inversion ED; subst. clear ED.
    intros E. apply app_eq_nil in E. destruct E as [E _]. apply map_eq_nil in E. subst u1.
    unfold decompose_network in E1. apply bind_ok in E1. destruct E1 as ([[b2 u2] h] & E2 & E1). apply bind_ok in E1. destruct E1 as ([st c2i] & _ & E1). apply bind_ok in E1. destruct E1 as (ms & _ & E1). apply bind_ok in E1. destruct E1 as (vs & E3 & E1). inversion E1; subst.
    apply mapM_len in E3. pose proof (dec_all_len E2 L0) as L2. cbn [length] in E3. apply N0, length_zero_iff_nil. lia. }
  destruct fuse_width as [w|]; [|inversion H; subst; auto].
  apply bind_ok in H. destruct H as ([p fs] & _ & H). apply bind_ok in H. destruct H as ([[ts' os'] ar] & EC & H). destruct ar as [l|]; [|discriminate]. inversion H; subst. clear H.
  unfold contract in EC. apply bind_ok in EC. destruct EC as (u & _ & EC). apply bind_ok in EC. destruct EC as (o & _ & EC). destruct (negb _); [discriminate|]. apply bind_ok in EC. destruct EC as ([ts2 ar2] & EL & EC). inversion EC; subst.
  eapply loop_nonempty; eauto.
Qed.
End Nonempty.

(** ** End to end *)
Section EndToEnd.
Variable K : Type.
Variable F : nums K.
Local Notation A := (n_alg F).
Hypothesis NF : numbers F.
Let SR : semiring A := num_ring _ NF.
Variable ix : nat -> mark -> nat.
Hypothesis IX : distinct ix.
Local Notation two := (fun _ : nat => 2).

Lemma net2_ok ts : (forall xs, In xs ts -> NoDup xs) -> S_App.network_ok ts (PyInt 2) (fun _ => 2%N) [] None.
Proof. intros H. constructor; auto. - intros t x _. split; [reflexivity|discriminate]. - discriminate. - intros x []. Qed.

Section Run.
Variables (R : Type) (g : prng R) (lg : N -> Z) (arr : list nat -> list nat) (r : nat -> R).
Variables (circuit : list (nda K * list nat)) (Q : list nat) (initial final : state_arg K) (simplify um dec : bool) (fuse_width : option Z).
Hypothesis Hg : prng_ok g.
Hypothesis Harr : forall l, Permutation (arr l) l.
Hypothesis HG : forall h, In h circuit -> is_gate h.
Hypothesis HU : simplify || dec = true -> forall h, In h circuit -> unitary F h.
Hypothesis NQ : NoDup Q.
Hypothesis HQ : forall q, In q Q <-> touches circuit q.
Hypothesis NN : names_normalized F.
Hypothesis Vi : valid_state F Q initial.
Hypothesis Vf : valid_state F Q final.
Hypothesis Pi : proper_state initial.
Hypothesis Pf : proper_state final.
Hypothesis NE : circuit <> [].
Local Notation opens := (open_end ix Q (closing F initial) (closing F final)).
Local Notation amp V := (amplitude F circuit Q (closing F initial) (closing F final) (fun q => V (ix q Ini)) (fun q => V (ix q Fin))).

Lemma some_qubit : exists q, touches circuit q.
Proof.
  destruct circuit as [|h l]; [congruence|]. destruct (HG (or_introl eq_refl)) as (H1 & _). destruct (snd h) as [|q qs] eqn:E; [exfalso; apply H1; auto|]. exists q, h. split; [left; auto|rewrite E; left; auto].
Qed.

(** Any complete path. *)
Lemma any_complete : exists arrays ts os c, load F ix g lg arr r circuit initial final simplify um dec fuse_width = Ok (arrays, ts, os) /\ phase F c /\ (simplify = false -> c = one A) /\
  ts <> [] /\ shaped two arrays ts /\ Forall (@well_shaped K) arrays /\ (forall xs, In xs ts -> NoDup xs) /\ (forall x, In x os <-> opens x) /\ (forall x, In x os -> In x (concat ts)) /\
  forall p cs t, performs (length ts) p cs [t] ->
    exists zs os' az, contract A arr p ts (Some os) (Some arrays) None = Ok ([zs], os', Some [az]) /\ NoDup zs /\ (forall x, In x zs <-> opens x) /\ well_shaped az /\ shape az = map two zs /\
      forall V, bits V -> amp V = mul A c (entry_at A az zs V).
Proof.
  destruct (@load_ok K F NF ix IX R g lg arr r circuit Q initial final simplify um dec fuse_width Hg Harr HG HU NQ HQ NN Vi Vf Pi Pf) as (arrays & ts & os & c & E & Pc & Cs & S & W & N & No & Io & O & LN & _ & V).
  destruct some_qubit as (q & Tq). exists arrays, ts, os, c. split; auto. split; auto. split; auto. split; [eapply load_nonempty; eauto|]. split; auto. split; auto. split; auto. split; auto. split; auto.
  intros p cs t P. destruct (@contract_complete K A SR arr Harr p ts (Some os) arrays None two cs t) as (zs & out' & az & E1 & _ & _ & Nz & Iz & Wz & Sz & Vz); auto.
  { exists two. auto. } { intros x Hx. apply has_concat. auto. }
  exists zs, out', az. split; auto. split; auto.
  assert (ZO : forall x, In x zs <-> In x os).
  { intros x. rewrite Iz. split; [intros [_ [H|H]]; auto|]. intros H. split; [apply has_concat; auto|]. left. exact H. }
  split; [intros x; rewrite ZO; auto|]. split; auto. split; auto. intros v B.
  set (ks := filter (fun x => negb (memb x os)) (unique (concat ts))).
  assert (Nk : NoDup ks) by (apply NoDup_filter, unique_nodup).
  assert (Ik : forall x, In x ks <-> In x (concat ts) /\ ~ In x os) by (intros x; unfold ks; rewrite filter_In, unique_in, negb_true_iff, memb_nIn; tauto).
  rewrite (V ks v Nk Ik B). f_equal. symmetry. apply Vz; auto; [intros x; rewrite Ik, ZO, has_concat; tauto|]. intros x _. apply B.
Qed.

(** With the path of the optimizer without slices. *)
Theorem amplitude_im (P R' B : Type) (g' : prng P) pick (rule : B -> rand R') betas n_steps r' r0 stop : prng_ok g' -> pick_ok pick ->
  exists arrays ts os c res zs os' az, load F ix g lg arr r circuit initial final simplify um dec fuse_width = Ok (arrays, ts, os) /\
    im_core ts (PyInt 2) os [] None g' pick rule betas n_steps r' r0 stop = Ok res /\
    contract A arr (ir_path res) ts (Some os) (Some arrays) None = Ok ([zs], os', Some [az]) /\
    phase F c /\ (simplify = false -> c = one A) /\ NoDup zs /\ (forall x, In x zs <-> opens x) /\ well_shaped az /\ shape az = map two zs /\
    forall V, bits V -> amp V = mul A c (entry_at A az zs V).
Proof.
  intros Hg' Hp. destruct any_complete as (arrays & ts & os & c & E & Pc & Cs & Ne & S & W & N & Io & O & H).
  destruct (@im_core_ok ts (PyInt 2) os [] None (fun _ => 2%N) (net2_ok N) P R' B g' pick rule betas n_steps r' r0 stop Hg' Hp (or_introl eq_refl)) as (res & comps & extra & E1 & _ & (rest & P1 & P2) & _).
  destruct P2 as (_ & t & ->). { destruct ts; [congruence|cbn; lia]. }
  destruct (H _ _ _ P1) as (zs & os' & az & EC & Nz & Iz & Wz & Sz & V). exists arrays, ts, os, c, res, zs, os', az. auto 12.
Qed.

(** With the path and the slices of the optimizer with a limited width. *)
Theorem amplitude_fw (P R' B : Type) (g' : prng P) pick lg' mx (fr0 : frand R') (rule : B -> frand R') betas n_steps u r' r0 stop :
  prng_ok g' -> pick_ok pick -> log_like lg' -> shuffles fr0 -> (forall b, shuffles (rule b)) -> (0 <= mx)%Z -> 0 < u ->
  exists arrays ts os c res zs os' (az : (nat -> nat) -> list (nda K) -> nda K), load F ix g lg arr r circuit initial final simplify um dec fuse_width = Ok (arrays, ts, os) /\
    fw_core ts (PyInt 2) os [] None g' pick lg' mx fr0 rule betas n_steps u r' r0 stop = Ok res /\
    (forall w, exists bs, slices_of A two (fr_slices res) w ts arrays bs) /\
    (forall w bs, slices_of A two (fr_slices res) w ts arrays bs ->
       contract A arr (fr_path res) (map (unsliced (fr_slices res)) ts) (Some (unsliced (fr_slices res) os)) (Some bs) None = Ok ([zs], os', Some [az w bs])) /\
    phase F c /\ (simplify = false -> c = one A) /\ NoDup zs /\ (forall x, In x zs <-> opens x /\ ~ In x (fr_slices res)) /\
    forall (bs : (nat -> nat) -> list (nda K)) ks V, (forall w, slices_of A two (fr_slices res) w ts arrays (bs w)) ->
      NoDup ks -> (forall x, In x ks <-> In x (fr_slices res) /\ ~ opens x) -> bits V ->
      amp V = mul A c (sum_over A two ks (fun w => entry_at A (az w (bs w)) zs w) V).
Proof.
  intros Hg' Hp Hl Hf0 Hfr Hmx Hu. destruct any_complete as (arrays & ts & os & c & E & Pc & Cs & Ne & S & W & N & Io & O & H).
  destruct (@fw_core_ok ts (PyInt 2) os [] None (fun _ => 2%N) (net2_ok N) P R' B g' pick lg' mx fr0 rule betas n_steps u r' r0 stop Hg' Hp Hl Hf0 Hfr Hmx Hu Ne (or_introl eq_refl)) as (res & comps & extra & cz & E1 & _ & (rest & P1 & P2) & Hk & _ & _ & Hsl & _).
  destruct P2 as (_ & t & ->). { destruct ts; [congruence|cbn; lia]. }
  assert (Hh : forall x, In x (fr_slices res) -> In x (concat ts)).
  { intros x Hx. apply has_concat. apply Hsl in Hx. destruct Hx as (sl & Hin & Hx). clear -Hk Hin Hx. induction Hk as [|k ks sl' sls z zs Hs Hc Hp IH]; [destruct Hin|].
    destruct Hin as [->|Hin]; auto. destruct (Hs x Hx) as (t & _ & Ht). eauto. }
  destruct (H _ _ _ P1) as (zs & os' & az & EC & Nz & Iz & Wz & Sz & V).
  destruct (@slicing_exact K A SR arr Harr two (fr_slices res) ts N arrays W S (fr_path res) (Some os) None _ _ _ EC) as (ars & cs & rest & ss' & sout' & f & Ea & P3 & C3 & _ & L1 & L2 & L3 & X).
  inversion Ea; subst ars. clear Ea. assert (RR : rest = [t]) by (unfold performs in *; rewrite P1 in P3; congruence). subst rest.
  destruct (X 0 t eq_refl) as (zs0 & az0 & zs' & X1 & X2 & X3 & Nz' & Iz' & X4). inversion X1; subst zs0. inversion X2; subst az0. clear X1 X2.
  destruct ss' as [|s [|]]; try discriminate. inversion X3; subst s. clear X3.
  assert (SE : forall w, exists bs, slices_of A two (fr_slices res) w ts arrays bs) by (intros w; apply slices_exist; auto; apply (forall2_len S)).
  exists arrays, ts, os, c, res, zs', sout', (fun w bs => nth 0 (f w bs) (mkA [] [])). split; auto. split; auto. split; auto. split.
  { intros w bs Hb. pose proof (C3 w bs Hb) as C4. cbn [option_map] in C4. rewrite C4. f_equal. f_equal. f_equal.
    assert (L : length (f w bs) = 1). { destruct (contract_lens C4) as (l' & El & Ll); [rewrite map_length; apply Hb|]. inversion El; subst l'. exact Ll. } destruct (f w bs) as [|a [|]]; try discriminate. auto. }
  split; auto. split; auto. split; auto. split; [intros x; rewrite Iz', Iz; tauto|].
  intros bs ks v Hb Nk Ik Bv. rewrite (V v Bv). f_equal. apply X4; auto; [|intros x _; apply Bv]. intros x. rewrite Ik, Iz. split; [|tauto]. intros [H1 H2]. split; auto. split; auto.
  apply Hh in H1. apply has_concat in H1. destruct H1 as (i & Hi). exists i. split; auto.
  destruct (@contract_result K A SR arr Harr (fr_path res) ts (Some os) arrays None two _ _ _ N W S EC) as (cs' & rest' & ars' & P4 & _ & _ & _ & _ & _ & PM & _).
  assert (RR : rest' = [t]) by (unfold performs in *; rewrite P1 in P4; congruence). subst rest'. cbn [alltens flat_map] in PM. rewrite app_nil_r in PM. apply (Permutation_in _ (Permutation_sym PM)). apply in_seq.
  destruct Hi as (xs & Hi & _). assert (i < length ts) by (apply nth_error_Some; rewrite Hi; discriminate). lia.
Qed.
End Run.
End EndToEnd.

(** ** Paths for sampling *)
Lemma optimized_im (P R B : Type) (g : prng P) pick (rule : B -> rand R) betas n_steps (opt : nat -> list (list nat) -> path) : prng_ok g -> pick_ok pick ->
  (forall i ts, exists r' r0 stop, forall res, im_core ts (PyInt 2) [] [] None g pick rule betas n_steps r' r0 stop = Ok res -> opt i ts = ir_path res) ->
  forall i ts, ts <> [] -> (forall xs, In xs ts -> NoDup xs) -> exists cs c, performs (length ts) (opt i ts) cs [c].
Proof.
  intros Hg Hp HO i ts Ne N. destruct (HO i ts) as (r' & r0 & stop & H).
  destruct (@im_core_ok ts (PyInt 2) [] [] None (fun _ => 2%N) (net2_ok N) P R B g pick rule betas n_steps r' r0 stop Hg Hp (or_introl eq_refl)) as (res & comps & extra & E1 & _ & (rest & P1 & P2) & _).
  destruct P2 as (_ & t & ->). { destruct ts; [congruence|cbn; lia]. } rewrite (H res E1). eauto.
Qed.
Lemma optimized_fw (P R B : Type) (g : prng P) pick lg mx (fr0 : frand R) (rule : B -> frand R) betas n_steps u (opt : nat -> list (list nat) -> path) :
  prng_ok g -> pick_ok pick -> log_like lg -> shuffles fr0 -> (forall b, shuffles (rule b)) -> (0 <= mx)%Z -> 0 < u ->
  (forall i ts, exists r' r0 stop, forall res, fw_core ts (PyInt 2) [] [] None g pick lg mx fr0 rule betas n_steps u r' r0 stop = Ok res -> opt i ts = fr_path res) ->
  forall i ts, ts <> [] -> (forall xs, In xs ts -> NoDup xs) -> exists cs c, performs (length ts) (opt i ts) cs [c].
Proof.
  intros Hg Hp Hl Hf0 Hfr Hmx Hu HO i ts Ne N. destruct (HO i ts) as (r' & r0 & stop & H).
  destruct (@fw_core_ok ts (PyInt 2) [] [] None (fun _ => 2%N) (net2_ok N) P R B g pick lg mx fr0 rule betas n_steps u r' r0 stop Hg Hp Hl Hf0 Hfr Hmx Hu Ne (or_introl eq_refl)) as (res & comps & extra & cz & E1 & _ & (rest & P1 & P2) & _).
  destruct P2 as (_ & t & ->). { destruct ts; [congruence|cbn; lia]. } rewrite (H res E1). eauto.
Qed.
