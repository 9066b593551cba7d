(** Circuits of Cirq and Qiskit. *)
From Coq Require Import QArith Qcanon List Arith NArith ZArith Reals Lra Lia Permutation Bool Ring String.
Import ListNotations.
From Verif Require Import P_Base P_Opt P_PyMain.
From Verif Require Import M_Base M_Path M_PyTree M_OSet M_Random M_Fuse M_Tensor M_Contract M_Decompose M_Circuit M_Sampling S_Path S_PyTree S_Random S_Network S_Fuse S_Tensor S_Contract S_Circuit S_Amplitude S_Sampling.
From Verif Require Import P_Path P_Split P_PathMain P_OSet P_Sum P_Array P_Circuit P_Gates P_Same P_Simplify P_Amplitude P_Load P_Born P_SampleMain.
From Verif Require Import M_Path M_PyTree M_Convert S_Convert.
Set Implicit Arguments.
Unset Strict Implicit.
Local Open Scope nat_scope.

Lemma NoDup_app_remove_l (X : Type) (a b : list X) : NoDup (a ++ b) -> NoDup b.
Proof. induction a as [|x a IH]; auto. intros H. inversion H; auto. Qed.
Lemma NoDup_app_remove_r (X : Type) (a b : list X) : NoDup (a ++ b) -> NoDup a.
Proof. induction a as [|x a IH]; [constructor|]. intros H. inversion H; subst. constructor; auto. rewrite in_app_iff in *. tauto. Qed.

Section Convert.
Variable K : Type.
Variable F : nums K.
Local Notation A := (n_alg F).
Hypothesis NF : numbers F.
Let SR : semiring A := num_ring _ NF.
Let SR1 : semi_ring_theory (zero A) (one A) (add A) (mul A) eq := num_ring _ NF.
Add Ring KR : SR1.
Local Notation two := (fun _ : nat => 2).
Notation so := (sum_over A two).
Variable ix : nat -> mark -> nat.
Hypothesis IX : distinct ix.
Notation gate := (nda K * list nat)%type.

(** ** Cirq *)
Lemma gates_app (a b : list (event K)) : gates (a ++ b) = gates a ++ gates b.
Proof. apply flat_map_app. Qed.
Lemma cirq_gates_app (a b : list (cirq_op K)) : cirq_gates (a ++ b) = cirq_gates a ++ cirq_gates b.
Proof. unfold cirq_gates. rewrite flat_map_app. apply gates_app. Qed.
Lemma gates_looks l : gates (map (@Looks K) l) = [].
Proof. induction l; simpl; auto. Qed.
Lemma cirq_gates_in (ops : list (cirq_op K)) h : In h (cirq_gates ops) <-> exists o m, In o ops /\ co_measures o = false /\ co_unitary o = Some m /\ h = (m, co_qubits o).
Proof.
  unfold cirq_gates, gates. rewrite in_flat_map. split.
  - intros (e & He & Hh). destruct e as [g|q]; [|destruct Hh]. destruct Hh as [<-|[]]. apply in_flat_map in He. destruct He as (o & Ho & He). unfold events in He. destruct (co_measures o) eqn:E.
    + apply in_map_iff in He. destruct He as (q & E1 & _). discriminate.
    + destruct (co_unitary o) as [m|] eqn:U; [|destruct He]. destruct He as [He|[]]. injection He as <-. exists o, m. auto.
  - intros (o & m & Ho & M & U & ->). exists (Does (m, co_qubits o)). split; [|left; auto]. apply in_flat_map. exists o. split; auto. unfold events. rewrite M, U. left. auto.
Qed.
Lemma cirq_arrays (ops : list (cirq_op K)) : (forall o, In o ops -> co_measures o = false -> co_unitary o <> None) -> cirq_to_arrays ops = Ok (cirq_gates ops).
Proof.
  unfold cirq_to_arrays. induction ops as [|o ops IH]; intros H; auto. change (o :: ops) with ([o] ++ ops). rewrite cirq_gates_app. cbn [app filter].
  assert (H' : forall o, In o ops -> co_measures o = false -> co_unitary o <> None) by (intros; apply H; auto; right; auto).
  destruct (co_measures o) eqn:M; cbn [negb].
  - rewrite (IH H'). unfold cirq_gates at 2. cbn [flat_map]. unfold events. rewrite M, app_nil_r, gates_looks. auto.
  - cbn [mapM]. assert (U := H o (or_introl eq_refl) M). destruct (co_unitary o) as [m|] eqn:E; [|congruence]. cbn [bind]. rewrite (IH H'). cbn [bind]. unfold cirq_gates at 2. cbn [flat_map]. unfold events. rewrite M, E. auto.
Qed.
Lemma cirq_refuses (ops : list (cirq_op K)) o : In o ops -> co_measures o = false -> co_unitary o = None -> cirq_to_arrays ops = Err Throw.
Proof.
  unfold cirq_to_arrays. induction ops as [|x ops IH]; intros H M U; [destruct H|]. cbn [filter]. destruct H as [->|H].
  - rewrite M. cbn [negb mapM]. rewrite U. auto.
  - destruct (negb (co_measures x)); auto. cbn [mapM]. rewrite (IH H M U). destruct (co_unitary x); auto.
Qed.
Lemma disjoint_commuting (g h : gate) : is_gate g -> is_gate h -> (forall q, In q (snd g) -> ~ In q (snd h)) -> commuting F g h.
Proof.
  intros Hg Hh D. destruct (commute_decides (F := F) (ix := ix) false NF IX Hg Hh) as (b & E & B). destruct (commute_exact (num_ring _ NF) (num_eqb _ NF) IX Hg Hh false) as (b' & E' & H & _).
  apply H. rewrite E in E'. injection E' as <-. apply B. exact D.
Qed.
Lemma concat_perm (l l' : list gate) : Permutation l l' -> Permutation (concat (map snd l)) (concat (map snd l')).
Proof. intros H. rewrite <- !flat_map_concat_map. apply Permutation_flat_map. auto. Qed.
Lemma run_perm (l l' : list gate) : Permutation l l' -> (forall g, In g l -> is_gate g) -> NoDup (concat (map snd l)) ->
  forall Q psi v, (forall g, In g l -> incl (snd g) Q) -> state_of Q psi -> bits v -> run F l psi v = run F l' psi v.
Proof.
  induction 1 as [|g l l' P IH|g h l|l l' l'' P1 IH1 P2 IH2]; intros G N Q psi v I S B; auto.
  - rewrite !run_cons. apply (IH) with (Q := Q); auto.
    + intros k Hk. apply G. right. auto.
    + cbn [map concat] in N. apply (NoDup_app_remove_l N).
    + intros k Hk. apply I. right. auto.
    + apply act_state; auto. apply I. left. auto.
  - rewrite !run_cons. apply P_Simplify.run_ext; auto. intros w Bw. apply (@disjoint_commuting g h) with (Q := Q); auto.
    + apply G. right. left. auto.
    + apply G. left. auto.
    + intros q H1 H2. cbn [map concat] in N. rewrite app_assoc in N. apply NoDup_app_remove_r in N. clear - N H1 H2.
      assert (X : forall (a b : list nat), NoDup (a ++ b) -> In q a -> In q b -> False).
      { induction a as [|x a IHa]; intros b Nb Ha Hb; [destruct Ha|]. inversion Nb as [|? ? N1 N2]; subst. destruct Ha as [->|Ha]; [apply N1, in_app_iff; auto|eauto]. }
      eapply (X (snd h) (snd g)); eauto.
    + apply I. right. left. auto.
    + apply I. left. auto.
  - transitivity (run F l' psi v).
    + apply (IH1 G N Q); auto.
    + apply IH2 with (Q := Q); auto.
      * intros k Hk. apply G. eapply Permutation_in; [apply Permutation_sym, P1|auto].
      * eapply Permutation_NoDup; [apply concat_perm, P1|auto].
      * intros k Hk. apply I. eapply Permutation_in; [apply Permutation_sym, P1|auto].
Qed.
Lemma cirq_gates_perm (a b : list (cirq_op K)) : Permutation a b -> Permutation (cirq_gates a) (cirq_gates b).
Proof. intros H. unfold cirq_gates, gates. apply Permutation_flat_map, Permutation_flat_map. auto. Qed.
Lemma cirq_gates_qubits (ops : list (cirq_op K)) : NoDup (concat (map (@co_qubits K) ops)) -> NoDup (concat (map snd (cirq_gates ops))) /\ incl (concat (map snd (cirq_gates ops))) (concat (map (@co_qubits K) ops)).
Proof.
  induction ops as [|o ops IH]; intros N; [split; [constructor|intros x []]|]. cbn [map concat] in N. pose proof (IH (NoDup_app_remove_l N)) as [I1 I2].
  change (o :: ops) with ([o] ++ ops). rewrite cirq_gates_app, map_app, concat_app. cbn [app map concat].
  assert (C : concat (map snd (cirq_gates [o])) = [] \/ concat (map snd (cirq_gates [o])) = co_qubits o).
  { unfold cirq_gates. cbn [flat_map]. rewrite app_nil_r. unfold events. destruct (co_measures o); [rewrite gates_looks; auto|]. destruct (co_unitary o); simpl; [right; apply app_nil_r|auto]. }
  destruct C as [-> | ->]; cbn [app].
  - split; auto. intros x Hx. apply in_app_iff. right. auto.
  - split.
    + clear - N I1 I2. induction (co_qubits o) as [|x l IHl]; auto. cbn [app] in *. inversion N as [|? ? N1 N2]; subst. constructor; auto. intros H. apply N1. apply in_app_iff in H. apply in_app_iff. destruct H as [H|H]; [auto|right; apply I2; auto].
    + intros x Hx. apply in_app_iff in Hx. apply in_app_iff. destruct Hx; [auto|right; apply I2; auto].
Qed.
(** The order of the operations in the moments does not matter. *)
Lemma moments_perm (c c' : cirq_circuit K) : Forall2 (@Permutation _) c c' -> cirq_ok F c ->
  forall Q psi v, (forall g, In g (cirq_gates (concat c)) -> incl (snd g) Q) -> state_of Q psi -> bits v -> run F (cirq_gates (concat c)) psi v = run F (cirq_gates (concat c')) psi v.
Proof.
  induction 1 as [|m m' c c' P _ IH]; intros OK Q psi v I S B; auto. cbn [concat]. rewrite !cirq_gates_app, !run_app. cbn [concat] in I. rewrite cirq_gates_app in I.
  destruct (OK m (or_introl eq_refl)) as [N G].
  assert (GG : forall g, In g (cirq_gates m) -> is_gate g). { intros g Hg. apply cirq_gates_in in Hg. destruct Hg as (o & u & Ho & M & U & ->). destruct (G o Ho M) as (u' & U' & Hu & _). congruence. }
  transitivity (run F (cirq_gates (concat c)) (run F (cirq_gates m') psi) v).
  - apply P_Simplify.run_ext; auto. intros w Bw. apply run_perm with (Q := Q); auto; [apply cirq_gates_perm; auto|apply cirq_gates_qubits; auto|]. intros g Hg. apply I, in_app_iff. auto.
  - apply IH with (Q := Q); auto.
    + intros mo Hm. apply OK. right. auto.
    + intros g Hg. apply I, in_app_iff. auto.
    + apply run_state; auto. intros g Hg. apply I, in_app_iff. left. eapply Permutation_in; [apply Permutation_sym, cirq_gates_perm, P|auto].
Qed.
Lemma amplitude_run (gs gs' : list gate) Q i f vi vf : (forall psi v, state_of Q psi -> bits v -> run F gs psi v = run F gs' psi v) -> amplitude F gs Q i f vi vf = amplitude F gs' Q i f vi vf.
Proof.
  intros H. unfold amplitude. apply so_ext. intros w O R. f_equal. apply (H (start F Q i vi)); [apply start_state|]. intros q. destruct (in_dec Nat.eq_dec q Q) as [Hq|Hq]; [apply (R q Hq)|rewrite (O q Hq); lia].
Qed.
Lemma amplitude_moments (c c' : cirq_circuit K) Q i f vi vf : Forall2 (@Permutation _) c c' -> cirq_ok F c -> (forall q, In q Q <-> touches (cirq_gates (concat c)) q) ->
  amplitude F (cirq_gates (concat c)) Q i f vi vf = amplitude F (cirq_gates (concat c')) Q i f vi vf.
Proof. intros P OK HQ. apply amplitude_run. intros psi v S B. apply moments_perm with (Q := Q); auto. intros g Hg q Hq. apply HQ. exists g. auto. Qed.
Lemma cirq_fine (c : cirq_circuit K) : cirq_ok F c -> (forall h, In h (cirq_gates (concat c)) -> is_gate h /\ unitary F h) /\ (forall o, In o (concat c) -> co_measures o = false -> co_unitary o <> None).
Proof.
  intros OK. split.
  - intros h Hh. apply cirq_gates_in in Hh. destruct Hh as (o & m & Ho & M & U & ->). apply in_concat in Ho. destruct Ho as (mo & Hm & Ho). destruct (OK mo Hm) as [_ G]. destruct (G o Ho M) as (u & U' & H). replace m with u by congruence. auto.
  - intros o Ho M. apply in_concat in Ho. destruct Ho as (mo & Hm & Ho). destruct (OK mo Hm) as [_ G]. destruct (G o Ho M) as (u & U' & _). congruence.
Qed.

(** ** Measurements *)
Variable abs2 : K -> R.
Hypothesis MOD : modulus F abs2.
Lemma abs2_zero : abs2 (zero A) = 0%R.
Proof. destruct MOD as (re & Ra & _ & Rm & _). rewrite Rm. replace (mul A (zero A) (n_conj F (zero A))) with (zero A) by ring. assert (H := Ra (zero A) (zero A)). replace (add A (zero A) (zero A)) with (zero A) in H by ring. lra. Qed.
Definition eq_at (q o : nat) (w : nat -> nat) : K := if w q =? o then one A else zero A.
Lemma run_project (gs : list gate) q o psi v : (forall g, In g gs -> ~ In q (snd g)) -> run F gs (fun w => if w q =? o then psi w else zero A) v = if v q =? o then run F gs psi v else zero A.
Proof.
  intros H. rewrite (@P_Load.run_ext K F gs _ (fun w => mul A (psi w) (eq_at q o w))).
  - rewrite (@run_factor K F NF gs (eq_at q o) [q]).
    + unfold eq_at. destruct (v q =? o); ring.
    + intros w w' E. unfold eq_at. rewrite (E q); auto. left. auto.
    + intros g Hg x [<-|[]]. auto.
  - intros u. unfold eq_at. destruct (u q =? o); ring.
Qed.
Lemma gates_in (es : list (event K)) g : In g (gates es) <-> In (Does g) es.
Proof.
  unfold gates. rewrite in_flat_map. split.
  - intros ([h|q] & H & Hg); [destruct Hg as [<-|[]]; auto|destruct Hg].
  - intros H. exists (Does g). split; [auto|left; auto].
Qed.
Lemma outcome_settled (es : list (event K)) : settled es -> forall psi v, bits v -> outcome F abs2 es psi v = abs2 (run F (gates es) psi v).
Proof.
  induction es as [|[g|q] es IH]; intros S psi v B; cbn [outcome settled] in *; auto.
  - rewrite IH; auto.
  - destruct S as [S1 S2]. rewrite !IH by auto. change (gates (Looks K q :: es)) with (gates es). rewrite !run_project by (intros g Hg; apply S1, gates_in; auto).
    specialize (B q). destruct (v q) as [|[|n]]; cbn [Nat.eqb]; try lia; rewrite abs2_zero; lra.
Qed.

(** ** Qiskit *)
Lemma big_is_gate (g : gate) : is_gate g -> is_gate (big_endian g).
Proof.
  destruct g as [m qs]. unfold big_endian, is_gate. cbn [fst snd]. intros (H1 & H2 & H3 & H4). rewrite rev_length. split; [|split; [apply NoDup_rev; auto|auto]]. intros E. apply H1. rewrite <- (rev_involutive qs), E. auto.
Qed.
Lemma big_act (g : gate) Q psi v : is_gate g -> reversible_qubits F g -> state_of Q psi -> bits v -> act F (big_endian g) psi v = act F g psi v.
Proof.
  intros Hg RV S B. unfold act. destruct g as [m qs]. cbn [big_endian snd].
  transitivity (so qs (fun w => mul A (element F (big_endian (m, qs)) v w) (psi w)) v).
  - apply (@so_perm K A SR two) with (xs := qs ++ Q); [|apply Permutation_sym, Permutation_rev]. intros w w' E. f_equal.
    + unfold element, big_endian. cbn [fst snd]. do 4 f_equal. apply map_ext_in. intros q Hq. apply E, in_app_iff. left. apply in_rev. auto.
    + apply S. intros q Hq. apply E, in_app_iff. auto.
  - apply so_ext. intros w O R. f_equal. apply RV; auto. intros q. destruct (in_dec Nat.eq_dec q qs) as [Hq|Hq]; [apply (R q Hq)|rewrite (O q Hq); apply B].
Qed.
Lemma big_run (gs : list gate) : forall Q psi v, (forall g, In g gs -> is_gate g /\ reversible_qubits F g /\ incl (snd g) Q) -> state_of Q psi -> bits v -> run F (map (@big_endian K) gs) psi v = run F gs psi v.
Proof.
  induction gs as [|g gs IH]; intros Q psi v H S B; auto. cbn [map]. rewrite !run_cons. destruct (H g (or_introl eq_refl)) as (H1 & H2 & H3).
  transitivity (run F (map (@big_endian K) gs) (act F g psi) v).
  - apply P_Simplify.run_ext; auto. intros w Bw. apply big_act with (Q := Q); auto.
  - apply IH with (Q := Q); auto; [intros k Hk; apply H; right; auto|]. apply act_state; auto.
Qed.
Lemma one_reversible (g : gate) : length (snd g) = 1 -> reversible_qubits F g.
Proof. intros H v w _ _. destruct g as [m [|q [|]]]; try discriminate. auto. Qed.
Lemma qiskit_arrays (c : qiskit_circuit K) : (forall o, In o (qk_ops c) -> qo_matrix o <> None) -> qiskit_to_arrays F c = qiskit_gates c.
Proof.
  unfold qiskit_to_arrays, qiskit_gates. induction (qk_ops c) as [|o l IH]; intros H; auto. cbn [map flat_map]. rewrite IH by (intros; apply H; right; auto). assert (X := H o (or_introl eq_refl)). destruct (qo_matrix o); [auto|congruence].
Qed.
Lemma qiskit_gates_in (c : qiskit_circuit K) h : In h (qiskit_gates c) <-> exists o m, In o (qk_ops c) /\ qo_matrix o = Some m /\ h = (m, qo_qubits o).
Proof.
  unfold qiskit_gates. rewrite in_flat_map. split.
  - intros (o & Ho & Hh). destruct (qo_matrix o) as [m|] eqn:E; [|destruct Hh]. destruct Hh as [<-|[]]. eauto.
  - intros (o & m & Ho & E & ->). exists o. rewrite E. split; [auto|left; auto].
Qed.
Lemma qiskit_fine (c : qiskit_circuit K) : qiskit_ok F c -> (forall h, In h (qiskit_gates c) -> is_gate h /\ unitary F h) /\ qiskit_to_arrays F c = qiskit_gates c.
Proof.
  intros [_ OK]. split.
  - intros h Hh. apply qiskit_gates_in in Hh. destruct Hh as (o & m & Ho & E & ->). destruct (OK o Ho) as (u & E' & H). replace m with u by congruence. auto.
  - apply qiskit_arrays. intros o Ho. destruct (OK o Ho) as (u & E' & _). congruence.
Qed.
Lemma phase_mul c d : phase F c -> phase F d -> phase F (mul A c d).
Proof. unfold phase. intros H1 H2. rewrite (conj_mul _ NF). transitivity (mul A (mul A c (n_conj F c)) (mul A d (n_conj F d))); [ring|]. rewrite H1, H2. ring. Qed.
Lemma phase_conj c : phase F c -> phase F (n_conj F c).
Proof. unfold phase. intros H. rewrite (conj_conj _ NF). rewrite <- H. ring. Qed.

Lemma phase_kills c x : phase F c -> mul A c x = zero A -> x = zero A.
Proof. unfold phase. intros H E. transitivity (mul A (mul A c (n_conj F c)) x); [rewrite H; ring|]. transitivity (mul A (n_conj F c) (mul A c x)); [ring|]. rewrite E. ring. Qed.
Lemma qiskit_load (R : Type) (g : prng R) lg arr r (circuit : qiskit_circuit K) Q initial final simplify um dec fuse_width :
  prng_ok g -> (forall l, Permutation (arr l) l) ->
  qiskit_ok F circuit -> (forall h, In h (qiskit_gates circuit) -> length (snd h) = 1 \/ reversible_qubits F h) ->
  NoDup Q -> (forall q, In q Q <-> touches (qiskit_gates circuit) q) ->
  names_normalized F -> valid_state F Q initial -> valid_state F Q final -> proper_state initial -> proper_state final ->
  exists arrays ts os c, load_qiskit F ix g lg arr r circuit initial final simplify um dec fuse_width = Ok (arrays, ts, os) /\
    phase F c /\ (simplify = false -> c = qk_phase circuit) /\ NoDup os /\
    (forall x, In x os <-> open_end ix Q (closing F initial) (closing F final) x) /\
    forall ks V, NoDup ks -> (forall x, In x ks <-> In x (concat ts) /\ ~ In x os) -> bits V ->
      qiskit_amplitude F circuit Q (closing F initial) (closing F final) (fun q => V (ix q Ini)) (fun q => V (ix q Fin)) =
      mul A c (so ks (network A arrays ts) V).
Proof.
  intros Hg Ha OK RV NQ HQ NN Vi Vf Pi Pf. destruct (qiskit_fine OK) as [G E].
  destruct (load_ok NF IX lg r um fuse_width (simplify := simplify) (dec := dec) Hg Ha (circuit := qiskit_gates circuit) (fun h Hh => proj1 (G h Hh)) (fun _ h Hh => proj2 (G h Hh)) NQ HQ NN Vi Vf Pi Pf) as (arrays & ts & os & c & EL & Pc & Cs & _ & _ & _ & No & Io & _ & _ & _ & V).
  exists arrays, ts, os, (mul A (qk_phase circuit) c). unfold load_qiskit. rewrite E. split; auto. split; [apply phase_mul; auto; apply OK|]. split; [intros Es; rewrite (Cs Es); ring|]. split; auto. split; auto.
  intros ks W Hk Ik Bw. unfold qiskit_amplitude. rewrite (@amplitude_run (map (@big_endian K) (qiskit_gates circuit)) (qiskit_gates circuit)).
  - rewrite (V ks W Hk Ik Bw). ring.
  - intros psi v S B. apply big_run with (Q := Q); auto. intros h Hh. split; [apply G; auto|]. split; [destruct (RV h Hh); auto; apply one_reversible; auto|]. intros q Hq. apply HQ. exists h. auto.
Qed.

(** Instructions without a matrix *)
Section Bad.
Variable bad : gate.
Hypothesis BS : shape (fst bad) = [].
Hypothesis BD : length (data (fst bad)) = 1.
Hypothesis BQ : snd bad <> [].
Lemma bad_invalid : valid_gate bad = false.
Proof. destruct bad as [m qs]. unfold valid_gate. cbn [fst] in BS. rewrite BS. rewrite andb_false_r. auto. Qed.
Lemma same_valid (g h : gate) b : same F g h = Ok b -> valid_gate g = true /\ valid_gate h = true.
Proof. unfold same. destruct (valid_gate g); cbn [negb]; [|discriminate]. destruct (valid_gate h); cbn [negb]; [auto|discriminate]. Qed.
Lemma find_valid um g adj l : forall i j, find_gate F ix um g adj l i = Ok (Some j) -> exists h, nth_error l (j - i) = Some h /\ i <= j /\ valid_gate h = true /\ valid_gate adj = true.
Proof.
  induction l as [|h l IH]; intros i j; cbn [find_gate]; [discriminate|]. destruct (same F h adj) as [s|] eqn:E; cbn [bind]; [|discriminate]. destruct s.
  - intros E1. injection E1 as <-. rewrite Nat.sub_diag. exists h. apply same_valid in E. cbn [nth_error]. destruct E. auto.
  - destruct (commute F ix um h g) as [cm|]; cbn [bind]; [|discriminate]. destruct (negb cm); [discriminate|]. intros E1. destruct (IH _ _ E1) as (k & N & L & V). exists k. split; [|split; [lia|auto]]. replace (j - i) with (S (j - S i)) by lia. auto.
Qed.
Lemma adjoint_bad (a : gate) : adjoint F bad = Ok a -> valid_gate a = false.
Proof.
  destruct bad as [m qs]. unfold adjoint. cbn [fst] in BS. destruct (transpose A _ _) as [b|] eqn:E; cbn [bind]; [|discriminate]. intros E1. injection E1 as <-. rewrite BS in E. unfold valid_gate.
  assert (X : shape b = []). { revert E. unfold transpose. cbn [length seq rev shape]. match goal with |- (if ?x then _ else _) = _ -> _ => destruct x end; intros E; try discriminate; injection E as <-; auto. }
  rewrite X, andb_false_r. auto.
Qed.
Lemma pop_keeps (X : Type) (l : list X) i y l' x : pop l i = Ok (y, l') -> In x l -> x <> y -> In x l'.
Proof.
  revert i l'. induction l as [|a l IH]; intros [|i] l' E H N; cbn [pop] in E; try discriminate.
  - injection E as <- <-. destruct H as [->|H]; [congruence|auto].
  - destruct (pop l i) as [[b r]|] eqn:P; cbn [bind] in E; [|discriminate]. injection E as <- <-. destruct H as [->|H]; [left; auto|right; eauto].
Qed.
Lemma pop_nth (X : Type) (l : list X) i y l' : pop l i = Ok (y, l') -> nth_error l i = Some y.
Proof.
  revert i l'. induction l as [|a l IH]; intros [|i] l' E; cbn [pop] in E; try discriminate.
  - injection E as <- <-. auto.
  - destruct (pop l i) as [[b r]|] eqn:P; cbn [bind] in E; [|discriminate]. injection E as <- <-. cbn [nth_error]. eauto.
Qed.
Lemma pass_keeps um circuit : forall kept ch kept' ch', simplify_pass F ix um circuit kept ch = Ok (kept', ch') -> In bad (kept ++ circuit) -> In bad kept'.
Proof.
  induction circuit as [|g circuit IH]; intros kept ch kept' ch' E H; cbn [simplify_pass] in E; [injection E as <- <-; rewrite app_nil_r in H; auto|].
  destruct (adjoint F g) as [adj|] eqn:EA; cbn [bind] in E; [|discriminate]. destruct (find_gate F ix um g adj (rev kept) 0) as [p|] eqn:EF; cbn [bind] in E; [|discriminate]. destruct p as [i|].
  - destruct (find_valid EF) as (h & N & _ & V & VA). rewrite Nat.sub_0_r in N. destruct (pop kept (length kept - i - 1)) as [[y k1]|] eqn:EP; cbn [bind] in E; [|discriminate]. apply (IH _ _ _ _ E).
    assert (y = h). { apply pop_nth in EP. assert (Li : i < length kept) by (rewrite <- rev_length; apply nth_error_Some; congruence).
      apply nth_error_nth with (d := bad) in N. rewrite rev_nth in N by auto. apply nth_error_nth with (d := bad) in EP. rewrite <- EP, <- N. f_equal. lia. }
    subst y. apply in_app_iff in H. apply in_app_iff. destruct H as [H|[->|H]]; [left|exfalso|right; auto].
    + apply (pop_keeps EP H). intros Eb. rewrite <- Eb, bad_invalid in V. discriminate.
    + rewrite (adjoint_bad EA) in VA. discriminate.
  - apply (IH _ _ _ _ E). rewrite <- app_assoc. auto.
Qed.
Lemma loop_keeps um : forall fuel circuit n gs n', simplify_loop F ix fuel um circuit n = Ok (gs, n') -> In bad circuit -> In bad gs.
Proof.
  induction fuel as [|fuel IH]; intros circuit n gs n' E H; cbn [simplify_loop] in E; [discriminate|]. destruct (simplify_pass F ix um circuit [] false) as [[k ch]|] eqn:P; cbn [bind] in E; [|discriminate].
  pose proof (pass_keeps P H) as H1. destruct ch; [eapply IH; eauto|]. injection E as <- <-. auto.
Qed.
Lemma prod_twos (qs : list nat) : qs <> [] -> prod (twos qs) <> 1.
Proof. clear BS BD BQ. destruct qs as [|q qs]; [congruence|]. intros _. unfold twos. cbn [length]. replace (2 * S (length qs)) with (S (S (2 * length qs))) by lia. cbn [repeat]. unfold prod. cbn [fold_right]. lia. Qed.
Lemma build_bad (gs : list gate) : In bad gs -> forall cur x, build ix gs cur <> Ok x.
Proof.
  induction gs as [|[a qs] gs IH]; intros H cur x E; [destruct H|]. cbn [build] in E. destruct (reshape a (twos qs)) as [b|] eqn:R; cbn [bind] in E; [|discriminate]. destruct H as [Hb|H].
  - unfold reshape in R. rewrite <- Hb in BD, BQ. cbn [fst snd] in BD, BQ. rewrite BD in R. destruct (Nat.eqb_spec (prod (twos qs)) 1) as [e|e]; [|discriminate]. apply (prod_twos BQ e).
  - destruct (build ix gs _) as [[r last]|] eqn:EB; cbn [bind] in E; [|discriminate]. apply (IH H _ _ EB).
Qed.
Lemma load_bad (R : Type) (g : prng R) lg arr r circuit initial final simplify um dec fuse_width net : In bad circuit -> load F ix g lg arr r circuit initial final simplify um dec fuse_width <> Ok net.
Proof.
  intros H E. unfold load in E. destruct (final_gates F ix simplify um circuit) as [[gs n]|] eqn:EG; cbn [bind] in E; [|discriminate].
  assert (HB : In bad gs). { unfold final_gates in EG. destruct simplify.
    - destruct (simplify_loop F ix _ um circuit 0) as [[g1 n1]|] eqn:L; cbn [bind] in EG; [|discriminate]. injection EG as <- <-. apply in_app_iff. left. eapply loop_keeps; eauto.
    - cbn [bind] in EG. injection EG as <- <-. apply in_app_iff. auto. }
  unfold network_of in E. destruct (build ix gs []) as [[x last]|] eqn:EB; cbn [bind] in E; [|discriminate]. apply (build_bad HB EB).
Qed.
End Bad.
End Convert.

(** Equality of numbers with rational parts *)
Lemma rational_same (x y : Qc * Qc) : (this (fst x) == this (fst y))%Q -> (this (snd x) == this (snd y))%Q -> x = y.
Proof. destruct x, y. cbn [fst snd]. intros E1 E2. apply Qc_is_canon in E1. apply Qc_is_canon in E2. congruence. Qed.
