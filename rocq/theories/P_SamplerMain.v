(** The calls of a Sampler. *)
From Coq Require Import List Arith NArith ZArith Reals Lia Permutation Bool Sorted.
Import ListNotations.
From Verif Require Import P_Base P_Opt P_PyMain.
From Verif Require Import M_Base M_Path M_PyTree M_OSet M_Random M_Fuse M_Tensor M_Contract M_Decompose M_Circuit M_Sampling S_Path S_Random S_Tensor S_Circuit S_Amplitude S_Sampling.
From Verif Require Import P_Path P_Split P_PathMain P_PyBuild P_OSet P_Fuse P_Sum P_Array P_ContractMain P_Circuit P_Gates P_Same P_Amplitude P_Load P_SampleNet P_Classical P_Draws P_Born P_Sampling P_SampleMain.
From Verif Require Import M_Path M_PyTree M_Sampler S_Sampler P_Sampler.
Set Implicit Arguments.
Unset Strict Implicit.
Local Open Scope nat_scope.

Lemma seed_after (P : Type) (py_seed : nat -> P) randrange seed w s k : new_sampler py_seed randrange seed w = Ok s -> seed_at randrange (py_seed seed) (S k) = seed_at randrange (sp_rng s) k.
Proof. unfold new_sampler. cbn [seed_at]. destruct (randrange (py_seed seed)) as [x r]. destruct (finite_width w); [discriminate|]. intros E. injection E as <-. reflexivity. Qed.
Lemma report_ok o bs : length bs = op_samples o -> 0 < op_samples o ->
  NoDup (map fst (report o bs)) /\
  (forall b x, In (b, x) (report o bs) <-> In b bs /\ x = (INR (count_occ (list_eq_dec Nat.eq_dec) bs b) / INR (if op_normalize o then length bs else 1))%R) /\
  StronglySorted (fun x y => (snd y <= snd x)%R) (report o bs).
Proof.
  intros L P. unfold report. destruct (op_normalize o).
  - rewrite <- L. destruct (@fractions_ok bs) as (A & B & _ & D); auto. intros ->. simpl in L. lia.
  - destruct (counts_ok bs) as (A & B & D). split; [rewrite map_map; exact A|]. split.
    + intros b x. rewrite in_map_iff. cbn [INR]. split.
      * intros ([b' c] & E & H). injection E as <- <-. apply B in H. destruct H as [H ->]. split; auto. cbn [fst snd]. field.
      * intros [H ->]. eexists. split; [|apply B; split; [exact H|reflexivity]]. cbn [fst snd]. f_equal. field.
    + clear - D. induction D as [|x l _ IH H]; cbn [map]; constructor; auto. apply Forall_map. eapply Forall_impl; [|exact H]. intros y Hy. cbn [snd]. apply le_INR. exact Hy.
Qed.

Section Calls.
Variable K : Type.
Variable F : nums K.
Hypothesis NF : numbers F.
Variable abs2 : K -> R.
Hypothesis MOD : modulus F abs2.
Variable ix : nat -> mark -> nat.
Hypothesis IX : distinct ix.
Variable qubit_of : nat -> nat.
Hypothesis QO : forall q m, qubit_of (ix q m) = q.
Variables (G : Type) (g : prng G) (lg : N -> Z).
Hypothesis Hg : prng_ok g.
Hypothesis NN : names_normalized F.
Variables (P : Type) (randrange : P -> nat * P) (random : nat -> nat -> R).
Notation gate := (nda K * list nat)%type.
Notation prepared arr := (prepared F ix qubit_of g lg arr).
Notation sampled arr := (sampled F abs2 random arr).
Notation call arr := (call_sampler F abs2 ix qubit_of g lg randrange random arr).
Notation session arr := (sampler_session F abs2 ix qubit_of g lg randrange random arr).
Notation setting := (setting G).

Definition setting_of (arr : list nat -> list nat) (o : options) (c : chances G) : setting :=
  mkSetting arr (ch_r c) (op_simplify o) (op_commute o) (op_decompose o) (op_fuse o) (ch_opt c).
Lemma prepared_prep arr circuit o c : prepared arr circuit o c = prep F ix qubit_of g lg (setting_of arr o c) circuit (op_order o).
Proof. reflexivity. Qed.
Lemma setting_usual arr o c : (forall l, Permutation (arr l) l) -> solves c -> usual (setting_of arr o c).
Proof. intros H S. split; auto. Qed.

Section Two.
Variables arr arr' : list nat -> list nat.
Hypothesis Ha : forall l, Permutation (arr l) l.
Hypothesis Ha' : forall l, Permutation (arr' l) l.

Definition twin (m m' : intermediate K) : Prop := exists circuit, proper F circuit /\ exists o o' c c', solves c /\ solves c' /\
  prepared arr circuit o c = Ok m /\ prepared arr' circuit o' c' = Ok m'.
Lemma twin_draws m m' : twin m m' -> exists circuit : list gate, snd m = qubits_of circuit /\ snd m' = qubits_of circuit /\
  forall Q Q', covers circuit Q -> covers circuit Q' -> forall n u,
    same_res (Forall2 (agree Q Q')) (run_draws u (sample_many F abs2 arr Q (fst m) n)) (run_draws u (sample_many F abs2 arr' Q' (fst m') n)).
Proof.
  intros (circuit & HC & o & o' & c & c' & S & S' & E & E').
  destruct (@prepare_twins K F NF abs2 MOD ix IX qubit_of QO G g lg Hg NN (setting_of arr o c) (setting_of arr' o' c') circuit (op_order o) (op_order o')) with (m := m) (m' := m') as (ops & ops' & -> & -> & T); auto; try (apply setting_usual; auto).
  exists circuit. split; auto. split; auto. intros Q Q' CQ CQ' n u. rewrite !run_play. apply mirror_play. exact (many_twins (T Q Q' CQ CQ') n).
Qed.
Lemma agree_same Q b b' : agree Q Q b b' -> b = b'.
Proof. intros (v & _ & -> & ->). auto. Qed.
Lemma agree_all Q bs bs' : Forall2 (agree Q Q) bs bs' -> bs = bs'.
Proof. induction 1 as [|b b' bs bs' H _ IH]; auto. f_equal; auto. apply (agree_same H). Qed.
Lemma order_checked (circuit : list gate) q :
  forallb (fun x => memb x (qubits_of circuit)) q && forallb (fun x => memb x q) (qubits_of circuit) = true <-> forall x, In x q <-> touches circuit x.
Proof.
  rewrite andb_true_iff, !forallb_forall. split.
  - intros [B1 B2] x. rewrite <- qubits_of_in. split; intros H; apply memb_In; auto.
  - intros H. split; intros x Hx; apply memb_In; [apply qubits_of_in, H|apply H, qubits_of_in]; auto.
Qed.
Lemma covers_arr a (circuit : list gate) : (forall l, Permutation (a l) l) -> covers circuit (a (qubits_of circuit)).
Proof.
  intros H. split; [eapply Permutation_NoDup; [apply Permutation_sym, H|apply unique_nodup]|]. intros q. rewrite <- qubits_of_in.
  split; apply Permutation_in; [|apply Permutation_sym]; apply H.
Qed.
Lemma report_similar o o' bs : similar o o' -> report o bs = report o' bs.
Proof. intros (_ & E1 & E2). unfold report. rewrite E1, E2. auto. Qed.
Lemma sampled_twins m m' o o' seed : twin m m' -> similar o o' -> NoDup (order_of o) -> arr = arr' \/ op_order o <> None -> sampled arr m o seed = sampled arr' m' o' seed.
Proof.
  intros T SI N A. destruct (twin_draws T) as (circuit & E & E' & D). destruct m as [ops all], m' as [ops' all']. cbn [fst snd] in *. subst all all'.
  unfold M_Sampler.sampled. pose proof SI as (S1 & S2 & S3). rewrite <- S1, <- S2. unfold order_of in N. destruct (op_order o) as [q|] eqn:Q.
  - destruct (forallb _ q && _) eqn:B; cbn [bind]; auto. assert (CQ : covers circuit q) by (split; auto; apply order_checked; auto).
    specialize (D q q CQ CQ (op_samples o) (random seed)). destruct (run_draws _ _) as [bs|], (run_draws _ _) as [bs'|]; cbn [same_res bind] in *; try tauto; try congruence.
    apply agree_all in D. subst bs'. rewrite (report_similar _ SI). auto.
  - destruct A as [<-|A]; [|congruence]. cbn [bind]. pose proof (@covers_arr arr circuit Ha) as CQ.
    specialize (D _ _ CQ CQ (op_samples o) (random seed)). destruct (run_draws _ _) as [bs|], (run_draws _ _) as [bs'|]; cbn [same_res bind] in *; try tauto; try congruence.
    apply agree_all in D. subst bs'. rewrite (report_similar _ SI). auto.
Qed.
Lemma prepared_twins circuit o o' c c' : proper F circuit -> solves c -> solves c' -> op_order o = op_order o' ->
  prepared arr circuit o c = Err Throw /\ prepared arr' circuit o' c' = Err Throw \/ exists m m', prepared arr circuit o c = Ok m /\ prepared arr' circuit o' c' = Ok m' /\ twin m m'.
Proof.
  intros HC S S' EO. pose proof (@setting_usual arr o c Ha S) as U. pose proof (@setting_usual arr' o' c' Ha' S') as U'. rewrite !prepared_prep, <- EO.
  destruct (@prepare_cases K F NF abs2 MOD ix IX qubit_of QO G g lg Hg NN _ circuit (op_order o) U HC) as [[E B]|(OK & OO & ops & E & _)];
  destruct (@prepare_cases K F NF abs2 MOD ix IX qubit_of QO G g lg Hg NN _ circuit (op_order o) U' HC) as [[E' B']|(OK' & OO' & ops' & E' & _)].
  - left. auto.
  - exfalso. destruct B as [(h & Hh & N1 & N2)|(q & Eq & N)]; [destruct (OK' h Hh); auto|apply N; auto].
  - exfalso. destruct B' as [(h & Hh & N1 & N2)|(q & Eq & N)]; [destruct (OK h Hh); auto|apply N; auto].
  - right. eexists. eexists. split; [exact E|]. split; [exact E'|]. exists circuit. split; auto. exists o, o', c, c'. split; auto. split; auto. split; [exact E|]. rewrite prepared_prep, <- EO. exact E'.
Qed.

Definition twin_past (x y : option (intermediate K)) : Prop := match x, y with None, None => True | Some m, Some m' => twin m m' | _, _ => False end.
Lemma past_nth past past' : Forall2 twin_past past past' -> forall k, twin_past (nth k past None) (nth k past' None).
Proof. induction 1; intros [|k]; simpl; auto. Qed.
Definition fine (q q' : request K) (c c' : chances G) : Prop := alike q q' /\ allowed F q /\ solves c /\ solves c' /\ (arr = arr' \/ ordered q).
Lemma call_twins (s s' : sampler P) past past' q q' c c' : sp_rng s = sp_rng s' -> Forall2 twin_past past past' -> fine q q' c c' ->
  let r := call arr s past q c in let r' := call arr' s' past' q' c' in
  fst (fst r) = fst (fst r') /\ twin_past (snd (fst r)) (snd (fst r')) /\ sp_rng (snd r) = sp_rng (snd r').
Proof.
  intros Es HP (AL & OK & S & S' & A). unfold call_sampler. rewrite <- Es. destruct (randrange (sp_rng s)) as [seed rng].
  destruct q as [circuit o|circuit o|k o], q' as [circuit' o'|circuit' o'|k' o']; cbn [alike] in AL; try tauto; destruct AL as [<- SI]; cbn [allowed ordered] in *.
  - destruct OK as [HC N]. cbn [fst snd]. split; [|simpl; auto]. destruct (@prepared_twins circuit o o' c c' HC S S' (proj1 SI)) as [[-> ->]|(m & m' & -> & -> & T)]; auto. cbn [bind]. rewrite (sampled_twins seed T SI N A). auto.
  - destruct (@prepared_twins circuit o o' c c' OK S S' (proj1 SI)) as [[-> ->]|(m & m' & -> & -> & T)]; cbn [fst snd twin_past sp_rng]; auto.
  - pose proof (past_nth HP k) as T. destruct (nth k past None) as [m|], (nth k past' None) as [m'|]; cbn [twin_past] in T; try tauto; cbn [fst snd twin_past sp_rng]; auto. rewrite (sampled_twins seed T SI OK A). auto.
Qed.
Lemma session_twins l l' : Forall2 (fun a b => fine (fst a) (fst b) (snd a) (snd b)) l l' -> forall (s s' : sampler P) past past', sp_rng s = sp_rng s' -> Forall2 twin_past past past' ->
  session arr s past l = session arr' s' past' l'.
Proof.
  induction 1 as [|[q c] [q' c'] l l' H _ IH]; intros s s' past past' Es HP; cbn [sampler_session]; auto. cbn [fst snd] in H. pose proof (call_twins Es HP H) as X. cbv zeta in X.
  destruct (call arr s past q c) as [[a m] s1], (call arr' s' past' q' c') as [[a' m'] s1']. cbn [fst snd] in X. destruct X as (<- & T & E1). f_equal. apply IH; auto. apply Forall2_app; auto.
Qed.
End Two.

(** ** One call among others *)
Section One.
Variable arr : list nat -> list nat.
Hypothesis Ha : forall l, Permutation (arr l) l.

(** What sample gives on its own, with this seed. *)
Definition alone (circuit : list gate) (o : options) (c : chances G) (seed : nat) : res answer :=
  match play (random seed) (sample F abs2 ix qubit_of g lg arr (ch_r c) (op_simplify o) (op_commute o) (op_decompose o) (op_fuse o) (ch_opt c) circuit (op_order o) (op_samples o)) with
  | Ok (bs, qubits) => Ok (Samples (report o bs) qubits)
  | Err e => Err e
  end.
Lemma alone_steps circuit o c seed : (let! m := prepared arr circuit o c in let! (d, qs) := sampled arr m o seed in Ok (Samples d qs)) = alone circuit o c seed.
Proof.
  unfold alone, sample, M_Sampler.prepared. destruct (prepare _ _ _ _ _ _ _ _ _ _ _ _ _ _) as [[ops all]|e] eqn:E; cbn [bind]; [|reflexivity].
  assert (B : forall q, op_order o = Some q -> forallb (fun x => memb x all) q && forallb (fun x => memb x q) all = true).
  { intros q Q. unfold prepare in E. match type of E with (if ?x then _ else _) = _ => destruct x; [discriminate|] end. rewrite Q in E. match type of E with (if ?x then _ else _) = _ => destruct x eqn:X; [discriminate|] end.
    destruct (prepare_all _ _ _ _ _ _ _ _ _ _ _ _ _ _ _); cbn [bind] in E; [|discriminate]. injection E as _ <-. apply negb_false_iff in X. exact X. }
  assert (T : forall (X : Type) (t : draws (list (list nat))) (k : list (list nat) -> X) u, play u (then_ t (fun bs => Return (Ok (k bs)))) = let! bs := play u t in Ok (k bs)).
  { intros X. induction t as [x|p t1 I1 t2 I2]; intros k u; cbn [then_ play]; [destruct x; reflexivity|]. destruct (Rlt_dec (u 0) p); auto. }
  unfold M_Sampler.sampled. rewrite T. destruct (op_order o) as [q|] eqn:Q.
  - rewrite (B q eq_refl). cbn [bind]. rewrite run_play. destruct (play _ _); reflexivity.
  - cbn [bind]. rewrite run_play. destruct (play _ _); reflexivity.
Qed.
Lemma session_app (l1 l2 : list (request K * chances G)) : forall (s : sampler P) past, exists past2 s2, session arr s past (l1 ++ l2) = session arr s past l1 ++ session arr s2 past2 l2.
Proof. induction l1 as [|[q c] l1 IH]; intros s past; cbn [app sampler_session]; [exists past, s; auto|]. destruct (call arr s past q c) as [[a m] s1]. destruct (IH s1 (past ++ [m])) as (p2 & s2 & ->). exists p2, s2. auto. Qed.
Lemma session_nth : forall l k (s : sampler P) past q c, nth_error l k = Some (q, c) -> exists past2 s2,
  nth_error (session arr s past l) k = Some (fst (fst (call arr s2 past2 q c))) /\ fst (randrange (sp_rng s2)) = seed_at randrange (sp_rng s) k /\
  (forall j, j < length past -> nth j past2 None = nth j past None) /\
  forall j circuit o c', j < k -> nth_error l j = Some (Only circuit o, c') -> nth (length past + j) past2 None = match prepared arr circuit o c' with Ok m => Some m | Err _ => None end.
Proof.
  induction l as [|[q1 c1] l IH]; intros [|k] s past q c E; try discriminate; cbn [nth_error] in E; cbn [sampler_session].
  - injection E as <- <-. exists past, s. destruct (call arr s past q1 c1) as [[a m] s1] eqn:C. cbn [nth_error fst]. split; auto. split; auto. split; auto. intros; lia.
  - destruct (call arr s past q1 c1) as [[a m] s1] eqn:C. cbn [nth_error]. destruct (IH k s1 (past ++ [m]) q c E) as (p2 & s2 & N & S & L & O). exists p2, s2. split; auto.
    assert (R : sp_rng s1 = snd (randrange (sp_rng s))).
    { unfold call_sampler in C. destruct (randrange (sp_rng s)) as [seed rng]. destruct q1 as [cc o|cc o|kk o].
      - injection C as _ _ <-. auto.
      - destruct (prepared arr cc o c1); injection C as _ _ <-; auto.
      - destruct (nth kk past None); injection C as _ _ <-; auto. }
    split; [rewrite S, R; auto|]. split.
    + intros j Hj. rewrite L by (rewrite app_length; lia). apply app_nth1. auto.
    + intros [|j] circuit o c' Hj Ej.
      * cbn [nth_error] in Ej. injection Ej as -> ->. rewrite Nat.add_0_r. rewrite L by (rewrite app_length; simpl; lia). rewrite app_nth2, Nat.sub_diag by lia. cbn [nth].
        unfold call_sampler in C. destruct (randrange (sp_rng s)) as [seed rng]. destruct (prepared arr circuit o c'); injection C as _ <- _; auto.
      * cbn [nth_error] in Ej. specialize (O j circuit o c' ltac:(lia) Ej). rewrite app_length in O. simpl in O. rewrite <- O. f_equal. lia.
Qed.
Lemma alone_same circuit o o' c c' seed : proper F circuit -> solves c -> solves c' -> similar o o' -> NoDup (order_of o) -> alone circuit o c seed = alone circuit o' c' seed.
Proof.
  intros HC S S' SI N. rewrite <- !alone_steps. destruct (@prepared_twins arr arr Ha Ha circuit o o' c c' HC S S' (proj1 SI)) as [[-> ->]|(m & m' & -> & -> & T)]; auto. cbn [bind]. rewrite (sampled_twins Ha Ha seed T SI N (or_introl eq_refl)). auto.
Qed.
Lemma call_circuit l k (s : sampler P) circuit o c c0 : nth_error l k = Some (Circuit circuit o, c) -> proper F circuit -> NoDup (order_of o) -> solves c -> solves c0 ->
  nth_error (session arr s [] l) k = Some (alone circuit o c0 (seed_at randrange (sp_rng s) k)).
Proof.
  intros E HC N S S0. destruct (session_nth s [] E) as (p2 & s2 & -> & SE & _). rewrite <- SE. unfold call_sampler. destruct (randrange (sp_rng s2)) as [seed rng]. cbn [fst]. rewrite alone_steps. f_equal. apply alone_same; auto. split; auto.
Qed.
Lemma resume_same circuit o o' c c0 m seed : proper F circuit -> NoDup (order_of o) -> solves c -> solves c0 -> prepared arr circuit o' c = Ok m ->
  (let! (d, qs) := sampled arr m o seed in Ok (Samples d qs)) = alone circuit o c0 seed.
Proof.
  intros HC N S S0 E. rewrite <- alone_steps.
  pose proof (@prepare_cases K F NF abs2 MOD ix IX qubit_of QO G g lg Hg NN _ circuit (op_order o') (@setting_usual arr o' c Ha S) HC) as [[E1 _]|(OK & _ & ops & E1 & _)]; [rewrite prepared_prep in E; congruence|].
  pose proof (@prepare_cases K F NF abs2 MOD ix IX qubit_of QO G g lg Hg NN _ circuit (op_order o) (@setting_usual arr o c0 Ha S0) HC) as [[E2 B]|(_ & _ & ops' & E2 & _)].
  - rewrite (prepared_prep arr circuit o c0), E2. cbn [bind]. destruct B as [(h & Hh & N1 & N2)|(q & Eq & NQ)]; [destruct (OK h Hh); tauto|].
    rewrite prepared_prep, E1 in E. injection E as <-. unfold M_Sampler.sampled. rewrite Eq. destruct (forallb _ q && _) eqn:X; [|reflexivity]. destruct (NQ (proj1 (order_checked circuit q) X)).
  - rewrite (prepared_prep arr circuit o c0), E2. cbn [bind]. rewrite (@sampled_twins arr arr Ha Ha m (ops', qubits_of circuit) o o seed); auto; [|split; auto]. exists circuit. split; auto. exists o', o, c, c0. auto.
Qed.
Lemma call_resume l k j (s : sampler P) circuit o o' c c' c0 : j < k -> nth_error l j = Some (Only circuit o', c') -> nth_error l k = Some (Resume _ j o, c) ->
  proper F circuit -> NoDup (order_of o) -> solves c' -> solves c0 -> nth_error (session arr s [] l) j = Some (Ok State) ->
  nth_error (session arr s [] l) k = Some (alone circuit o c0 (seed_at randrange (sp_rng s) k)).
Proof.
  intros L Ej Ek HC N S S0 OK. destruct (session_nth s [] Ej) as (pj & sj & Nj & _). destruct (session_nth s [] Ek) as (p2 & s2 & -> & SE & _ & O). specialize (O j circuit o' c' L Ej). cbn [length Nat.add] in O.
  rewrite <- SE. rewrite Nj in OK. injection OK as OK. unfold call_sampler in OK. destruct (randrange (sp_rng sj)) as [seedj rngj]. unfold call_sampler. destruct (randrange (sp_rng s2)) as [seed rng]. cbn [fst]. rewrite O.
  destruct (prepared arr circuit o' c') as [m|e] eqn:E; cbn [fst] in *; [|discriminate]. f_equal. apply (@resume_same circuit o o' c' c0 m); auto.
Qed.

(** The qubits' readings do not depend on the order. *)
Lemma orders_same circuit o o' c c' n u bs Q : proper F circuit -> solves c -> solves c' -> NoDup (order_of o) -> NoDup (order_of o') ->
  play u (sample F abs2 ix qubit_of g lg arr (ch_r c) (op_simplify o) (op_commute o) (op_decompose o) (op_fuse o) (ch_opt c) circuit (op_order o) n) = Ok (bs, Q) ->
  (forall q, op_order o' = Some q -> forall x, In x q <-> touches circuit x) ->
  exists bs' Q', play u (sample F abs2 ix qubit_of g lg arr (ch_r c') (op_simplify o') (op_commute o') (op_decompose o') (op_fuse o') (ch_opt c') circuit (op_order o') n) = Ok (bs', Q') /\
    Permutation Q Q' /\ Forall2 (fun b b' => Permutation (combine Q b) (combine Q' b')) bs bs'.
Proof.
  intros HC S S' N N' E HO. assert (T : forall (X : Type) (t : draws (list (list nat))) (k : list (list nat) -> X) u, play u (then_ t (fun bs => Return (Ok (k bs)))) = let! bs := play u t in Ok (k bs)).
  { intros X. induction t as [x|p t1 I1 t2 I2]; intros k v; cbn [then_ play]; [destruct x; reflexivity|]. destruct (Rlt_dec (v 0) p); auto. }
  change (prepare F ix qubit_of g lg arr) with (prepare F ix qubit_of g lg arr) in E. unfold sample in *.
  fold (prepared arr circuit o c) in E. fold (prepared arr circuit o' c').
  pose proof (@prepare_cases K F NF abs2 MOD ix IX qubit_of QO G g lg Hg NN _ circuit (op_order o) (@setting_usual arr o c Ha S) HC) as [[E1 _]|(OK & HOo & ops & E1 & _)];
    [rewrite prepared_prep, E1 in E; discriminate|].
  pose proof (@prepare_cases K F NF abs2 MOD ix IX qubit_of QO G g lg Hg NN _ circuit (op_order o') (@setting_usual arr o' c' Ha S') HC) as [[E2 B]|(_ & _ & ops' & E2 & _)].
  { exfalso. destruct B as [(h & Hh & N1 & N2)|(q & Eq & NQ)]; [destruct (OK h Hh); auto|apply NQ; auto]. }
  rewrite prepared_prep, E1 in E. rewrite prepared_prep, E2. rewrite T in *.
  assert (W : twin arr arr (ops, qubits_of circuit) (ops', qubits_of circuit)) by (exists circuit; split; auto; exists o, o', c, c'; auto).
  assert (CQ : covers circuit (match op_order o with Some q => q | None => arr (qubits_of circuit) end)).
  { unfold order_of in N. destruct (op_order o); [split; auto|apply covers_arr; auto]. }
  assert (CQ' : covers circuit (match op_order o' with Some q => q | None => arr (qubits_of circuit) end)).
  { unfold order_of in N'. destruct (op_order o'); [split; auto|apply covers_arr; auto]. }
  set (R1 := match op_order o with Some q => q | None => _ end) in *. set (R2 := match op_order o' with Some q => q | None => _ end) in *.
  destruct (@prepare_twins K F NF abs2 MOD ix IX qubit_of QO G g lg Hg NN (setting_of arr o c) (setting_of arr o' c') circuit (op_order o) (op_order o')) with (m := (ops, qubits_of circuit)) (m' := (ops', qubits_of circuit)) as (o1 & o2 & X1 & X2 & D); auto; try (apply setting_usual; auto).
  injection X1 as <-. injection X2 as <-. pose proof (mirror_play (many_twins (D R1 R2 CQ CQ') n) u) as M. cbn [st_arr setting_of] in M.
  destruct (play u (sample_many F abs2 arr R1 ops n)) as [bs1|]; cbn [bind] in E; [|discriminate]. injection E as <- <-.
  destruct (play u (sample_many F abs2 arr R2 ops' n)) as [bs2|]; cbn [same_res] in M; [|tauto]. cbn [bind]. exists bs2, R2. split; auto.
  assert (PQ : Permutation R1 R2). { apply NoDup_Permutation; [apply CQ|apply CQ'|]. intros x. rewrite (proj2 CQ x), (proj2 CQ' x). tauto. }
  split; auto. clear - M PQ. induction M as [|b b' bs bs' H _ IH]; constructor; auto. destruct H as (v & _ & -> & ->).
  assert (C : forall l, combine l (map v l) = map (fun x => (x, v x)) l) by (induction l as [|x l IHl]; simpl; [auto|rewrite IHl; auto]). rewrite !C. apply Permutation_map. auto.
Qed.
End One.
End Calls.
