(** Proofs about seeds: the process of a run is the run, whatever the schedule; the
    order of the sets of integers does not matter; more runs and more steps. *)
From Coq Require Import List Arith Bool Lia ZArith Permutation Sorted.
Import ListNotations.
From Verif Require Import M_Base M_Bitset M_Tree M_CTree M_Cost M_Opt M_InfMem M_FinWidth M_Path M_PyTree M_PyNodes M_Random
  M_App M_Parallel M_Tensor M_TnApp M_LoadTn M_Seed S_Seed S_Parallel S_Random P_Base P_ParMain P_RandColor P_RandMain P_PyBuild P_App P_AppMain.
From Verif Require P_Split.
Set Implicit Arguments.
Unset Strict Implicit.

(** * The process *)
Section Process.
Variables (B C X Y : Type) (paths : nat -> res (list path)) (skip : X) (build : nat -> path -> res C)
  (update : nat -> B -> C -> res C) (finish : C -> res X) (wrap : list X -> res Y) (temps : list B).
Notation step := (core_step paths skip build update finish wrap temps).

Fixpoint updates (n : nat) (bs : list B) (c : C) : res C :=
  match bs with [] => Ok c | b :: bs' => let! c' := update n b c in updates (S n) bs' c' end.
Definition comp (seed stop : nat) (p : path) : res X :=
  if length p =? 0 then Ok skip else
  let! c := build seed p in let! c' := updates 0 (firstn stop temps) c in finish c'.

Lemma busy_ok cut seed todo done r : forall rest k n c, returns step cut k (Busy seed todo done n rest c) r ->
  exists s, (cut = None -> s = length rest) /\
    match (let! c' := updates n (firstn s rest) c in finish c') with
    | Ok x => exists k', returns step cut k' (Next B C seed todo (done ++ [x])) r
    | Err e => r = Err e
    end.
Proof.
  induction rest as [|b rest IH]; intros k n c H.
  - exists 0. split; auto. simpl. inversion H as [? ? ? E|? ? s' ? ? E H']; subst; clear H;
      unfold core_step, core_try in E; destruct (finish c) as [x|e]; cbn [bind] in E.
    + discriminate.
    + inversion E. auto.
    + inversion E; subst. eauto.
    + discriminate.
  - destruct (flag cut k) eqn:F.
    + exists 0. split. { intros ->. discriminate. }
      cbn [firstn updates bind]. inversion H as [? ? ? E|? ? s' ? ? E H']; subst; clear H; rewrite F in E;
      unfold core_step, core_try in E; destruct (finish c) as [x|e]; cbn [bind] in E.
      * discriminate.
      * inversion E. auto.
      * inversion E; subst. eauto.
      * discriminate.
    + inversion H as [? ? ? E|? ? s' ? ? E H']; subst; clear H; rewrite F in E;
      unfold core_step, core_try in E; destruct (update n b c) as [c1|e] eqn:Eu; cbn [bind] in E.
      * discriminate.
      * inversion E; subst. exists (S (length rest)). split; auto. cbn [firstn updates]. rewrite Eu. reflexivity.
      * inversion E; subst. destruct (IH _ _ _ H') as (s & Hs & Hm). exists (S s). split; [intros Hc; rewrite Hs by auto; auto|].
        cbn [firstn updates]. rewrite Eu. cbn [bind]. auto.
      * discriminate.
Qed.

Lemma next_ok cut seed r : forall todo j k done, returns step cut k (Next B C seed todo done) r ->
  exists stop : nat -> nat, (cut = None -> forall i, stop i = length temps) /\
    r = (let! xs := each (fun k => comp seed (stop k)) j todo in wrap (done ++ xs)).
Proof.
  induction todo as [|p todo IH]; intros j k done H.
  - exists (fun _ => length temps). split; auto. simpl. rewrite app_nil_r.
    inversion H as [? ? ? E|? ? s' ? ? E H']; subst; clear H; unfold core_step, core_try in E; destruct (wrap done) as [y|e]; cbn [bind] in E; inversion E; auto.
  - destruct (length p =? 0) eqn:L.
    + inversion H as [? ? ? E|? ? s' ? ? E H']; subst; clear H; unfold core_step, core_try in E; rewrite L in E; [discriminate|].
      inversion E; subst. destruct (IH (S j) _ _ H') as (stop & Hs & ->). exists stop. split; auto.
      cbn [each]. unfold comp at 2. rewrite L. cbn [bind]. destruct (each _ (S j) todo); cbn [bind]; auto. rewrite <- app_assoc. auto.
    + inversion H as [? ? ? E|? ? s' ? ? E H']; subst; clear H; unfold core_step, core_try in E; rewrite L in E;
        destruct (build seed p) as [c|e] eqn:Eb; cbn [bind] in E; try discriminate.
      * inversion E; subst. exists (fun _ => length temps). split; auto. cbn [each]. unfold comp at 1. rewrite L, Eb. reflexivity.
      * inversion E; subst. destruct (busy_ok H') as (s & Hs & Hm).
        destruct (let! c' := updates 0 (firstn s temps) c in finish c') as [x|e] eqn:Ex.
        -- destruct Hm as (k' & Hm). destruct (IH (S j) _ _ Hm) as (stop & Hst & ->).
           exists (fun i => if i =? j then s else stop i). split. { intros Hc i. destruct (i =? j); auto. }
           cbn [each]. unfold comp at 2. rewrite Nat.eqb_refl, L, Eb. cbn [bind]. rewrite Ex. cbn [bind].
           replace (each (fun k => comp seed (if k =? j then s else stop k)) (S j) todo) with (each (fun k => comp seed (stop k)) (S j) todo).
           ++ destruct (each _ (S j) todo); cbn [bind]; auto. rewrite <- app_assoc. auto.
           ++ assert (G : forall ps m, j < m -> each (fun k => comp seed (stop k)) m ps = each (fun k => comp seed (if k =? j then s else stop k)) m ps).
              { clear. induction ps as [|q ps IHq]; intros m Hm; auto. cbn [each]. rewrite (IHq (S m)) by lia.
                replace (m =? j) with false by (symmetry; apply Nat.eqb_neq; lia). auto. }
              apply G. lia.
        -- subst r. exists (fun _ => s). split; auto. cbn [each]. unfold comp at 1. rewrite L, Eb. cbn [bind]. rewrite Ex. reflexivity.
Qed.

(** What the run does by itself: [stop k] updates of component [k]. *)
Definition alone (seed : nat) (stop : nat -> nat) : res Y :=
  let! ps := paths seed in let! xs := each (fun k => comp seed (stop k)) 0 ps in wrap xs.
Lemma begin_ok cut seed k r : returns step cut k (Begin B C X seed) r ->
  exists stop : nat -> nat, (cut = None -> forall i, stop i = length temps) /\ r = alone seed stop.
Proof.
  unfold alone. intros H. inversion H as [? ? ? E|? ? s' ? ? E H']; subst; clear H; unfold core_step, core_try in E;
    destruct (paths seed) as [ps|e]; cbn [bind] in E; try discriminate.
  - inversion E; subst. exists (fun _ => length temps). auto.
  - inversion E; subst. destruct (next_ok 0 H') as (stop & Hs & ->). exists stop. auto.
Qed.

Lemma mapM_map (A D E : Type) (f : A -> D) (h : D -> res E) l : mapM h (map f l) = mapM (fun x => h (f x)) l.
Proof. induction l as [|a l IH]; simpl; auto. rewrite IH. auto. Qed.

Lemma run_all_ok seeds es x : run_all paths skip build update finish wrap temps seeds es = x -> x <> Err Fuel ->
  (seeds = [] /\ x = Err Throw) \/
  seeds <> [] /\ exists stops : list (nat -> nat), length stops = length seeds /\
    (~ In Tick es -> Forall (fun s => forall i, s i = length temps) stops) /\
    x = mapM (fun z => alone (fst z) (snd z)) (combine seeds stops).
Proof.
  unfold run_all. intros E HF.
  destruct (@parallel_cases _ _ _ (@core_init B C X) step [] [(0, seeds)] es) as [[Ep [[_ A]|(l & [<-|[]] & A)]]|(NE & _ & _)].
  { discriminate. } { simpl in A. rewrite Ep in E. left. subst. auto. }
  right. assert (Hne : seeds <> []) by (apply (NE seeds); simpl; auto). split; auto.
  destruct (parallel _ _ _ _ _) as [rs|e] eqn:Ep.
  2:{ exfalso. destruct (@parallel_cases _ _ _ (@core_init B C X) step [] [(0, seeds)] es) as [[Ep' [[_ A]|(l & [<-|[]] & A)]]|(_ & _ & w & _ & _ & _ & Ep')].
      - discriminate. - simpl in A. auto.
      - rewrite Ep in Ep'. destruct (P_Parallel.collect_ok (w_tasks w)) as [(rs' & Ec & _)|(Ec & _)]; rewrite Ec in Ep'; [discriminate|].
        inversion Ep'; subst e. simpl in E. auto. }
  cbn [bind] in E. destruct (parallel_aligned Ep) as ((S1 & l & [<-|[]] & S2) & Ha). cbn [snd] in S2.
  assert (G : forall seeds rs, length seeds = length rs ->
      (forall i r s, nth_error rs i = Some r -> nth_error seeds i = Some s -> exists stop : nat -> nat, (~ In Tick es -> forall j, stop j = length temps) /\ r = alone s stop) ->
      exists stops : list (nat -> nat), length stops = length seeds /\ (~ In Tick es -> Forall (fun s => forall i, s i = length temps) stops) /\
        rs = map (fun z => alone (fst z) (snd z)) (combine seeds stops)).
  { clear. induction seeds as [|s seeds IH]; intros [|r rs] L H; try discriminate.
    - exists []. simpl. auto.
    - destruct (IH rs) as (stops & L1 & T & ->). { simpl in L. lia. } { intros i. apply (H (S i)). }
      destruct (H 0 r s eq_refl eq_refl) as (st & Hst & ->). exists (st :: stops). simpl. split; [lia|]. split; auto. }
  destruct (G seeds rs S2) as (stops & L & T & ->).
  { intros i r s Hr Hs. destruct (Ha i r Hr) as (a & kw & cut & (_ & A) & Hc & Hret).
    inversion A as [|? (n & v) ? kw' (E1 & E2) A']; subst. simpl in E1, E2. rewrite Hs in E2. injection E2 as E2. subst v.
    simpl in Hret. destruct (begin_ok Hret) as (stop & Hst & ->). exists stop. split; auto. }
  exists stops. split; auto. split; auto. rewrite mapM_map in E. auto.
Qed.
End Process.

(** * Runs of the two optimizers *)
Lemma each_ext (A : Type) (f h : nat -> path -> res A) : (forall k p, f k p = h k p) -> forall ps k, each f k ps = each h k ps.
Proof. intros H. induction ps as [|p ps IH]; intros k; auto. cbn [each]. rewrite H, IH. auto. Qed.
Lemma mapM_ext (A D : Type) (f h : A -> res D) l : (forall a, In a l -> f a = h a) -> mapM f l = mapM h l.
Proof. induction l as [|a l IH]; intros H; auto. simpl. rewrite (H a), IH; simpl; auto. intros; apply H; simpl; auto. Qed.
Lemma bind_assoc (A D E : Type) (x : res A) (f : A -> res D) (h : D -> res E) : bind (bind x f) h = bind x (fun a => bind (f a) h).
Proof. destruct x; auto. Qed.
Lemma bind_ext (A D : Type) (x : res A) (f h : A -> res D) : (forall a, f a = h a) -> bind x f = bind x h.
Proof. destruct x; simpl; auto. Qed.

Section Runs.
Variables (P R B : Type) (g : prng P) (py_seed : nat -> P) (cpp_seed : nat -> R).
Variables (ts : list (list nat)) (d : pydims) (out sparse : list nat) (np : option Z) (pick : list nat -> nat).

Section Im.
Variables (rule : B -> rand R) (betas : list B).
Let upd := fun (_ : nat) (b : B) (x : pytree * im_state R) => let! s := im_update (rule b) (snd x) in Ok (fst x, s).
Lemma im_updates : forall bs n t s, updates upd n bs (t, s) = let! s' := im_run (map rule bs) s in Ok (t, s').
Proof.
  induction bs as [|b bs IH]; intros n t s; auto. cbn [updates map im_run]. unfold upd at 1. cbn [fst snd].
  destruct (im_update (rule b) s) as [s1|e]; cbn [bind]; auto.
Qed.
Lemma im_alone n seed stop :
  alone (fun s => random_paths g pick ts (py_seed s)) (0%Z, []) (im_build cpp_seed ts d out sparse np) upd (@im_finish R) (im_wrap ts)
    (temperatures betas n) seed stop =
  im_core ts d out sparse np g pick rule betas n (py_seed seed) (cpp_seed seed) stop.
Proof.
  unfold alone, im_core. apply bind_ext. intros ps. unfold im_wrap. cbv zeta.
  rewrite (@each_ext _ _ (fun k => im_component ts d out sparse np rule betas n (cpp_seed seed) (stop k))); auto.
  intros k p. unfold comp, im_component, im_build, performed, temperatures. destruct (length p =? 0); auto.
  destruct (pytree_make p ts d (Some out) true) as [t|e]; cbn [bind]; auto.
  destruct (get_core sparse np (inds_order t)) as [m|e]; cbn [bind]; auto.
  destruct (im_make (core t) m (cpp_seed seed) false None) as [s|e]; cbn [bind]; auto.
  rewrite im_updates. destruct (im_run _ s) as [s'|e]; cbn [bind]; auto.
Qed.

Lemma cut_all (A : Type) (l : list A) k : length l <= k -> firstn k l = l.
Proof. apply firstn_all2. Qed.
Lemma im_core_stop n r r0 stop stop' : (forall i, length (temperatures betas n) <= stop i) -> (forall i, length (temperatures betas n) <= stop' i) ->
  im_core ts d out sparse np g pick rule betas n r r0 stop = im_core ts d out sparse np g pick rule betas n r r0 stop'.
Proof.
  intros H H'. unfold im_core. apply bind_ext. intros ps.
  rewrite (@each_ext _ _ (fun k => im_component ts d out sparse np rule betas n r0 (stop' k))); auto.
  intros k p. unfold im_component, performed. change (match n with Some k0 => firstn k0 betas | None => betas end) with (temperatures betas n).
  rewrite !firstn_all2; auto.
Qed.

(** The seeds and the stop flags as the argument [runs] of M_App. *)
Definition seeded (seeds : list nat) (stops : list (nat -> nat)) : list (P * R * (nat -> nat)) :=
  map (fun z => (py_seed (fst z), cpp_seed (fst z), snd z)) (combine seeds stops).
Definition unstopped (seeds : list nat) : list (P * R * (nat -> nat)) :=
  map (fun s => (py_seed s, cpp_seed s, fun _ => length betas)) seeds.
Lemma temps_len n : length (temperatures betas n) <= length betas.
Proof. unfold temperatures. destruct n; auto. rewrite firstn_length. lia. Qed.

Theorem im_parallel_ok n_steps seeds es x :
  im_parallel g py_seed cpp_seed ts d out sparse np pick rule betas n_steps seeds es = x -> x <> Err Fuel ->
  (exists stops, length stops = length seeds /\
     x = im_optimize ts d out sparse np g pick rule betas n_steps (seeded seeds stops)) /\
  (~ In Tick es -> x = im_optimize ts d out sparse np g pick rule betas n_steps (unstopped seeds)).
Proof.
  unfold im_parallel, im_optimize. intros E HF.
  destruct (check_steps n_steps) as [n|e]; cbn [bind] in *.
  2:{ subst. split; auto. exists (map (fun _ _ => 0) seeds). rewrite map_length. auto. }
  destruct (check_model sparse np) as [u|e]; cbn [bind] in *.
  2:{ subst. split; auto. exists (map (fun _ _ => 0) seeds). rewrite map_length. auto. }
  destruct (run_all _ _ _ _ _ _ _ seeds es) as [rs|e] eqn:Er; cbn [bind] in E.
  - destruct (run_all_ok Er) as [(_ & A)|(Hne & stops & L & T & A)]; try discriminate.
    assert (NL : forall l : list (P * R * (nat -> nat)), length l = length seeds -> (length l =? 0) = false).
    { intros l Hl. apply Nat.eqb_neq. rewrite Hl. destruct seeds; simpl; congruence. }
    assert (A' : Ok rs = mapM (fun z => im_core ts d out sparse np g pick rule betas n (py_seed (fst z)) (cpp_seed (fst z)) (snd z)) (combine seeds stops)).
    { rewrite A. apply mapM_ext. intros a _. apply im_alone. }
    split.
    + exists stops. split; auto. rewrite (NL (seeded seeds stops)) by (unfold seeded; rewrite map_length, combine_length; lia).
      unfold seeded. rewrite mapM_map. rewrite <- A'. subst x. reflexivity.
    + intros HT. specialize (T HT). rewrite (NL (unstopped seeds)) by (unfold unstopped; rewrite map_length; lia).
      unfold unstopped. rewrite mapM_map.
      replace (mapM _ seeds) with (Ok (A := list im_result) rs). { subst x. reflexivity. }
      rewrite A'. clear - L T. revert stops L T. induction seeds as [|s seeds IH]; intros [|st stops] L T; try discriminate; auto.
      inversion T as [|? ? T1 T2]; subst. cbn [combine mapM fst snd]. rewrite (IH stops) by (simpl in L; auto; lia).
      rewrite (@im_core_stop n _ _ st (fun _ => length betas)); auto; intros i; [rewrite T1; auto|apply temps_len].
  - subst x. assert (HF' : Err (A := list im_result) e <> Err Fuel) by (intros Q; inversion Q; subst; auto).
    destruct (run_all_ok Er HF') as [(-> & A)|(Hne & stops & L & T & A)].
    + inversion A; subst. split; auto. exists []. auto.
    + assert (NL : forall l : list (P * R * (nat -> nat)), length l = length seeds -> (length l =? 0) = false).
      { intros l Hl. apply Nat.eqb_neq. rewrite Hl. destruct seeds; simpl; congruence. }
      assert (A' : Err e = mapM (fun z => im_core ts d out sparse np g pick rule betas n (py_seed (fst z)) (cpp_seed (fst z)) (snd z)) (combine seeds stops)).
      { rewrite A. apply mapM_ext. intros a _. apply im_alone. }
      split.
      * exists stops. split; auto. rewrite (NL (seeded seeds stops)) by (unfold seeded; rewrite map_length, combine_length; lia).
        unfold seeded. rewrite mapM_map. rewrite <- A'. reflexivity.
      * intros HT. specialize (T HT). rewrite (NL (unstopped seeds)) by (unfold unstopped; rewrite map_length; lia).
        unfold unstopped. rewrite mapM_map.
        replace (mapM _ seeds) with (Err (A := list im_result) e). { reflexivity. }
        rewrite A'. clear - L T. revert stops L T. induction seeds as [|s seeds IH]; intros [|st stops] L T; try discriminate; auto.
        inversion T as [|? ? T1 T2]; subst. cbn [combine mapM fst snd]. rewrite (IH stops) by (simpl in L; auto; lia).
        rewrite (@im_core_stop n _ _ st (fun _ => length betas)); auto; intros i; [rewrite T1; auto|apply temps_len].
Qed.
End Im.

Section Fw.
Variables (lg : N -> Z) (mx : Z) (fr0 : frand R) (rule : B -> frand R) (betas : list B) (u : nat).
Let upd := fun (n : nat) (b : B) (x : pytree * fw_state R) => if u =? 0 then Err Crash else
  let! s := fw_update lg (rule b) (n mod u =? 0) (snd x) in Ok (fst x, s).
Lemma fw_updates : u <> 0 -> forall bs n t s, updates upd n bs (t, s) = let! s' := fw_run lg (numbered_steps rule u n bs) s in Ok (t, s').
Proof.
  intros Hu. apply Nat.eqb_neq in Hu. induction bs as [|b bs IH]; intros n t s; auto. cbn [updates numbered_steps fw_run].
  unfold upd at 1. rewrite Hu. cbn [fst snd].
  destruct (fw_update lg (rule b) (n mod u =? 0) s) as [s1|e]; cbn [bind]; auto.
Qed.
Lemma fw_alone n seed stop :
  alone (fun s => random_paths g pick ts (py_seed s)) (0%Z, [], []) (fw_build cpp_seed ts d out sparse np lg mx fr0) upd (@fw_finish R) (fw_wrap ts)
    (temperatures betas n) seed stop =
  fw_core ts d out sparse np g pick lg mx fr0 rule betas n u (py_seed seed) (cpp_seed seed) stop.
Proof.
  unfold alone, fw_core. apply bind_ext. intros ps. unfold fw_wrap. cbv zeta.
  rewrite (@each_ext _ _ (fun k => fw_component ts d out sparse np lg mx fr0 rule betas n u (cpp_seed seed) (stop k))); auto.
  intros k p. unfold comp, fw_component, fw_build, performed. destruct (length p =? 0); auto.
  destruct (pytree_make p ts d (Some out) true) as [t|e]; cbn [bind]; auto.
  destruct (get_core sparse np (inds_order t)) as [m|e]; cbn [bind]; auto.
  destruct (fmodel_make m mx) as [fm|e]; cbn [bind]; auto.
  destruct (py_fw_make lg fr0 (core t) fm 0 (cpp_seed seed) false _ None None None) as [s|e]; cbn [bind]; auto.
  change (match n with Some k0 => firstn k0 betas | None => betas end) with (temperatures betas n). cbv zeta.
  destruct (Nat.eq_dec u 0) as [Hu|Hu].
  - rewrite Hu. destruct (firstn (stop k) (temperatures betas n)) as [|b bs].
    + reflexivity.
    + cbn [updates]. unfold upd. rewrite Hu. reflexivity.
  - rewrite fw_updates by auto. destruct (firstn (stop k) (temperatures betas n)) as [|b bs] eqn:Ef.
    + reflexivity.
    + destruct u as [|u']; [congruence|]. destruct (fw_run _ _ s) as [s'|e]; cbn [bind]; auto.
Qed.
Lemma fw_core_stop n r r0 stop stop' : (forall i, length (temperatures betas n) <= stop i) -> (forall i, length (temperatures betas n) <= stop' i) ->
  fw_core ts d out sparse np g pick lg mx fr0 rule betas n u r r0 stop = fw_core ts d out sparse np g pick lg mx fr0 rule betas n u r r0 stop'.
Proof.
  intros H H'. unfold fw_core. apply bind_ext. intros ps.
  rewrite (@each_ext _ _ (fun k => fw_component ts d out sparse np lg mx fr0 rule betas n u r0 (stop' k))); auto.
  intros k p. unfold fw_component, performed. change (match n with Some k0 => firstn k0 betas | None => betas end) with (temperatures betas n).
  rewrite !firstn_all2; auto.
Qed.
Theorem fw_parallel_ok n_steps seeds es x :
  fw_parallel g py_seed cpp_seed ts d out sparse np pick lg mx fr0 rule betas n_steps u seeds es = x -> x <> Err Fuel ->
  (exists stops, length stops = length seeds /\
     x = fw_optimize ts d out sparse np g pick lg mx fr0 rule betas n_steps u (seeded seeds stops)) /\
  (~ In Tick es -> x = fw_optimize ts d out sparse np g pick lg mx fr0 rule betas n_steps u (unstopped betas seeds)).
Proof.
  unfold fw_parallel, fw_optimize. intros E HF.
  destruct (check_steps n_steps) as [n|e]; cbn [bind] in *.
  2:{ subst. split; auto. exists (map (fun _ _ => 0) seeds). rewrite map_length. auto. }
  destruct (mx <? 0)%Z. { subst. split; auto. exists (map (fun _ _ => 0) seeds). rewrite map_length. auto. }
  destruct (check_model sparse np) as [v|e]; cbn [bind] in *.
  2:{ subst. split; auto. exists (map (fun _ _ => 0) seeds). rewrite map_length. auto. }
  destruct (run_all _ _ _ _ _ _ _ seeds es) as [rs|e] eqn:Er; cbn [bind] in E.
  - destruct (run_all_ok Er) as [(_ & A)|(Hne & stops & L & T & A)]; try discriminate.
    assert (NL : forall l : list (P * R * (nat -> nat)), length l = length seeds -> (length l =? 0) = false).
    { intros l Hl. apply Nat.eqb_neq. rewrite Hl. destruct seeds; simpl; congruence. }
    assert (A' : Ok rs = mapM (fun z => fw_core ts d out sparse np g pick lg mx fr0 rule betas n u (py_seed (fst z)) (cpp_seed (fst z)) (snd z)) (combine seeds stops)).
    { rewrite A. apply mapM_ext. intros a _. apply fw_alone. }
    split.
    + exists stops. split; auto. rewrite (NL (seeded seeds stops)) by (unfold seeded; rewrite map_length, combine_length; lia).
      unfold seeded. rewrite mapM_map. rewrite <- A'. subst x. reflexivity.
    + intros HT. specialize (T HT). rewrite (NL (unstopped betas seeds)) by (unfold unstopped; rewrite map_length; lia).
      unfold unstopped. rewrite mapM_map.
      replace (mapM _ seeds) with (Ok (A := list fw_result) rs). { subst x. reflexivity. }
      rewrite A'. clear - L T. revert stops L T. induction seeds as [|s seeds IH]; intros [|st stops] L T; try discriminate; auto.
      inversion T as [|? ? T1 T2]; subst. cbn [combine mapM fst snd]. rewrite (IH stops) by (simpl in L; auto; lia).
      rewrite (@fw_core_stop n _ _ st (fun _ => length betas)); auto; intros i; [rewrite T1; auto|apply temps_len].
  - subst x. assert (HF' : Err (A := list fw_result) e <> Err Fuel) by (intros Q; inversion Q; subst; auto).
    destruct (run_all_ok Er HF') as [(-> & A)|(Hne & stops & L & T & A)].
    + inversion A; subst. split; auto. exists []. auto.
    + assert (NL : forall l : list (P * R * (nat -> nat)), length l = length seeds -> (length l =? 0) = false).
      { intros l Hl. apply Nat.eqb_neq. rewrite Hl. destruct seeds; simpl; congruence. }
      assert (A' : Err e = mapM (fun z => fw_core ts d out sparse np g pick lg mx fr0 rule betas n u (py_seed (fst z)) (cpp_seed (fst z)) (snd z)) (combine seeds stops)).
      { rewrite A. apply mapM_ext. intros a _. apply fw_alone. }
      split.
      * exists stops. split; auto. rewrite (NL (seeded seeds stops)) by (unfold seeded; rewrite map_length, combine_length; lia).
        unfold seeded. rewrite mapM_map. rewrite <- A'. reflexivity.
      * intros HT. specialize (T HT). rewrite (NL (unstopped betas seeds)) by (unfold unstopped; rewrite map_length; lia).
        unfold unstopped. rewrite mapM_map.
        replace (mapM _ seeds) with (Err (A := list fw_result) e). { reflexivity. }
        rewrite A'. clear - L T. revert stops L T. induction seeds as [|s seeds IH]; intros [|st stops] L T; try discriminate; auto.
        inversion T as [|? ? T1 T2]; subst. cbn [combine mapM fst snd]. rewrite (IH stops) by (simpl in L; auto; lia).
        rewrite (@fw_core_stop n _ _ st (fun _ => length betas)); auto; intros i; [rewrite T1; auto|apply temps_len].
Qed.
End Fw.
End Runs.

(** * The order of the sets of integers *)
Lemma unique_aux_same : forall l s s', (forall x, memb x s = memb x s') -> unique_aux s l = unique_aux s' l.
Proof.
  induction l as [|a l IH]; intros s s' H; auto. cbn [unique_aux]. rewrite H. destruct (memb a s'); [auto|]. f_equal. apply IH.
  intros x. unfold memb in *. simpl. rewrite H. auto.
Qed.
Lemma unique_firsts : forall l seen, unique_aux seen l =
  map (fun x => nth x l 0) (filter (fun x => negb (memb (nth x l 0) seen) && negb (existsb (fun y => nth y l 0 =? nth x l 0) (seq 0 x))) (seq 0 (length l))).
Proof.
  induction l as [|a l IH]; intros seen; auto. cbn [length]. change (seq 0 (S (length l))) with (0 :: seq 1 (length l)). cbn [filter].
  change (nth 0 (a :: l) 0) with a. change (seq 0 0) with (@nil nat). change (existsb (fun y => nth y (a :: l) 0 =? a) []) with false. rewrite andb_true_r.
  assert (E : forall ok : nat -> bool, (forall x, ok (S x) = negb (memb (nth x l 0) (a :: seen)) && negb (existsb (fun y => nth y l 0 =? nth x l 0) (seq 0 x))) ->
    map (fun x => nth x (a :: l) 0) (filter ok (seq 1 (length l))) = unique_aux (a :: seen) l).
  { intros ok Hok. rewrite IH. rewrite <- seq_shift. clear IH. generalize (seq 0 (length l)). induction l0 as [|x l0 IHl]; auto.
    cbn [map filter]. rewrite Hok. destruct (negb _ && negb _); cbn [map]; rewrite IHl; auto. }
  assert (Hs : forall x, existsb (fun y => nth y (a :: l) 0 =? nth (S x) (a :: l) 0) (seq 0 (S x)) =
               (a =? nth x l 0) || existsb (fun y => nth y l 0 =? nth x l 0) (seq 0 x)).
  { intros x. cbn [seq existsb nth]. f_equal. rewrite <- seq_shift. generalize (seq 0 x). induction l0 as [|y l0 IHl]; auto. cbn [map existsb nth]. rewrite IHl. auto. }
  specialize (E (fun x => negb (memb (nth x (a :: l) 0) seen) && negb (existsb (fun y => nth y (a :: l) 0 =? nth x (a :: l) 0) (seq 0 x)))).
  cbn [unique_aux]. destruct (memb a seen) eqn:M; cbn [negb].
  - rewrite E.
    + apply unique_aux_same. intros x. unfold memb in *. simpl. destruct (Nat.eqb_spec x a) as [->|]; auto.
    + intros x. rewrite Hs. cbn [nth]. unfold memb. cbn [existsb]. rewrite !negb_orb. rewrite (Nat.eqb_sym (nth x l 0) a).
      destruct (negb (a =? nth x l 0)), (negb (existsb (Nat.eqb (nth x l 0)) seen)); auto.
  - cbn [map]. change (nth 0 (a :: l) 0) with a. f_equal. symmetry. apply E.
    intros x. rewrite Hs. cbn [nth]. unfold memb. cbn [existsb]. rewrite !negb_orb. rewrite (Nat.eqb_sym (nth x l 0) a).
    destruct (negb (a =? nth x l 0)), (negb (existsb (Nat.eqb (nth x l 0)) seen)); auto.
Qed.
Lemma filter_same (A : Type) (f h : A -> bool) l : (forall x, In x l -> f x = h x) -> filter f l = filter h l.
Proof. induction l as [|a l IH]; intros H; auto. simpl. rewrite (H a) by (left; auto). rewrite IH; auto. intros; apply H; right; auto. Qed.
Lemma groups_same l l' : length l = length l' ->
  (forall x y, x < length l -> y < length l -> (nth x l 0 =? nth y l 0) = (nth x l' 0 =? nth y l' 0)) -> M_Random.groups l = M_Random.groups l'.
Proof.
  intros L H. unfold M_Random.groups, unique. rewrite !unique_firsts, !map_map, <- L.
  rewrite (@filter_same _ (fun x => negb (memb (nth x l 0) []) && negb (existsb (fun y => nth y l 0 =? nth x l 0) (seq 0 x)))
             (fun x => negb (memb (nth x l' 0) []) && negb (existsb (fun y => nth y l' 0 =? nth x l' 0) (seq 0 x)))).
  - apply map_ext_in. intros x Hx. apply filter_In in Hx. destruct Hx as [Hx _]. apply in_seq in Hx.
    apply filter_same. intros y Hy. apply in_seq in Hy. apply H; lia.
  - intros x Hx. apply in_seq in Hx. f_equal. f_equal. assert (G : forall zs, (forall z, In z zs -> z < length l) ->
      existsb (fun y => nth y l 0 =? nth x l 0) zs = existsb (fun y => nth y l' 0 =? nth x l' 0) zs).
    { induction zs as [|z zs IH]; intros Hz; auto. simpl. rewrite H, IH; auto; try lia; [intros; apply Hz; right; auto|apply Hz; left; auto]. }
    apply G. intros z Hz. apply in_seq in Hz. lia.
Qed.

Lemma linked_color (ts : list (list nat)) (l : list nat) : (forall xs x y, In xs ts -> In x xs -> In y xs -> nth x l 0 = nth y l 0) ->
  forall x y, linked ts x y -> nth x l 0 = nth y l 0.
Proof. intros H x y K. induction K as [|x y z xs K IH H1 H2 H3]; auto. rewrite IH. eauto. Qed.

Theorem random_paths_order (P : Type) (g : prng P) pick pick' ts r : pick_ok pick -> pick_ok pick' ->
  random_paths g pick ts r = random_paths g pick' ts r.
Proof.
  intros Hp Hp'. unfold random_paths. cbv zeta. destruct (remap_ok ts) as (ts' & -> & _ & _ & Hh). cbn [bind].
  assert (Hb : forall xs x, In xs ts' -> In x xs -> x < length (unique (concat ts))).
  { intros xs x Hxs Hx. apply In_nth_error in Hxs. destruct Hxs as (t & Ht). destruct (proj1 (Hh t x)) as (y & Hy & _); [exists xs; auto|].
    apply nth_error_Some. congruence. }
  destruct (@colors_ok pick Hp (length (unique (concat ts))) ts' Hb) as (l & E1 & L1 & A1 & B1). destruct (@colors_ok pick' Hp' (length (unique (concat ts))) ts' Hb) as (l' & E2 & L2 & A2 & B2).
  rewrite E1, E2. cbn [bind]. rewrite (@groups_same l l'); auto; [lia|].
  intros x y Hx Hy. rewrite L1 in Hx, Hy. apply eq_true_iff_eq. rewrite !Nat.eqb_eq. split; intros E.
  - apply (linked_color A2). apply B1; auto.
  - apply (linked_color A1). apply B2; auto.
Qed.

Lemma im_core_order ts d out sparse np (P R B : Type) (g : prng P) pick pick' (rule : B -> rand R) betas n r r0 stop : pick_ok pick -> pick_ok pick' ->
  im_core ts d out sparse np g pick rule betas n r r0 stop = im_core ts d out sparse np g pick' rule betas n r r0 stop.
Proof. intros H H'. unfold im_core. rewrite (random_paths_order g ts r H H'). auto. Qed.
Lemma im_optimize_order ts d out sparse np (P R B : Type) (g : prng P) pick pick' (rule : B -> rand R) betas n runs : pick_ok pick -> pick_ok pick' ->
  im_optimize ts d out sparse np g pick rule betas n runs = im_optimize ts d out sparse np g pick' rule betas n runs.
Proof.
  intros H H'. unfold im_optimize. apply bind_ext. intros k. apply bind_ext. intros _. destruct (length runs =? 0); auto.
  erewrite mapM_ext; [reflexivity|]. intros ((r & r0) & stop) _. apply im_core_order; auto.
Qed.
Lemma fw_optimize_order ts d out sparse np (P R B : Type) (g : prng P) pick pick' lg mx fr0 (rule : B -> frand R) betas n u runs : pick_ok pick -> pick_ok pick' ->
  fw_optimize ts d out sparse np g pick lg mx fr0 rule betas n u runs = fw_optimize ts d out sparse np g pick' lg mx fr0 rule betas n u runs.
Proof.
  intros H H'. unfold fw_optimize. apply bind_ext. intros k. destruct (mx <? 0)%Z; auto. apply bind_ext. intros _. destruct (length runs =? 0); auto.
  erewrite mapM_ext; [reflexivity|]. intros ((r & r0) & stop) _. unfold fw_core. rewrite (random_paths_order g ts r H H'). auto.
Qed.

(** * The order of other sets: none, if there are no hyper-indices *)
Lemma lists_nil arr : lists_sets arr -> arr [] = [].
Proof. intros H. specialize (H []). apply Permutation_nil. apply Permutation_sym. auto. Qed.
Lemma filter_none (A : Type) (f : A -> bool) l : (forall x, In x l -> f x = false) -> filter f l = [].
Proof. induction l as [|a l IH]; intros H; auto. simpl. rewrite (H a) by (left; auto). apply IH. intros; apply H; right; auto. Qed.
Lemma contract_loop_order (K : Type) (A : alg K) arr arr' out : lists_sets arr -> lists_sets arr' -> forall p ts arrays h,
  (forall s, h s <= 1) -> (forall s, In s out -> h s = 0) ->
  M_Contract.contract_loop A arr out p ts arrays h = M_Contract.contract_loop A arr' out p ts arrays h.
Proof.
  intros HA HA'. induction p as [|(a & b) p IH]; intros ts arrays h H1 H2; auto. cbn [M_Contract.contract_loop].
  destruct (sort2 a b) as (x & y). destruct (x =? y); auto.
  destruct (pop ts y) as [(ys & ts1)|e]; cbn [bind]; auto. destruct (pop ts1 x) as [(xs & ts2)|e]; cbn [bind]; auto.
  set (shared := filter (fun s => memb s ys) (unique xs)). cbv zeta.
  destruct (existsb (fun s => h s =? 0) shared) eqn:Ex; auto.
  assert (Hh : filter (fun s => (1 <? h s) || memb s out) shared = []).
  { apply filter_none. intros s Hs. apply orb_false_iff. split; [apply Nat.ltb_ge; auto|].
    destruct (memb s out) eqn:Hm; auto. apply P_Split.memb_In in Hm. assert (E : existsb (fun s => h s =? 0) shared = true); [|congruence].
    apply existsb_exists. exists s. split; auto. apply Nat.eqb_eq. auto. }
  rewrite Hh, (lists_nil HA), (lists_nil HA').
  assert (G1 : forall s, h s - (if memb s shared then 1 else 0) <= 1) by (intros s; specialize (H1 s); lia).
  assert (G2 : forall s, In s out -> h s - (if memb s shared then 1 else 0) = 0) by (intros s Hs; rewrite H2; auto).
  destruct arrays as [l|].
  - destruct (pop l y) as [(ay & l1)|e]; cbn [bind]; auto. destruct (pop l1 x) as [(ax & l2)|e]; cbn [bind]; auto.
    destruct (tensordot A ax xs ay ys []) as [(az & zs)|e]; cbn [bind]; auto.
  - destruct (tensordot_inds xs ys []) as [zs|e]; cbn [bind]; auto.
Qed.
Lemma contract_order (K : Type) (A : alg K) arr arr' p ts out arrays dims : lists_sets arr -> lists_sets arr' ->
  (forall x, count x (concat ts) <= 2 /\ (In x out -> count x (concat ts) <= 1)) ->
  M_Contract.contract A arr p ts (Some out) arrays dims = M_Contract.contract A arr' p ts (Some out) arrays dims.
Proof.
  intros H H' HC. unfold M_Contract.contract. destruct (M_Contract.check_dims ts arrays dims); cbn [bind]; auto. cbv zeta.
  destruct (negb _); auto. rewrite (@contract_loop_order K A arr arr'); auto.
  - intros s. destruct (HC s). lia.
  - intros s Hs. apply (proj1 (unique_in _ _)) in Hs. destruct (HC s) as [_ HC2]. specialize (HC2 Hs). lia.
Qed.
Lemma load_order (K : Type) (A : alg K) eqb (P : Type) (g : prng P) lg arr arr' o dec width r : lists_sets arr -> lists_sets arr' ->
  ordinary (o_net o) -> dec = false \/ abstract (o_net o) ->
  load_tn A eqb g lg arr o dec width r = load_tn A eqb g lg arr' o dec width r.
Proof.
  intros H H' HO HD. unfold load_tn. cbv zeta.
  assert (E : (dec && negb (negb (length (n_sparse (o_net o)) =? 0)) &&
     negb (length (provided (map (@t_array K) (n_list (o_net o)))) <? length (map (@t_array K) (n_list (o_net o))))) = false).
  { destruct HD as [-> |(t & Ht & Ha)]; auto. apply andb_false_iff. right. apply negb_false_iff, Nat.ltb_lt.
    rewrite map_length. clear - Ht Ha. induction (n_list (o_net o)) as [|a l IH]; [destruct Ht|].
    assert (G : forall l : list (tensor K), length (provided (map (@t_array K) l)) <= length l).
    { clear. induction l as [|a l IH]; auto. cbn [map provided flat_map]. rewrite app_length. fold (provided (map (@t_array K) l)).
      destruct (t_array a); simpl; lia. }
    cbn [map provided flat_map]. rewrite app_length. fold (provided (map (@t_array K) l)). destruct Ht as [-> | Ht].
    - rewrite Ha. simpl. specialize (G l). lia.
    - specialize (IH Ht). destruct (t_array a); simpl; lia. }
  rewrite E. cbn [bind]. destruct (if _ || _ then None else width) as [w|]; auto. destruct (0 <? w)%Z; auto.
  destruct (M_Fuse.fuse g lg _ _ w _ [] r) as [(p & q)|e]; cbn [bind]; auto.
  rewrite (@contract_order K A arr arr'); auto.
Qed.

(** * Sessions *)
Section Sessions.
Variables (P R B : Type) (g : prng P) (next32 : P -> nat * P) (py_seed : nat -> P) (cpp_seed : nat -> R) (K : Type) (A : alg K) (eqb : K -> K -> bool) (lg : N -> Z).

Notation im_in := (@im_in P R B g next32 py_seed cpp_seed K A eqb lg).
Notation fw_in := (@fw_in P R B g next32 py_seed cpp_seed K A eqb lg).

Lemma load_in e e' (c : call B K) r : in_full e -> in_full e' -> same_order e e' c ->
  load_tn A eqb g lg (fst (fst e)) (ca_tn c) (ca_dec c) (ca_fuse c) r = load_tn A eqb g lg (fst (fst e')) (ca_tn c) (ca_dec c) (ca_fuse c) r.
Proof.
  destruct e as ((arr & pick) & es). destruct e' as ((arr' & pick') & es'). cbn [fst]. intros ((H1 & _) & _) ((H2 & _) & _) [H3|(H3 & H4)]; [cbn [fst] in H3; subst; auto|].
  apply load_order; auto.
Qed.

Lemma im_call_same rule e e' o c : in_full e -> in_full e' -> same_order e e' c ->
  fst (im_in rule e o c) <> Err Fuel -> fst (im_in rule e' o c) <> Err Fuel -> im_in rule e o c = im_in rule e' o c.
Proof.
  intros H1 H2 H3. pose proof (load_in (py_seed (op_seed o)) H1 H2 H3) as HL.
  destruct e as ((arr & pick) & es). destruct e' as ((arr' & pick') & es'). cbn [fst] in HL. unfold im_in, im_call. rewrite HL.
  destruct (load_tn A eqb g lg arr' _ _ _ _) as [tn|e]; auto.
  destruct (let! _ := check_steps (ca_steps c) in check_model (n_sparse (o_net tn)) (ca_projs c)); auto.
  destruct (choices next32 (ca_runs c) (op_rng o)) as (seeds & r). cbn [fst]. intros F1 F2. f_equal.
  destruct H1 as ((_ & P1) & T1). destruct H2 as ((_ & P2) & T2).
  match goal with |- bind ?x _ = bind ?y _ => assert (E : x = y); [|rewrite E; auto] end.
  match goal with |- ?x = ?y => set (x1 := x) in *; set (y1 := y) in * end.
  assert (X1 : x1 <> Err Fuel) by (intros E; rewrite E in F1; apply F1; reflexivity).
  assert (Y1 : y1 <> Err Fuel) by (intros E; rewrite E in F2; apply F2; reflexivity).
  destruct (im_parallel_ok (eq_refl x1) X1) as (_ & G1). destruct (im_parallel_ok (eq_refl y1) Y1) as (_ & G2).
  rewrite (G1 T1), (G2 T2). apply im_optimize_order; auto.
Qed.
Lemma fw_call_same mx fr0 rule u e e' o c : in_full e -> in_full e' -> same_order e e' c ->
  fst (fw_in mx fr0 rule u e o c) <> Err Fuel -> fst (fw_in mx fr0 rule u e' o c) <> Err Fuel -> fw_in mx fr0 rule u e o c = fw_in mx fr0 rule u e' o c.
Proof.
  intros H1 H2 H3. pose proof (load_in (py_seed (op_seed o)) H1 H2 H3) as HL.
  destruct e as ((arr & pick) & es). destruct e' as ((arr' & pick') & es'). cbn [fst] in HL. unfold fw_in, fw_call. rewrite HL.
  destruct (load_tn A eqb g lg arr' _ _ _ _) as [tn|e]; auto.
  destruct (let! _ := check_steps (ca_steps c) in if (mx <? 0)%Z then Err Throw else check_model (n_sparse (o_net tn)) (ca_projs c)); auto.
  destruct (choices next32 (ca_runs c) (op_rng o)) as (seeds & r). cbn [fst]. intros F1 F2. f_equal.
  destruct H1 as ((_ & P1) & T1). destruct H2 as ((_ & P2) & T2).
  match goal with |- bind ?x _ = bind ?y _ => assert (E : x = y); [|rewrite E; auto] end.
  match goal with |- ?x = ?y => set (x1 := x) in *; set (y1 := y) in * end.
  assert (X1 : x1 <> Err Fuel) by (intros E; rewrite E in F1; apply F1; reflexivity).
  assert (Y1 : y1 <> Err Fuel) by (intros E; rewrite E in F2; apply F2; reflexivity).
  destruct (fw_parallel_ok (eq_refl x1) X1) as (_ & G1). destruct (fw_parallel_ok (eq_refl y1) Y1) as (_ & G2).
  rewrite (G1 T1), (G2 T2). apply fw_optimize_order; auto.
Qed.

Lemma session_same (Y : Type) (f : environment -> optimizer P -> call B K -> res Y * optimizer P) :
  (forall e e' o c, in_full e -> in_full e' -> same_order e e' c -> fst (f e o c) <> Err Fuel -> fst (f e' o c) <> Err Fuel -> f e o c = f e' o c) ->
  forall calls envs envs' o, length envs = length calls -> length envs' = length calls ->
  Forall in_full envs -> Forall in_full envs' -> (forall i e e' c, nth_error envs i = Some e -> nth_error envs' i = Some e' -> nth_error calls i = Some c -> same_order e e' c) ->
  ~ In (Err Fuel) (session f (combine envs calls) o) -> ~ In (Err Fuel) (session f (combine envs' calls) o) ->
  session f (combine envs calls) o = session f (combine envs' calls) o.
Proof.
  intros Hf. induction calls as [|c calls IH]; intros [|e envs] [|e' envs'] o L L' HO HO' HF N N'; try discriminate; auto.
  inversion HO as [|? ? O1 O2]; subst. inversion HO' as [|? ? O1' O2']; subst. cbn [combine session] in *.
  assert (E : f e o c = f e' o c).
  { apply Hf; auto; [apply (HF 0); auto|intros Q; apply N|intros Q; apply N'].
    - destruct (f e o c); cbn [fst] in Q. left. auto.
    - destruct (f e' o c); cbn [fst] in Q. left. auto. }
  rewrite E in *. destruct (f e' o c) as (y & o'). f_equal. apply IH; simpl in L, L'; auto; try lia.
  - intros i. apply (HF (S i)).
  - intros Q. apply N. right. auto.
  - intros Q. apply N'. right. auto.
Qed.
End Sessions.
