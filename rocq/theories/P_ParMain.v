(** Main statements about Parallel. *)
From Verif Require Import P_Base.
From Verif Require Import M_Base M_Path M_Parallel S_Parallel P_Parallel.
Set Implicit Arguments. Unset Strict Implicit.

Section Main.
Variables V R St : Type.
Variable init : list V -> list (nat * V) -> nat -> St.
Variable step : St -> bool -> (St * option Z) + R.
Implicit Types (args : list (list V)) (kwargs : list (nat * list V)).

Lemma parallel_unfold args kwargs es : (args <> [] \/ kwargs <> []) -> parallel init step args kwargs es =
  match jobs args kwargs with [] => Err Throw | _ => let! w := run_events init step (jobs args kwargs) es (start R St (length (jobs args kwargs))) in collect (w_tasks w) end.
Proof. intros [H|H]; destruct args, kwargs; try congruence; auto. Qed.

Lemma nth_ext_err (A : Type) (l : list A) : forall k, length l = length k -> (forall i, nth_error l i = nth_error k i) -> l = k.
Proof.
  induction l as [|x l IH]; intros [|y k] L H; try discriminate; auto. pose proof (H 0) as H0. simpl in H0. inversion H0; subst. f_equal. apply IH; auto. intros i. apply (H (Datatypes.S i)).
Qed.
Lemma shortest_fun args n m : shortest args n -> shortest args m -> n = m.
Proof. intros [H1 (l & H2 & <-)] [H3 (k & H4 & <-)]. specialize (H1 k H4). specialize (H3 l H2). lia. Qed.

Lemma parallel_cases args kwargs es :
  (parallel init step args kwargs es = Err Throw /\ ((args = [] /\ kwargs = []) \/ exists l, In l (args ++ map snd kwargs) /\ l = [])) \/
  (forall l, In l (args ++ map snd kwargs) -> l <> []) /\ (args <> [] \/ kwargs <> []) /\
  exists w, run_events init step (jobs args kwargs) es (start R St (length (jobs args kwargs))) = Ok w /\ inv init step (jobs args kwargs) w /\
   (~ In Tick es -> w_timer w = 0) /\ parallel init step args kwargs es = collect (w_tasks w).
Proof.
  assert (D : (args = [] /\ kwargs = []) \/ (args <> [] \/ kwargs <> [])) by (destruct args, kwargs; auto; right; (left; discriminate) || (right; discriminate)).
  destruct D as [(-> & ->)|HN]; [left; split; auto|].
  rewrite (parallel_unfold es HN). pose proof (jobs_shortest HN) as (S1 & l & S2 & S3).
  destruct (jobs args kwargs) as [|j js] eqn:EJ; [left; split; [auto|]; right; exists l; split; auto; destruct l; auto; discriminate|].
  right. split; [intros l' Hl ->; specialize (S1 [] Hl); simpl in S1; lia|]. split; [auto|].
  destruct (@inv_run V R St init step (j :: js) es (start R St (length (j :: js))) (inv_start init step (j :: js))) as (w & E & HI & HT).
  exists w. rewrite E. auto.
Qed.

Lemma parallel_aligned args kwargs es rs : parallel init step args kwargs es = Ok rs ->
  shortest (args ++ map snd kwargs) (length rs) /\
  forall i r, nth_error rs i = Some r -> exists a kw cut, arguments_of args kwargs i a kw /\ (~ In Tick es -> cut = None) /\ returns step cut 0 (init a kw i) r.
Proof.
  intros E. destruct (parallel_cases args kwargs es) as [[E' _]|(_ & HN & w & _ & HI & HT & E')]; rewrite E in E'; [discriminate|].
  destruct (collect_ok (w_tasks w)) as [(rs' & Ec & EW)|(Ec & _)]; rewrite Ec in E'; inversion E'; subst rs'. destruct HI as (L1 & _ & _ & _ & _ & HK).
  split. { assert (L : length rs = length (jobs args kwargs)) by (rewrite <- L1, EW, map_length; auto). rewrite L. apply jobs_shortest; auto. }
  intros i r Hi. destruct (HK i (Finished St r)) as ((s0 & cut & (a & kw & EJ & ->) & HC & HR) & _); [rewrite EW, nth_error_map, Hi; auto|].
  exists a, kw, cut. split; [apply jobs_ok; auto|]. split; auto. intros HX. apply HC. rewrite HT; auto.
Qed.

Lemma arguments_fun args kwargs i a kw a' kw' : arguments_of args kwargs i a kw -> arguments_of args kwargs i a' kw' -> a = a' /\ kw = kw'.
Proof.
  intros [H1 H2] [H3 H4]. split.
  - clear H2 H4. revert a' H3. induction H1; intros a' H3; inversion H3; subst; auto. f_equal; auto. congruence.
  - clear H1 H3. revert kw' H4. induction H2 as [|l (n, x) ls xs [A B] H2 IH]; intros kw' H4; inversion H4 as [|? (n', x') ? ? [C D]]; subst; auto. f_equal; auto. simpl in *. congruence.
Qed.

Lemma parallel_independent args kwargs es es' rs rs' : ~ In Tick es -> ~ In Tick es' ->
  parallel init step args kwargs es = Ok rs -> parallel init step args kwargs es' = Ok rs' -> rs = rs'.
Proof.
  intros N N' E E'. apply parallel_aligned in E. apply parallel_aligned in E'. destruct E as [S H], E' as [S' H'].
  assert (L : length rs = length rs') by (eapply shortest_fun; eauto).
  apply (nth_ext_err L). intros i. destruct (nth_error rs i) as [r|] eqn:Er, (nth_error rs' i) as [r'|] eqn:Er'; auto.
  - destruct (H i r Er) as (a & kw & c & A & C & RR), (H' i r' Er') as (a' & kw' & c' & A' & C' & RR'). destruct (arguments_fun A A') as (-> & ->). rewrite (C N) in RR. rewrite (C' N') in RR'. f_equal. eapply returns_det; eauto.
  - apply nth_error_None in Er'. assert (nth_error rs i <> None) by congruence. apply nth_error_Some in H0. lia.
  - apply nth_error_None in Er. assert (nth_error rs' i <> None) by congruence. apply nth_error_Some in H0. lia.
Qed.

Lemma parallel_finishes args kwargs es (b : nat -> nat) : (args <> [] \/ kwargs <> []) -> (forall l, In l (args ++ map snd kwargs) -> l <> []) ->
  (forall i a kw, arguments_of args kwargs i a kw -> halts step (b i) (init a kw i) /\ b i + 2 <= length (filter (works_on i) es)) ->
  exists rs, parallel init step args kwargs es = Ok rs.
Proof.
  intros HN HL HB. destruct (parallel_cases args kwargs es) as [[_ [[-> ->]|(l & H1 & ->)]]|(_ & _ & w & E & HI & _ & ->)]; [destruct HN; congruence|exfalso; eapply HL; eauto|].
  destruct (collect_ok (w_tasks w)) as [(rs & Ec & _)|(_ & t & Ht & Hn)]; [eauto|]. exfalso.
  apply In_nth_error in Ht. destruct Ht as (i & Hi). assert (Li : i < length (jobs args kwargs)). { destruct HI as (L1 & _). rewrite <- L1. apply nth_error_Some. congruence. }
  destruct (nth_error (jobs args kwargs) i) as [(a, kw)|] eqn:EJ; [|apply nth_error_None in EJ; lia].
  assert (A : arguments_of args kwargs i a kw) by (apply jobs_ok; auto). destruct (HB i a kw A) as [HH HC].
  destruct (@within_run V R St init step (jobs args kwargs) es (start R St (length (jobs args kwargs))) i (Idle R St)) as (w' & r & E' & Er).
  - apply inv_start.
  - unfold start; cbn [w_tasks]. destruct (nth_error (repeat (Idle R St) (length (jobs args kwargs))) i) as [t'|] eqn:ER; [apply nth_repeat_some in ER; subst; auto|]. apply nth_error_None in ER. rewrite repeat_length in ER. lia.
  - exists (b i), (init a kw i). split; [exists a, kw; auto|]. split; auto.
  - rewrite E in E'. inversion E'; subst w'. rewrite Hi in Er. inversion Er; subst. eapply Hn; eauto.
Qed.
End Main.
