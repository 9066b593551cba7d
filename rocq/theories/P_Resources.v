(** Proofs for C58. *)
From Coq Require Import String List Arith Bool Ascii Lia Permutation.
Import ListNotations.
From Verif Require Import M_Base M_Resources S_Resources.
Set Implicit Arguments. Unset Strict Implicit.
Local Open Scope list_scope.
Local Open Scope nat_scope.

Lemma fresh_ok l : ~ In (fresh l) l.
Proof.
  intros H. assert (E := proj1 (list_max_le l (list_max l)) (Nat.le_refl _)). rewrite Forall_forall in E.
  specialize (E _ H). unfold fresh in E. lia.
Qed.

Definition mine (st : state) : list nat := st_fixed st ++ map snd (st_dict st).

Lemma put_keys d name s : map fst (put d name s) = if in_dec string_dec name (map fst d) then map fst d else map fst d ++ [name].
Proof.
  induction d as [|(k, v) d IH]; [reflexivity|]. cbn [put]. destruct (String.eqb k name) eqn:E.
  - apply String.eqb_eq in E. subst k. cbn [map fst]. clear IH. destruct (in_dec string_dec name (name :: map fst d)) as [_|N]; [reflexivity|]. exfalso. apply N. left. reflexivity.
  - cbn [map fst]. rewrite IH. apply String.eqb_neq in E. destruct (in_dec string_dec name (map fst d)) as [H|H]; destruct (in_dec string_dec name (k :: map fst d)) as [H'|H']; try reflexivity.
    + exfalso. apply H'. right. exact H.
    + destruct H' as [H'|H']; [contradiction|contradiction].
Qed.
Lemma put_values d name s x : In x (map snd (put d name s)) -> x = s \/ In x (map snd d).
Proof.
  induction d as [|(k, v) d IH]; cbn [put].
  - intros [<-|[]]. left. reflexivity.
  - destruct (String.eqb k name); cbn [map snd].
    + intros [<-|H]; [left; reflexivity|right; right; exact H].
    + intros [<-|H]; [right; left; reflexivity|]. destruct (IH H); [left; assumption|right; right; assumption].
Qed.
Lemma put_nodup d name s : NoDup (map snd d) -> ~ In s (map snd d) -> NoDup (map snd (put d name s)).
Proof.
  induction d as [|(k, v) d IH]; cbn [put]; intros H N.
  - repeat constructor. exact (fun F => F).
  - inversion H as [|? ? H1 H2]; subst. destruct (String.eqb k name); cbn [map snd].
    + constructor; [|exact H2]. intros F. apply N. right. exact F.
    + constructor; [|apply IH; [exact H2|intros F; apply N; right; exact F]].
      intros F. apply put_values in F. destruct F as [F|F]; [|contradiction]. apply N. left. exact F.
Qed.

Definition none_of (b : option string * string) : bool := match fst b with None => true | _ => false end.
Definition names (l : list (option string * string)) : list string := flat_map (fun b => match fst b with Some k => [k] | None => [] end) l.

Section Run.
Variable n : nat.
Variable timed : bool.
Variable kwnames : list string.
Variable buffers : list (string * string).
Variable before : list nat.
Notation step := (step n timed kwnames buffers).
Notation run := (run n timed kwnames buffers).
Notation distinct := (length (nodup string_dec (map fst buffers))).

Lemma names_all : names (all_buffers buffers) = map fst buffers.
Proof. unfold all_buffers, names. cbn [flat_map fst app]. induction buffers as [|b l IH]; [reflexivity|]. cbn. f_equal. exact IH. Qed.
Lemma none_all : length (filter none_of (all_buffers buffers)) = 3.
Proof. unfold all_buffers. cbn. do 3 f_equal. induction buffers as [|b l IH]; [reflexivity|]. exact IH. Qed.
Lemma length_all : length (all_buffers buffers) = 3 + length buffers.
Proof. unfold all_buffers. cbn. rewrite map_length. reflexivity. Qed.

Definition own (now l : list nat) : Prop := now = l ++ before /\ NoDup l /\ forall s, In s l -> ~ In s before.
Lemma own_left now l : own now l -> left_over before now l.
Proof.
  intros (-> & H1 & H2). split; [exact H1|]. intros s. rewrite in_app_iff. split; [auto|]. intros [[H|H] N]; [exact H|contradiction].
Qed.

(** The timer after it has been started and before it is cancelled *)
Definition timer_ok (flags : list bool) (t : timer) : Prop :=
  length flags = n /\
  match t with
  | TNone => False
  | TWait | TCancelled => flags = repeat false n
  | TRun k => timed = true /\ k <= n /\ forall j, j < k -> nth_error flags j = Some true
  | TEnded => True
  end.

Definition inv (st : state) : Prop :=
  match st_place st with
  | Make todo => st_flags st = [] /\ st_timer st = TNone /\ exists finished made,
      all_buffers buffers = finished ++ todo /\ own (st_linked st) made /\ length made = length finished /\
      NoDup (mine st) /\ incl (mine st) made /\ length (st_fixed st) = length (filter none_of finished) /\
      NoDup (map fst (st_dict st)) /\ (forall k, In k (map fst (st_dict st)) <-> In k (names finished))
  | Cores => timer_ok (st_flags st) (st_timer st) /\ st_timer st <> TCancelled /\ exists made,
      own (st_linked st) made /\ length made = 3 + length buffers /\
      NoDup (mine st) /\ incl (mine st) made /\ length (st_fixed st) = 3 /\ length (st_dict st) = distinct
  | Unlink todo => timer_ok (st_flags st) (st_timer st) /\ exists rest,
      own (st_linked st) rest /\ NoDup todo /\ incl todo rest /\ length rest + distinct = length todo + length buffers
  | Returned => timer_ok (st_flags st) (st_timer st) /\ st_timer st <> TWait /\ exists rest, own (st_linked st) rest /\ length rest + distinct = length buffers
  | Raised => exists rest, own (st_linked st) rest
  end.

Lemma inv_start : inv (start buffers before).
Proof.
  split; [reflexivity|]. split; [reflexivity|]. exists [], []. split; [reflexivity|]. split; [split; [reflexivity|]; split; [constructor|intros s []]|].
  split; [reflexivity|]. split; [constructor|]. split; [intros s []|]. split; [reflexivity|]. split; [constructor|]. intros k. reflexivity.
Qed.

Lemma nodup_same (l : list string) m : NoDup l -> (forall k, In k l <-> In k m) -> length l = length (nodup string_dec m).
Proof.
  intros H E. apply Permutation_length. apply NoDup_Permutation; [exact H|apply NoDup_nodup|]. intros k. rewrite nodup_In. apply E.
Qed.

Lemma own_cons now l : own now l -> own (fresh now :: now) (fresh now :: l).
Proof.
  intros (E & H1 & H2). assert (F := @fresh_ok now). split; [cbn; f_equal; exact E|]. rewrite E in F at 2.
  split.
  - constructor; [intros X; apply F; apply in_or_app; left; exact X|exact H1].
  - intros s [<-|X]; [|apply H2; exact X]. intros Y. apply F. apply in_or_app. right. exact Y.
Qed.
Lemma own_filter now l s : own now l -> In s l -> unlink now s = Some (filter (fun x => negb (x =? s)) l ++ before) /\
  own (filter (fun x => negb (x =? s)) l ++ before) (filter (fun x => negb (x =? s)) l).
Proof.
  intros (E & H1 & H2) Hs. unfold unlink. subst now.
  assert (X : existsb (Nat.eqb s) (l ++ before) = true).
  { apply existsb_exists. exists s. split; [apply in_or_app; left; exact Hs|apply Nat.eqb_refl]. }
  rewrite X, filter_app. assert (Y : filter (fun x => negb (x =? s)) before = before).
  { specialize (H2 s Hs). clear - H2. induction before as [|x l IH]; [reflexivity|]. cbn. destruct (x =? s) eqn:E.
    - apply Nat.eqb_eq in E. exfalso. apply H2. left. exact E.
    - cbn. f_equal. apply IH. intros F. apply H2. right. exact F. }
  rewrite Y. split; [reflexivity|]. split; [reflexivity|]. split; [apply NoDup_filter; exact H1|]. intros x Hx. apply filter_In in Hx. apply H2, Hx.
Qed.
Lemma filter_length_one s l : NoDup l -> In s l -> S (length (filter (fun x => negb (x =? s)) l)) = length l.
Proof.
  intros H Hs. assert (P : Permutation l (s :: filter (fun x => negb (x =? s)) l)).
  { apply NoDup_Permutation; [exact H|constructor; [|apply NoDup_filter; exact H]|].
    - intros F. apply filter_In in F. destruct F as [_ F]. rewrite Nat.eqb_refl in F. discriminate.
    - intros x. cbn. rewrite filter_In. split.
      + intros Hx. destruct (Nat.eq_dec s x) as [->|N]; [left; reflexivity|right]. split; [exact Hx|]. apply negb_true_iff, Nat.eqb_neq. auto.
      + intros [<-|[Hx _]]; assumption. }
  symmetry. exact (Permutation_length P).
Qed.

Lemma upd_len (A : Type) (l : list A) i v : length (upd l i v) = length l.
Proof. revert i. induction l as [|x l IH]; intros [|i]; cbn; auto. Qed.
Lemma upd_nth (A : Type) (l : list A) i v j : nth_error (upd l i v) j = if (i =? j) && (i <? length l) then Some v else nth_error l j.
Proof.
  revert i j. induction l as [|x l IH]; intros [|i] [|j]; cbn; auto.
  - rewrite andb_false_r. reflexivity.
  - rewrite IH. change (S i <? S (length l)) with (i <? length l). reflexivity.
Qed.

Lemma timer_step_ok fl t : timer_ok fl t ->
  match t with
  | TRun k => if k <? length fl then timer_ok (upd fl k true) (TRun (S k)) else timer_ok fl TEnded
  | _ => timer_ok fl TEnded
  end.
Proof.
  intros [H1 H2]. destruct t as [| |k| |]; try (split; [exact H1|exact I]). destruct H2 as (Ht & Hk & H2).
  destruct (k <? length fl) eqn:E; [|split; [exact H1|exact I]]. apply Nat.ltb_lt in E.
  split; [rewrite upd_len; exact H1|]. split; [exact Ht|]. split; [lia|]. intros j Hj. rewrite upd_nth. assert (E2 : k <? length fl = true) by (apply Nat.ltb_lt; exact E). rewrite E2, andb_true_r.
  destruct (k =? j) eqn:E3; [reflexivity|]. apply Nat.eqb_neq in E3. apply H2. lia.
Qed.

(** Only the timer and the flags change. *)
Lemma inv_timer st fl t : inv st -> (timer_ok (st_flags st) (st_timer st) -> timer_ok fl t) ->
  (st_timer st <> TCancelled -> t <> TCancelled) -> (st_timer st <> TWait -> t <> TWait) -> (st_timer st = TNone -> t = TNone /\ fl = st_flags st) ->
  inv (mkState (st_place st) (st_linked st) (st_fixed st) (st_dict st) fl t).
Proof.
  intros H F1 F2 F3 F4. unfold inv in *. cbn [st_place st_flags st_timer st_linked st_fixed st_dict]. unfold mine in *. cbn [st_fixed st_dict]. destruct (st_place st).
  - destruct H as (H1 & H2 & H3). destruct (F4 H2) as [-> ->]. auto.
  - destruct H as (H1 & H2 & H3). auto.
  - destruct H as (H1 & H2). auto.
  - destruct H as (H1 & H2 & H3). auto.
  - exact H.
Qed.

Lemma inv_own st : inv st -> exists l, own (st_linked st) l.
Proof. unfold inv. destruct (st_place st); intros H; decompose record H; eauto. Qed.

Lemma inv_step st e : inv st -> inv (step st e).
Proof.
  intros H. assert (Hw := inv_own H). destruct e; cbn [M_Resources.step].
  - (* Step *)
    destruct st as [p linked fixed dict fl t]. cbn [st_place st_linked st_fixed st_dict st_flags st_timer] in *. unfold inv in H. cbn [st_place st_linked st_fixed st_dict st_flags st_timer] in H. unfold mine in H. cbn [st_fixed st_dict] in H.
    destruct p as [todo| |todo| |]; try exact H.
    + destruct H as (Hf & Ht & finished & made & E1 & E2 & E3 & E4 & E5 & E6 & E7 & E8). destruct todo as [|(nm, dt) todo].
      * rewrite app_nil_r in E1. subst finished. unfold inv. cbn [st_place st_linked st_fixed st_dict st_flags st_timer].
        split; [split; [apply repeat_length|reflexivity]|]. split; [discriminate|]. exists made. split; [exact E2|]. split; [rewrite E3; apply length_all|].
        split; [exact E4|]. split; [exact E5|]. split; [rewrite E6; apply none_all|]. rewrite <- map_length with (f := fst). apply nodup_same; [exact E7|]. rewrite <- names_all. exact E8.
      * assert (MB : make_buffer linked n dt = (linked, None) \/ make_buffer linked n dt = (fresh linked :: linked, None) \/ make_buffer linked n dt = (fresh linked :: linked, Some (fresh linked))).
        { unfold make_buffer. destruct dt as [|c [|]]; auto. destruct (calcsize c) as [k|]; auto. destruct (n * k =? 0); auto. destruct (takes_zero c); auto. }
        assert (OC := own_cons E2).
        assert (A : all_buffers buffers = (finished ++ [(nm, dt)]) ++ todo) by (rewrite <- app_assoc; exact E1).
        assert (FN : ~ In (fresh linked) (fixed ++ map snd dict)).
        { intros F. apply E5 in F. destruct E2 as (E2 & _). apply (@fresh_ok linked). rewrite E2 at 2. apply in_or_app. left. exact F. }
        destruct MB as [-> | [-> | ->]]; [exists made; exact E2|eexists; exact OC|].
        destruct nm as [k|]; unfold inv; cbn [st_place st_linked st_fixed st_dict st_flags st_timer]; (split; [exact Hf|]; split; [exact Ht|]; eexists; exists (fresh linked :: made)); (split; [exact A|]; split; [exact OC|]; split; [rewrite app_length; cbn; lia|]); unfold mine; cbn [st_fixed st_dict].
        -- split; [|split; [|split; [|split]]].
           ++ assert (S1 : NoDup (map snd dict)) by (clear - E4; induction fixed as [|x f IH]; [exact E4|inversion E4; auto]). assert (S2 : NoDup (map snd (put dict k (fresh linked)))).
              { apply put_nodup; [exact S1|]. intros F. apply FN. apply in_or_app. right. exact F. }
              clear - E4 FN S2. induction fixed as [|x f IH]; [exact S2|]. cbn in *. inversion E4 as [|? ? X1 X2]; subst. constructor; [|apply IH; [exact X2|tauto]].
              intros F. apply X1. apply in_app_iff in F. apply in_or_app. destruct F as [F|F]; [left; exact F|]. apply put_values in F. destruct F as [F|F]; [|right; exact F]. exfalso. apply FN. left. exact F.
           ++ intros x F. apply in_app_iff in F. destruct F as [F|F]; [right; apply E5, in_or_app; left; exact F|]. apply put_values in F. destruct F as [->|F]; [left; reflexivity|]. right. apply E5, in_or_app. right. exact F.
           ++ rewrite filter_app. cbn. rewrite app_nil_r. exact E6.
           ++ rewrite put_keys. destruct (in_dec _ _ _) as [F|F]; [exact E7|]. apply NoDup_Add with (a := k) (l := map fst dict); [rewrite <- (app_nil_r (map fst dict)) at 1; apply Add_app|split; [exact E7|exact F]].
           ++ intros k'. rewrite put_keys. unfold names. rewrite flat_map_app. cbn. rewrite in_app_iff. fold (names finished). rewrite <- E8. cbn. destruct (in_dec _ _ _) as [F|F].
              ** split; [auto|]. intros [X|[X|[]]]; [exact X|subst k'; exact F].
              ** rewrite in_app_iff. cbn. reflexivity.
        -- split; [|split; [|split; [|split]]].
           ++ rewrite <- app_assoc. cbn. apply NoDup_Add with (a := fresh linked) (l := fixed ++ map snd dict); [apply Add_app|split; [exact E4|exact FN]].
           ++ intros x F. rewrite <- app_assoc in F. apply in_app_iff in F. destruct F as [F|[<-|F]]; [right; apply E5, in_or_app; left; exact F|left; reflexivity|right; apply E5, in_or_app; right; exact F].
           ++ rewrite filter_app, !app_length. cbn. lia.
           ++ exact E7.
           ++ intros k'. unfold names. rewrite flat_map_app. cbn. rewrite app_nil_r. apply E8.
    + destruct H as (Ht & rest & E1 & E2 & E3 & E4). destruct todo as [|s todo].
      * unfold inv. cbn [st_place st_linked st_fixed st_dict st_flags st_timer]. split; [|split; [destruct t; discriminate|exists rest; split; [exact E1|exact E4]]].
        destruct t; exact Ht.
      * inversion E2 as [|? ? X1 X2]; subst. destruct (own_filter E1 (E3 s (or_introl eq_refl))) as [-> O]. unfold inv. cbn [st_place st_linked st_fixed st_dict st_flags st_timer].
        split; [exact Ht|]. eexists. split; [exact O|]. split; [exact X2|]. split.
        -- intros x Hx. apply filter_In. split; [apply E3; right; exact Hx|]. apply negb_true_iff, Nat.eqb_neq. intros ->. contradiction.
        -- assert (L := @filter_length_one s rest (proj1 (proj2 E1)) (E3 s (or_introl eq_refl))). cbn in E4. lia.
  - destruct (st_place st) as [[|b todo]| | | |]; try exact H; exact Hw.
  - destruct (st_place st) as [todo| |todo| |] eqn:Ep; try exact H. destruct (keyword_twice kwnames buffers); [exact Hw|].
    unfold inv in H. rewrite Ep in H. destruct H as (Ht & _ & made & E1 & E2 & E3 & E4 & E5 & E6).
    destruct (st_fixed st) as [|a [|b [|c [|]]]] eqn:Ef; try discriminate E5.
    unfold inv, go. cbn [st_place st_linked st_fixed st_dict st_flags st_timer]. split; [exact Ht|]. exists made. split; [exact E1|]. unfold mine in E3, E4. rewrite Ef in E3, E4. cbn [app] in *.
    assert (P : Permutation (a :: c :: b :: map snd (st_dict st)) (a :: b :: c :: map snd (st_dict st))) by (apply perm_skip, perm_swap).
    split; [exact (Permutation_NoDup (Permutation_sym P) E3)|]. split; [intros x Hx; apply E4; exact (Permutation_in _ P Hx)|]. cbn [length]. rewrite map_length, E6. lia.
  - destruct (st_place st); try exact H. exact Hw.
  - destruct (st_timer st) eqn:Et; try exact H. destruct timed eqn:Etm; [|exact H]. apply inv_timer; rewrite ?Et; try discriminate; try exact H.
    intros [H1 H2]. split; [exact H1|]. split; [exact Etm|]. split; [lia|]. intros j Hj. lia.
  - destruct (st_timer st) eqn:Et; try exact H.
    + destruct (k <? length (st_flags st)) eqn:E; apply inv_timer; rewrite ?Et; try discriminate; try exact H; intros X; apply timer_step_ok in X; rewrite E in X; exact X.
    + apply inv_timer; rewrite ?Et; try discriminate; try exact H. apply timer_step_ok.
Qed.
Lemma inv_run es st : inv st -> inv (run es st).
Proof. revert st. induction es as [|e es IH]; intros st H; [exact H|]. cbn [M_Resources.run]. apply IH, inv_step, H. Qed.
Lemma reached es : inv (run es (start buffers before)).
Proof. apply inv_run, inv_start. Qed.

(** Before the end, the timer has ended only if it has set all the flags. *)
Definition inv2 (st : state) : Prop :=
  match st_place st with
  | Cores | Unlink _ => st_timer st <> TCancelled /\ (st_timer st = TEnded -> st_flags st = repeat true n)
  | _ => True
  end.
Lemma all_true (l : list bool) m : length l = m -> (forall j, j < m -> nth_error l j = Some true) -> l = repeat true m.
Proof.
  revert m. induction l as [|x l IH]; intros [|m] H1 H2; try discriminate; [reflexivity|]. cbn. f_equal.
  - specialize (H2 0 (Nat.lt_0_succ _)). injection H2 as H2. exact H2.
  - apply IH; [injection H1 as H1; exact H1|]. intros j Hj. exact (H2 (S j) (proj1 (Nat.succ_lt_mono _ _) Hj)).
Qed.
Lemma inv2_step st e : inv st -> inv2 st -> inv2 (step st e).
Proof.
  intros H1 H2. destruct st as [p linked fixed dict fl t]. unfold inv2 in *. unfold inv in H1. cbn [st_place st_linked st_fixed st_dict st_flags st_timer] in *.
  destruct e; cbn [M_Resources.step st_place st_linked st_fixed st_dict st_flags st_timer].
  - destruct p as [[|(nm, dt) todo]| |[|s todo]| |]; cbn [st_place st_linked st_fixed st_dict st_flags st_timer]; auto.
    + split; discriminate.
    + destruct (make_buffer linked n dt) as [l [s|]]; [destruct nm|]; exact I.
    + destruct (unlink linked s); [exact H2|exact I].
  - destruct p as [[|(nm, dt) todo]| |[|s todo]| |]; exact H2.
  - destruct p as [[|(nm, dt) todo]| |[|s todo]| |]; try exact H2. destruct (keyword_twice kwnames buffers); [exact I|]. destruct fixed as [|a [|b [|c [|]]]]; try exact I. exact H2.
  - destruct p as [[|(nm, dt) todo]| |[|s todo]| |]; try exact H2. exact I.
  - destruct t; try exact H2. destruct timed; [|exact H2]. cbn. destruct p; try exact I; split; discriminate.
  - destruct t as [| |k| |]; try exact H2.
    + destruct (k <? length fl) eqn:E; cbn [st_place st_linked st_fixed st_dict st_flags st_timer].
      * destruct p; try exact I; split; discriminate.
      * apply Nat.ltb_ge in E. destruct p as [todo| |todo| |]; try exact I.
        -- destruct H1 as ((L & _ & K & F) & _). split; [discriminate|]. intros _. apply all_true; [exact L|]. intros j Hj. apply F. lia.
        -- destruct H1 as ((L & _ & K & F) & _). split; [discriminate|]. intros _. apply all_true; [exact L|]. intros j Hj. apply F. lia.
    + cbn. destruct p; try exact I; destruct H2 as [H2 _]; contradiction.
Qed.
Lemma reached2 es : inv2 (run es (start buffers before)).
Proof.
  assert (G : forall st, inv st -> inv2 st -> inv2 (run es st)).
  { induction es as [|e l IH]; intros st H1 H2; [exact H2|]. cbn [M_Resources.run]. apply IH; [apply inv_step; exact H1|apply inv2_step; assumption]. }
  apply G; [apply inv_start|exact I].
Qed.

(** ** The timer's progress *)
Definition later (st : state) : Prop := forall todo, st_place st <> Make todo.
Lemma later_step st e : later st -> later (step st e).
Proof.
  intros H. destruct st as [p linked fixed dict fl t]. unfold later in *. cbn [st_place] in *.
  destruct e; cbn [M_Resources.step st_place st_linked st_fixed st_dict st_flags st_timer].
  - destruct p as [todo| |[|s todo]| |]; cbn [st_place go]; try discriminate; [destruct (H _ eq_refl)|destruct (unlink linked s); discriminate].
  - destruct p as [todo| |todo| |]; try discriminate. destruct (H _ eq_refl).
  - destruct p as [todo| |todo| |]; try discriminate; [destruct (H _ eq_refl)|]. destruct (keyword_twice kwnames buffers); [discriminate|]. destruct fixed as [|a [|b [|c [|]]]]; discriminate.
  - destruct p as [todo| |todo| |]; try discriminate. destruct (H _ eq_refl).
  - destruct t; try exact H. destruct timed; exact H.
  - destruct t; try exact H. destruct (k <? length fl); exact H.
Qed.
(** A timer that does not wait changes by its own steps only, and so do the flags. *)
Lemma others_keep st e : later st -> e <> TimerStep -> st_timer st <> TWait -> st_timer (step st e) = st_timer st /\ st_flags (step st e) = st_flags st.
Proof.
  intros H He Ht. destruct st as [p linked fixed dict fl t]. unfold later in H. cbn [st_place st_timer st_flags] in *.
  destruct e; cbn [M_Resources.step st_place st_linked st_fixed st_dict st_flags st_timer]; try contradiction.
  - destruct p as [todo| |[|s todo]| |]; cbn; auto; [destruct (H _ eq_refl)|destruct t; auto; contradiction|destruct (unlink linked s); auto].
  - destruct p as [[|b todo]| |todo| |]; auto.
  - destruct p as [todo| |todo| |]; auto. destruct (keyword_twice kwnames buffers); auto. destruct fixed as [|a [|b [|c [|]]]]; auto.
  - destruct p; auto.
  - destruct t; auto. contradiction.
Qed.
Lemma turns_cons e es : turns (e :: es) = (if match e with TimerStep => true | _ => false end then 1 else 0) + turns es.
Proof. destruct e; reflexivity. Qed.
Lemma timer_ends es st k : later st -> length (st_flags st) = n ->
  (match st_timer st with TRun j => n + 1 - j <= k /\ j <= n | TCancelled => 1 <= k | TEnded => True | _ => False end) ->
  k <= turns es -> st_timer (run es st) = TEnded.
Proof.
  revert st k. induction es as [|e es IH]; intros st k L F N T.
  - change (turns []) with 0 in T. cbn. destruct (st_timer st) eqn:E; try contradiction; try reflexivity; exfalso; lia.
  - cbn [M_Resources.run]. rewrite turns_cons in T. destruct (match e with TimerStep => true | _ => false end) eqn:Ee.
    + destruct e; try discriminate. cbn [M_Resources.step]. destruct (st_timer st) eqn:Et; try contradiction.
      * destruct (k0 <? length (st_flags st)) eqn:E.
        -- apply Nat.ltb_lt in E. apply (IH _ (k - 1)); [exact L|cbn; rewrite upd_len; exact F|cbn; lia|cbn in T; lia].
        -- apply (IH _ 0); [exact L|exact F|exact I|lia].
      * apply (IH _ 0); [exact L|exact F|exact I|lia].
      * apply (IH _ 0); [exact L|exact F|rewrite Et; exact I|lia].
    + assert (He : e <> TimerStep) by (intros ->; discriminate). assert (Ht : st_timer st <> TWait) by (intros E; rewrite E in N; exact N).
      destruct (others_keep L He Ht) as [E1 E2]. apply (IH _ k); [apply later_step; exact L|rewrite E2; exact F|rewrite E1; exact N|exact T].
Qed.
Lemma flags_set es st k : later st -> length (st_flags st) = n -> st_timer st <> TWait -> st_timer st <> TNone ->
  (match st_timer st with TRun j => n - j <= k /\ j <= n /\ forall i, i < j -> nth_error (st_flags st) i = Some true | _ => st_flags st = repeat true n end) ->
  k <= turns es -> st_flags (run es st) = repeat true n.
Proof.
  revert st k. induction es as [|e es IH]; intros st k L F W W0 N T.
  - change (turns []) with 0 in T. cbn. destruct (st_timer st) eqn:E; try exact N. destruct N as (N1 & N2 & N3). apply all_true; [exact F|]. intros i Hi. apply N3. lia.
  - cbn [M_Resources.run]. rewrite turns_cons in T. destruct (match e with TimerStep => true | _ => false end) eqn:Ee.
    + destruct e; try discriminate. cbn [M_Resources.step]. destruct (st_timer st) eqn:Et; try contradiction.
      * destruct N as (N1 & N2 & N3). destruct (k0 <? length (st_flags st)) eqn:E.
        -- apply Nat.ltb_lt in E. apply (IH _ (k - 1)); [exact L|cbn; rewrite upd_len; exact F|discriminate|discriminate| |cbn in T; lia].
           cbn. split; [lia|]. split; [lia|]. intros i Hi. rewrite upd_nth. apply Nat.ltb_lt in E. rewrite E, andb_true_r. destruct (k0 =? i) eqn:Ei; [reflexivity|]. apply Nat.eqb_neq in Ei. apply N3. lia.
        -- apply Nat.ltb_ge in E. apply (IH _ 0); [exact L|exact F|discriminate|discriminate| |lia]. cbn. apply all_true; [exact F|]. intros i Hi. apply N3. lia.
      * apply (IH _ 0); [exact L|exact F|discriminate|discriminate|exact N|lia].
      * apply (IH _ 0); [exact L|exact F|rewrite Et; discriminate|rewrite Et; discriminate|rewrite Et; exact N|lia].
    + assert (He : e <> TimerStep) by (intros ->; discriminate).
      destruct (others_keep L He W) as [E1 E2]. apply (IH _ k); [apply later_step; exact L|rewrite E2; exact F|rewrite E1; exact W|rewrite E1; exact W0|rewrite E1, E2; exact N|exact T].
Qed.

(** ** The theorems *)
Lemma returns es : let st := run es (start buffers before) in st_place st = Returned ->
  (exists l, left_over before (st_linked st) l /\ length l + distinct = length buffers) /\
  (NoDup (map fst buffers) -> st_linked st = before) /\
  forall es', n < turns es' -> ~ alive (st_timer (run es' st)).
Proof.
  intros st Hp. assert (H := reached es). unfold inv in H. fold st in H. rewrite Hp in H. destruct H as ((Hl & Ht) & Hw & rest & O & E).
  split; [exists rest; split; [apply own_left; exact O|exact E]|]. split.
  - intros ND. rewrite (nodup_fixed_point string_dec ND), map_length in E. destruct O as (-> & _). destruct rest; [reflexivity|cbn in E; lia].
  - intros es' T. rewrite (@timer_ends es' st (n + 1)); [|intros todo; rewrite Hp; discriminate|exact Hl| |lia].
    + intros [A|[[k A]|A]]; discriminate.
    + destruct (st_timer st); try contradiction; auto; lia.
Qed.
Lemma cores es : let st := run es (start buffers before) in st_place st = Cores ->
  length (st_fixed st) = 3 /\ NoDup (st_fixed st ++ map snd (st_dict st)) /\
  (forall s, In s (st_fixed st ++ map snd (st_dict st)) -> In s (st_linked st) /\ ~ In s before).
Proof.
  intros st Hp. assert (H := reached es). unfold inv in H. fold st in H. rewrite Hp in H. destruct H as (_ & _ & made & (O1 & O2 & O3) & E1 & E2 & E3 & E4 & E5).
  split; [exact E4|]. split; [exact E2|]. intros s Hs. apply E3 in Hs. split; [rewrite O1; apply in_or_app; left; exact Hs|apply O3; exact Hs].
Qed.
Lemma nothing_waits es st : timed = false -> later st -> st_timer st = TWait -> (forall todo, st_place st <> Unlink todo) -> st_place st <> Cores ->
  st_timer (run es st) = TWait.
Proof.
  intros Htm. revert st. induction es as [|e es IH]; intros st L W U C; [exact W|]. cbn [M_Resources.run].
  assert (E : step st e = st).
  { destruct st as [p linked fixed dict fl t]. unfold later in L. cbn [st_place st_timer] in *. subst t.
    destruct e; cbn [M_Resources.step st_place st_linked st_fixed st_dict st_flags st_timer]; rewrite ?Htm; destruct p as [todo| |todo| |]; try reflexivity; try (destruct (L _ eq_refl)); try (destruct (U _ eq_refl)); destruct (C eq_refl). }
  rewrite E. apply IH; assumption.
Qed.
Lemma core_raises es e : let st := run es (start buffers before) in let st' := step st e in st_place st = Cores -> st_place st' = Raised ->
  (exists l, left_over before (st_linked st') l /\ length l = 3 + length buffers) /\
  (timed = false -> forall es', st_timer (run es' st') = TWait).
Proof.
  intros st st' Hp Hr. assert (H := reached es). assert (H2 := reached2 es). unfold inv in H. unfold inv2 in H2. fold st in H, H2. rewrite Hp in H, H2. destruct H as ((Hl & Ht) & Hc & made & O & E1 & _). destruct H2 as [_ H2].
  assert (X : st_linked st' = st_linked st /\ st_timer st' = st_timer st).
  { unfold st' in Hr |- *. destruct e; cbn [M_Resources.step] in Hr |- *; rewrite ?Hp in Hr |- *; cbn [go st_linked st_timer]; auto.
    - destruct (keyword_twice kwnames buffers); auto. destruct (st_fixed st) as [|a [|b [|c [|]]]]; auto.
    - destruct (st_timer st); try (rewrite Hp in Hr; discriminate). destruct timed; cbn in Hr; try rewrite Hp in Hr; discriminate.
    - destruct (st_timer st); try (rewrite Hp in Hr; discriminate); [|cbn in Hr; try rewrite Hp in Hr; discriminate]. destruct (k <? length (st_flags st)); cbn in Hr; try rewrite Hp in Hr; discriminate. }
  destruct X as [X1 X2]. split; [exists made; split; [rewrite X1; apply own_left; exact O|exact E1]|].
  intros Htm es'. apply nothing_waits; [exact Htm|intros todo; rewrite Hr; discriminate| |intros todo; rewrite Hr; discriminate|rewrite Hr; discriminate].
  rewrite X2. assert (W : st_timer st = TWait).
  { assert (G : forall es st, (st_timer st = TNone \/ st_timer st = TWait \/ st_place st = Returned) -> let s := run es st in st_timer s = TNone \/ st_timer s = TWait \/ st_place s = Returned).
    { clear - Htm. induction es as [|e es IH]; intros st H; [exact H|]. cbn [M_Resources.run]. apply IH. clear IH. destruct st as [p linked fixed dict fl t]. cbn [st_timer st_place] in H.
      destruct e; cbn [M_Resources.step st_place st_linked st_fixed st_dict st_flags st_timer]; rewrite ?Htm.
      - destruct p as [[|(nm, dt) todo]| |[|s todo]| |]; cbn; auto.
        + destruct (make_buffer linked n dt) as [l [s|]]; [destruct nm|]; cbn; destruct H as [H|[H|H]]; auto; discriminate.
        + destruct (unlink linked s); cbn; destruct H as [H|[H|H]]; auto; discriminate.
      - destruct p as [[|b todo]| |todo| |]; cbn; destruct H as [H|[H|H]]; auto; discriminate.
      - destruct p as [todo| |todo| |]; cbn; auto. destruct (keyword_twice kwnames buffers); [|destruct fixed as [|a [|b [|c [|]]]]]; cbn; destruct H as [H|[H|H]]; auto; discriminate.
      - destruct p as [todo| |todo| |]; cbn; auto; destruct H as [H|[H|H]]; auto; discriminate.
      - destruct t; cbn; auto.
      - destruct t; cbn [st_timer st_place]; auto; destruct H as [H|[H|H]]; try discriminate; auto; destruct (k <? length fl); cbn; auto. }
    specialize (G es (start buffers before) (or_introl eq_refl)). fold st in G. destruct G as [G|[G|G]]; [rewrite G in Ht; contradiction|exact G|rewrite G in Hp; discriminate]. }
  exact W.
Qed.
Lemma timeout_sets es es' : let st := run es (start buffers before) in st_place st = Cores -> timed = true -> n <= turns es' ->
  st_flags (run (Timeout :: es') st) = repeat true n.
Proof.
  intros st Hp Htm T. assert (H := reached es). assert (H2 := reached2 es). unfold inv in H. unfold inv2 in H2. fold st in H, H2. rewrite Hp in H, H2. destruct H as ((Hl & Ht) & _). destruct H2 as [H2 H3].
  assert (L : later st) by (intros todo; rewrite Hp; discriminate). cbn [M_Resources.run].
  assert (E : step st Timeout = match st_timer st with TWait => mkState (st_place st) (st_linked st) (st_fixed st) (st_dict st) (st_flags st) (TRun 0) | _ => st end) by (cbn [M_Resources.step]; destruct (st_timer st); try reflexivity; rewrite Htm; reflexivity).
  rewrite E. clear E.
  destruct (st_timer st) eqn:Et; try contradiction.
  - apply (@flags_set es' _ n); [exact L|exact Hl|discriminate|discriminate| |exact T]. cbn. split; [lia|]. split; [lia|]. intros i Hi. lia.
  - destruct Ht as (_ & K & F). apply (@flags_set es' _ n); [exact L|exact Hl|rewrite Et; discriminate|rewrite Et; discriminate| |exact T]. rewrite Et. split; [lia|]. split; [exact K|exact F].
  - apply (@flags_set es' _ n); [exact L|exact Hl|rewrite Et; discriminate|rewrite Et; discriminate| |exact T]. rewrite Et. exact (H3 eq_refl).
Qed.
(** Before the timer exists, a call that raises leaves the buffers it has made. *)
Lemma raises es : let st := run es (start buffers before) in st_place st = Raised -> exists l, left_over before (st_linked st) l.
Proof.
  intros st Hp. assert (H := reached es). unfold inv in H. fold st in H. rewrite Hp in H. destruct H as (l & O). exists l. apply own_left, O.
Qed.
End Run.

(** No run at all: nothing is made. *)
Lemma no_runs timed kwnames buffers before es : let st := run 0 timed kwnames buffers es (start buffers before) in
  st_linked st = before /\ st_timer st = TNone /\ (In Step es -> st_place st = Raised).
Proof.
  assert (R : forall es linked d f fl, run 0 timed kwnames buffers es (mkState Raised linked f d fl TNone) = mkState Raised linked f d fl TNone).
  { clear. induction es as [|e es IH]; intros; [reflexivity|]. destruct e; cbn; apply IH. }
  induction es as [|e es IH]; [split; [reflexivity|]; split; [reflexivity|intros []]|].
  destruct e; try (cbn; split; [apply IH|split; [apply IH|intros [F|F]; [discriminate|apply IH; exact F]]]).
  - cbn. rewrite R. repeat split.
  - cbn. unfold go. cbn. rewrite R. repeat split.
Qed.
