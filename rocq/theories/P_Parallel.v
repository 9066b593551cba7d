(** Proofs about Buffer and Parallel. *)
From Verif Require Import P_Base.
From Verif Require Import M_Base M_Path M_Parallel S_Parallel.
Set Implicit Arguments. Unset Strict Implicit.

(** ** Buffer *)
Section Buffer.
Variable V : Type.
Variable enc : V -> list nat.
Variable dec : list nat -> V.
Variable k : nat.
Hypothesis K : 1 <= k.
Hypothesis EL : forall v, length (enc v) = k.
Hypothesis ED : forall v, dec (enc v) = v.

Lemma enc_length l : length (flat_map enc l) = length l * k.
Proof. induction l as [|v l IH]; simpl; auto. rewrite app_length, EL, IH. auto. Qed.
Lemma enc_skip i : forall l, skipn (i * k) (flat_map enc l) = flat_map enc (skipn i l).
Proof.
  induction i as [|i IH]; intros l; simpl; auto. destruct l as [|v l]; simpl; [apply skipn_nil|].
  rewrite skipn_app, EL. rewrite (skipn_all2 (enc v)) by (rewrite EL; lia). simpl. replace (k + i * k - k) with (i * k) by lia. auto.
Qed.
Lemma enc_first i : forall l, firstn (i * k) (flat_map enc l) = flat_map enc (firstn i l).
Proof.
  induction i as [|i IH]; intros l; simpl; auto. destruct l as [|v l]; simpl; [apply firstn_nil|].
  rewrite firstn_app, EL. rewrite (firstn_all2 (enc v)) by (rewrite EL; lia). replace (k + i * k - k) with (i * k) by lia. rewrite IH. auto.
Qed.
Lemma upd_split (l : list V) : forall i v x, nth_error l i = Some x -> firstn i l ++ v :: skipn (Datatypes.S i) l = upd l i v.
Proof. induction l as [|y l IH]; intros [|i] v x H; simpl in *; try discriminate; auto. f_equal. eapply IH; eauto. Qed.

Lemma len_ok l : buf_len k (flat_map enc l) = length l.
Proof. unfold buf_len. rewrite enc_length. apply Nat.div_mul. lia. Qed.
Lemma place_ok (l : list V) pos : (pos < Z.of_nat (length l))%Z ->
  place k (flat_map enc l) (pos * Z.of_nat k) = match python_index (length l) pos with Some i => Ok (i * k) | None => Err Throw end.
Proof.
  intros L. unfold place, python_index. rewrite enc_length. rewrite (proj2 (Z.ltb_lt _ _) L), andb_true_r.
  destruct (Z.leb_spec 0 pos) as [P|P].
  - destruct (Z.ltb_spec (pos * Z.of_nat k) 0) as [N|N]; [nia|]. destruct (Z.ltb_spec (Z.of_nat (length l * k) - pos * Z.of_nat k) (Z.of_nat k)) as [M|M]; [nia|]. f_equal. nia.
  - rewrite (proj2 (Z.ltb_lt pos 0)), andb_true_r by lia. destruct (Z.ltb_spec (pos * Z.of_nat k) 0) as [N|N]; [|nia].
    rewrite Z.gtb_ltb. destruct (Z.ltb_spec 0 (pos * Z.of_nat k + Z.of_nat k)) as [M|M]; [nia|].
    destruct (Z.ltb_spec (pos * Z.of_nat k + Z.of_nat (length l * k)) 0) as [Q|Q], (Z.leb_spec (- Z.of_nat (length l)) pos) as [S|S]; try nia; auto. f_equal. nia.
Qed.
Lemma python_index_lt n pos i : python_index n pos = Some i -> i < n.
Proof.
  unfold python_index. destruct ((0 <=? pos) && (pos <? Z.of_nat n))%Z eqn:E.
  - apply andb_prop in E. destruct E as [E1 E2]. apply Z.leb_le in E1. apply Z.ltb_lt in E2. intros H; inversion H. lia.
  - destruct ((- Z.of_nat n <=? pos) && (pos <? 0))%Z eqn:E'; [|discriminate]. apply andb_prop in E'. destruct E' as [E1 E2]. apply Z.leb_le in E1. apply Z.ltb_lt in E2. intros H; inversion H. lia.
Qed.
Lemma python_index_ge n pos : (Z.of_nat n <= pos)%Z -> python_index n pos = None.
Proof.
  intros H. unfold python_index. rewrite (proj2 (Z.ltb_ge _ _) H), andb_false_r. rewrite (proj2 (Z.ltb_ge pos 0)) by lia. rewrite andb_false_r. auto.
Qed.

Lemma get_ok l pos : buf_get dec k (flat_map enc l) pos = match python_index (length l) pos with
  | Some i => match nth_error l i with Some v => Ok v | None => Err Throw end | None => Err Throw end.
Proof.
  unfold buf_get. rewrite len_ok. destruct (Z.leb_spec (Z.of_nat (length l)) pos) as [L|L]; [rewrite python_index_ge; auto|].
  rewrite place_ok by auto. destruct (python_index (length l) pos) as [i|] eqn:E; cbn [bind]; auto.
  apply python_index_lt in E. destruct (nth_error l i) as [v|] eqn:EN; [|apply nth_error_None in EN; lia].
  rewrite enc_skip. assert (S : skipn i l = v :: skipn (Datatypes.S i) l). { clear - EN. revert i EN. induction l as [|y l IH]; intros [|i] EN; simpl in *; try discriminate; auto. inversion EN; auto. }
  rewrite S. simpl. rewrite firstn_app, EL, Nat.sub_diag, firstn_O, app_nil_r, firstn_all2, ED; auto. rewrite EL; auto.
Qed.
Lemma set_ok l pos v : buf_set enc k (flat_map enc l) pos v = match python_index (length l) pos with
  | Some i => Ok (flat_map enc (upd l i v)) | None => Err Throw end.
Proof.
  unfold buf_set. rewrite len_ok. destruct (Z.leb_spec (Z.of_nat (length l)) pos) as [L|L]; [rewrite python_index_ge; auto|].
  rewrite place_ok by auto. destruct (python_index (length l) pos) as [i|] eqn:E; cbn [bind]; auto. f_equal.
  apply python_index_lt in E. destruct (nth_error l i) as [w|] eqn:EN; [|apply nth_error_None in EN; lia].
  replace (i * k + k) with (Datatypes.S i * k) by lia. rewrite enc_first, enc_skip, <- (upd_split v EN), flat_map_app. auto.
Qed.
Lemma buffer_of_ok l : buffer_of enc k l = match l with [] => Err Throw | _ => Ok (flat_map enc l) end.
Proof.
  unfold buffer_of, new_buffer. destruct l as [|v l]; auto. destruct (Z.leb_spec (Z.of_nat (length (v :: l)) * Z.of_nat k) 0) as [H|H]; auto. simpl length in H. nia.
Qed.
Lemma buffer_of_size_ok z n : enc z = repeat 0 k -> buffer_of_size enc k n = if (n <=? 0)%Z then Err Throw else Ok (flat_map enc (repeat z (Z.to_nat n))).
Proof.
  intros EZ. unfold buffer_of_size, new_buffer. destruct (Z.leb_spec n 0) as [H|H].
  - rewrite (proj2 (Z.leb_le _ _)); auto. nia.
  - rewrite (proj2 (Z.leb_gt _ _)) by nia. f_equal. induction (Z.to_nat n) as [|m IH]; simpl; auto. rewrite repeat_app, IH, EZ. auto.
Qed.
End Buffer.

(** ** The arguments of the runs *)
Section Args.
Variable V : Type.
Implicit Types (ls : list (list V)) (kwargs : list (nat * list V)).

Lemma nth_map2 (A B C : Type) (f : A -> B -> C) l : forall k i, nth_error (map2 f l k) i =
  match nth_error l i, nth_error k i with Some a, Some b => Some (f a b) | _, _ => None end.
Proof. induction l as [|x l IH]; intros [|y k] [|i]; simpl; auto. - destruct (nth_error l i); auto. Qed.

Lemma zip_ok ls i row : ls <> [] -> nth_error (zip_all ls) i = Some row <-> Forall2 (fun l x => nth_error l i = Some x) ls row.
Proof.
  intros HN. revert row. induction ls as [|l ls IH]; [congruence|]. intros row. destruct ls as [|l' ls].
  - simpl. rewrite nth_error_map. split.
    + destruct (nth_error l i) eqn:E; simpl; [|discriminate]. intros H; inversion H; subst. auto.
    + intros H. inversion H as [|? ? ? ? H1 H2]; subst. inversion H2; subst. rewrite H1. auto.
  - change (zip_all (l :: l' :: ls)) with (map2 cons l (zip_all (l' :: ls))). rewrite nth_map2. split.
    + destruct (nth_error l i) eqn:E; [|discriminate]. destruct (nth_error (zip_all (l' :: ls)) i) eqn:E'; [|discriminate]. intros H; inversion H; subst. constructor; auto. apply IH; auto. discriminate.
    + intros H. inversion H as [|? ? ? row' H1 H2]; subst. rewrite H1. rewrite (proj2 (IH ltac:(discriminate) row') H2). auto.
Qed.

Lemma kw_rows kwargs i kw : kwargs <> [] ->
  (exists row, nth_error (zip_all (map snd kwargs)) i = Some row /\ kw = combine (map fst kwargs) row) <->
  Forall2 (fun l x => fst l = fst x /\ nth_error (snd l) i = Some (snd x)) kwargs kw.
Proof.
  intros HN. assert (HN' : map snd kwargs <> []) by (destruct kwargs; simpl; congruence). split.
  - intros (row & H & ->). apply zip_ok in H; auto. clear HN HN'. revert row H. induction kwargs as [|(nm, l) kwargs IH]; simpl; intros row H; inversion H; subst; simpl; auto.
  - intros H. exists (map snd kw). rewrite zip_ok by auto. clear HN HN'. induction H as [|(nm, l) (nm', x) ? ? [H1 H2] ? IH]; simpl in *; auto. destruct IH as [IH1 IH2]. subst. split; auto. f_equal; auto.
Qed.

Lemma jobs_ok args kwargs i a kw : (args <> [] \/ kwargs <> []) -> nth_error (jobs args kwargs) i = Some (a, kw) <-> arguments_of args kwargs i a kw.
Proof.
  intros HN. unfold arguments_of. destruct kwargs as [|(nm, l) kwargs].
  - assert (HA : args <> []) by (destruct HN; congruence). assert (E : jobs args [] = map (fun a : list V => (a, [])) (zip_all args)) by (unfold jobs; destruct args; auto).
    rewrite E, nth_error_map. split.
    + destruct (nth_error (zip_all args) i) eqn:E'; simpl; [|discriminate]. intros H; inversion H; subst. apply zip_ok in E'; auto.
    + intros [H1 H2]. apply zip_ok in H1; auto. rewrite H1. inversion H2; auto.
  - assert (EJ : jobs args ((nm, l) :: kwargs) = match args with [] => map (pair []) (map (combine (map fst ((nm, l) :: kwargs))) (zip_all (map snd ((nm, l) :: kwargs)))) | _ => map2 pair (zip_all args) (map (combine (map fst ((nm, l) :: kwargs))) (zip_all (map snd ((nm, l) :: kwargs)))) end) by (unfold jobs; destruct args; auto).
    rewrite EJ. clear EJ. set (kws := (nm, l) :: kwargs). assert (HK : kws <> []) by discriminate. clearbody kws. destruct args as [|l1 args].
    + rewrite nth_error_map, nth_error_map, <- kw_rows by auto. split.
      * destruct (nth_error (zip_all (map snd kws)) i) as [row|] eqn:E; simpl; [|discriminate]. intros H; inversion H; subst. split; auto. eauto.
      * intros (H1 & row & E & ->). rewrite E. inversion H1; subst. auto.
    + rewrite nth_map2, nth_error_map, <- kw_rows by auto. split.
      * destruct (nth_error (zip_all (l1 :: args)) i) as [x|] eqn:E1; [|discriminate]. destruct (nth_error (zip_all (map snd kws)) i) as [row|] eqn:E; simpl; [|discriminate]. intros H; inversion H; subst.
        apply zip_ok in E1; [|discriminate]. split; auto. eauto.
      * intros (H1 & row & E & ->). rewrite E. apply zip_ok in H1; [|discriminate]. rewrite H1. auto.
Qed.

Lemma jobs_shortest args kwargs : (args <> [] \/ kwargs <> []) -> shortest (args ++ map snd kwargs) (length (jobs args kwargs)).
Proof.
  intros HN. split.
  - intros l Hl. destruct (le_lt_dec (length (jobs args kwargs)) (length l)) as [|L]; auto. exfalso.
    destruct (nth_error (jobs args kwargs) (length l)) as [(a, kw)|] eqn:E; [|apply nth_error_None in E; lia]. apply jobs_ok in E; auto. destruct E as [E1 E2].
    assert (X : exists x : V, nth_error l (length l) = Some x).
    { apply in_app_iff in Hl. destruct Hl as [Hl|Hl].
      - clear - E1 Hl. induction E1; [destruct Hl|]. destruct Hl as [->|Hl]; eauto.
      - apply in_map_iff in Hl. destruct Hl as ((nm, l') & <- & Hl). simpl in *. clear - E2 Hl. induction E2 as [|? ? ? ? [? ?]]; [destruct Hl|]. destruct Hl as [->|Hl]; eauto. }
    destruct X as (x & X). assert (nth_error l (length l) <> None) by congruence. apply nth_error_Some in H. lia.
  - remember (length (jobs args kwargs)) as n eqn:En.
    assert (D : (exists l, In l (args ++ map snd kwargs) /\ length l <= n) \/ forall l, In l (args ++ map snd kwargs) -> n < length l).
    { induction (args ++ map snd kwargs) as [|l ls IH]; [right; intros ? []|]. destruct (le_lt_dec (length l) n); [left; exists l; simpl; auto|]. destruct IH as [(l' & H1 & H2)|IH]; [left; exists l'; simpl; auto|]. right. intros l' [<-|H]; auto. }
    destruct D as [(l & H1 & H2)|D].
    + exists l. split; auto. assert (n <= length l); [|lia]. (* first half *)
      destruct (le_lt_dec n (length l)) as [|L]; auto. exfalso.
      destruct (nth_error (jobs args kwargs) (length l)) as [(a, kw)|] eqn:E; [|apply nth_error_None in E; lia]. apply jobs_ok in E; auto. destruct E as [E1 E2].
      assert (X : exists x : V, nth_error l (length l) = Some x).
      { apply in_app_iff in H1. destruct H1 as [Hl|Hl].
        - clear - E1 Hl. induction E1; [destruct Hl|]. destruct Hl as [->|Hl]; eauto.
        - apply in_map_iff in Hl. destruct Hl as ((nm, l') & <- & Hl). simpl in *. clear - E2 Hl. induction E2 as [|? ? ? ? [? ?]]; [destruct Hl|]. destruct Hl as [->|Hl]; eauto. }
      destruct X as (x & X). assert (nth_error l (length l) <> None) by congruence. apply nth_error_Some in H. lia.
    + exfalso. assert (X1 : exists a, Forall2 (fun l x => nth_error l n = Some x) args a).
      { assert (D1 : forall l, In l args -> n < length l) by (intros; apply D, in_or_app; auto). clear - D1. induction args as [|l ls IH]; [exists []; auto|]. destruct IH as (a & IH); [intros; apply D1; right; auto|].
        destruct (nth_error l n) as [x|] eqn:E; [exists (x :: a); auto|]. apply nth_error_None in E. specialize (D1 l (or_introl eq_refl)). lia. }
      assert (X2 : exists kw, Forall2 (fun l x => fst l = fst x /\ nth_error (snd l) n = Some (snd x)) kwargs kw).
      { assert (D1 : forall l, In l (map snd kwargs) -> n < length l) by (intros; apply D, in_or_app; auto). clear - D1. induction kwargs as [|(nm, l) ls IH]; [exists []; auto|]. destruct IH as (a & IH); [intros; apply D1; right; auto|].
        destruct (nth_error l n) as [x|] eqn:E; [exists ((nm, x) :: a); constructor; auto|]. apply nth_error_None in E. specialize (D1 l (or_introl eq_refl)). lia. }
      destruct X1 as (a & X1), X2 as (kw & X2). assert (E : nth_error (jobs args kwargs) n = Some (a, kw)) by (apply jobs_ok; auto; split; auto).
      assert (nth_error (jobs args kwargs) n <> None) by congruence. apply nth_error_Some in H. lia.
Qed.
End Args.

(** ** Schedules *)
Section Sched.
Variables V R St : Type.
Variable init : list V -> list (nat * V) -> nat -> St.
Variable step : St -> bool -> (St * option Z) + R.
Variable js : list (list V * list (nat * V)).

Inductive reaches (cut : option nat) (s0 : St) : nat -> St -> Prop :=
| reaches_0 : reaches cut s0 0 s0
| reaches_S k s s' o : reaches cut s0 k s -> step s (flag cut k) = inl (s', o) -> reaches cut s0 (Datatypes.S k) s'.

Lemma reaches_returns cut s0 k s r : reaches cut s0 k s -> returns step cut k s r -> returns step cut 0 s0 r.
Proof. intros H. induction H; intros HR; auto. apply IHreaches. eapply returns_later; eauto. Qed.
Lemma reaches_flag cut cut' s0 k s : reaches cut s0 k s -> (forall j, j < k -> flag cut j = flag cut' j) -> reaches cut' s0 k s.
Proof.
  intros H. induction H; intros F; [constructor|]. econstructor; [apply IHreaches; intros; apply F; lia|]. rewrite <- F by lia. eauto.
Qed.
Lemma returns_det cut k s r : returns step cut k s r -> forall r', returns step cut k s r' -> r = r'.
Proof.
  intros H. induction H as [k s r H|k s s' o r H H' IH]; intros r' HR; inversion HR as [? ? ? H1|? ? s1 o1 ? H1 H2]; subst; rewrite H in H1; try discriminate; [congruence|].
  inversion H1; subst. auto.
Qed.

Definition start_of (i : nat) (s : St) : Prop := exists a kw, nth_error js i = Some (a, kw) /\ s = init a kw i.
Definition task_ok (b : bool) (i : nat) (t : task R St) : Prop :=
  match t with
  | Idle _ _ => True
  | Running _ s => exists s0 cut k, start_of i s0 /\ (b = false -> cut = None) /\ (b = true -> exists c, cut = Some c /\ c <= k) /\ reaches cut s0 k s
  | Returned _ r | Finished _ r => exists s0 cut, start_of i s0 /\ (b = false -> cut = None) /\ returns step cut 0 s0 r
  end.
Definition inv (w : world R St) : Prop :=
  length (w_tasks w) = length js /\ length (w_stop w) = length js /\ length (w_status w) = length js /\ length (w_completed w) = length js /\
  (forall i b, nth_error (w_stop w) i = Some b -> b = (i <? w_timer w)) /\
  (forall i t, nth_error (w_tasks w) i = Some t -> task_ok (i <? w_timer w) i t /\
     (nth_error (w_completed w) i = Some true <-> exists r, t = Finished _ r)).

Lemma nth_upd (A : Type) (l : list A) : forall i j x, i < length l -> nth_error (upd l i x) j = if j =? i then Some x else nth_error l j.
Proof.
  induction l as [|y l IH]; intros [|i] [|j] x L; simpl in *; try lia; auto. apply IH. lia.
Qed.
Lemma upd_len (A : Type) (l : list A) : forall i x, length (upd l i x) = length l.
Proof. induction l as [|y l IH]; intros [|i] x; simpl; auto. Qed.
Lemma nth_repeat_some (A : Type) (x y : A) n i : nth_error (repeat x n) i = Some y -> y = x.
Proof. intros H. apply nth_error_In in H. apply repeat_spec in H. auto. Qed.

Lemma inv_start : inv (start R St (length js)).
Proof.
  unfold inv, start; cbn [w_tasks w_stop w_status w_completed w_timer]. rewrite !repeat_length. do 4 (split; [auto; fail|]). split.
  - intros i b H. apply nth_repeat_some in H. auto.
  - intros i t H. apply nth_repeat_some in H. subst. split; [exact I|]. split.
    + intros H. apply nth_repeat_some in H. discriminate.
    + intros (r & H). discriminate.
Qed.

Lemma inv_work w i : inv w -> exists w', work init step js w i = Ok w' /\ inv w' /\ w_timer w' = w_timer w /\
  (forall j, j <> i -> nth_error (w_tasks w') j = nth_error (w_tasks w) j).
Proof.
  intros (L1 & L2 & L3 & L4 & HS & HT). unfold work. destruct (nth_error (w_tasks w) i) as [t|] eqn:E; [|exists w; repeat (split; auto)].
  assert (Li : i < length js) by (rewrite <- L1; apply nth_error_Some; congruence).
  destruct (HT i t E) as (Ht & Hc).
  assert (UP : forall t' st, length st = length js -> (forall r, t' <> Finished _ r) -> (forall r, t <> Finished _ r) -> task_ok (i <? w_timer w) i t' ->
     inv (mkW (upd (w_tasks w) i t') (w_stop w) st (w_completed w) (w_timer w)) /\ forall j, j <> i -> nth_error (upd (w_tasks w) i t') j = nth_error (w_tasks w) j).
  { intros t' st Lst N1 N2 OK. split.
    - unfold inv; cbn [w_tasks w_stop w_status w_completed w_timer]. rewrite upd_len. do 5 (split; [auto; fail|]).
      intros j u. rewrite nth_upd by lia. destruct (Nat.eqb_spec j i) as [->|Hn]; [|apply HT]. intros H; inversion H; subst u. split; auto. rewrite Hc. split; intros (r & H'); exfalso; [eapply N2|eapply N1]; eauto.
    - intros j Hj. rewrite nth_upd by lia. destruct (Nat.eqb_spec j i); congruence. }
  destruct t as [|s|r|r].
  - unfold get. destruct (nth_error js i) as [(a, kw)|] eqn:EJ; [|apply nth_error_None in EJ; lia]. cbn [bind]. eexists. split; [reflexivity|]. cbn [w_timer w_tasks]. 
    destruct (UP (Running R (init a kw i)) (w_status w) L3) as [U1 U2]; try discriminate; [|split; auto].
    exists (init a kw i). destruct (i <? w_timer w).
    + exists (Some 0), 0. split; [exists a, kw; auto|]. split; [discriminate|]. split; [eauto|constructor].
    + exists None, 0. split; [exists a, kw; auto|]. split; [auto|]. split; [discriminate|constructor].
  - unfold get. destruct (nth_error (w_stop w) i) as [b|] eqn:EB; [|apply nth_error_None in EB; lia]. cbn [bind]. rewrite (HS i b EB).
    destruct Ht as (s0 & cut & k & H0 & H1 & H2 & HR).
    assert (FL : flag cut k = (i <? w_timer w)). { destruct (i <? w_timer w) eqn:EF; [destruct (H2 eq_refl) as (c & -> & Hk); simpl; apply Nat.leb_le; auto|rewrite (H1 eq_refl); auto]. }
    destruct (step s (i <? w_timer w)) as [(s', o)|r] eqn:ES.
    + assert (OK : task_ok (i <? w_timer w) i (Running R s')).
      { exists s0, cut, (Datatypes.S k). split; auto. split; auto. split; [intros F; destruct (H2 F) as (c & -> & Hk); exists c; split; auto; lia|]. econstructor; eauto. rewrite FL; eauto. }
      destruct o as [z|].
      * unfold set. rewrite (proj2 (Nat.ltb_lt i (length (w_status w)))) by lia. cbn [bind]. eexists. split; [reflexivity|]. cbn [w_timer w_tasks].
        destruct (UP (Running R s') (upd (w_status w) i z)) as [U1 U2]; try discriminate; [rewrite upd_len; auto|auto|split; auto].
      * eexists. split; [reflexivity|]. cbn [w_timer w_tasks]. destruct (UP (Running R s') (w_status w)) as [U1 U2]; try discriminate; auto.
    + eexists. split; [reflexivity|]. cbn [w_timer w_tasks]. destruct (UP (Returned _ r) (w_status w)) as [U1 U2]; try discriminate; auto.
      exists s0, cut. split; auto. split; auto. eapply reaches_returns; eauto. apply returns_now. rewrite FL; auto.
  - unfold set. rewrite (proj2 (Nat.ltb_lt i (length (w_completed w)))) by lia. cbn [bind]. eexists. split; [reflexivity|]. cbn [w_timer w_tasks]. split; [|split; auto].
    + unfold inv; cbn [w_tasks w_stop w_status w_completed w_timer]. rewrite !upd_len. do 5 (split; [auto; fail|]).
      intros j u. rewrite !nth_upd by lia. destruct (Nat.eqb_spec j i) as [->|Hn]; [|apply HT]. intros H; inversion H; subst u. split; auto. split; eauto.
    + intros j Hj. rewrite nth_upd by lia. destruct (Nat.eqb_spec j i); congruence.
  - exists w. repeat (split; auto).
Qed.

Lemma inv_tick w : inv w -> exists w', tick w = Ok w' /\ inv w' /\ w_tasks w' = w_tasks w.
Proof.
  intros (L1 & L2 & L3 & L4 & HS & HT). unfold tick. destruct (Nat.ltb_spec (w_timer w) (length (w_stop w))) as [L|L]; [|exists w; repeat (split; auto)].
  unfold set. rewrite (proj2 (Nat.ltb_lt _ _) L). cbn [bind]. eexists. split; [reflexivity|]. split; auto.
  unfold inv; cbn [w_tasks w_stop w_status w_completed w_timer]. rewrite upd_len. do 4 (split; [auto; fail|]). split.
  - intros i b. rewrite nth_upd by lia. destruct (Nat.eqb_spec i (w_timer w)) as [->|Hn].
    + intros H; inversion H; subst. symmetry. apply Nat.ltb_lt. lia.
    + intros H. rewrite (HS i b H). destruct (Nat.ltb_spec i (w_timer w)), (Nat.ltb_spec i (Datatypes.S (w_timer w))); auto; lia.
  - intros i t E. destruct (HT i t E) as (H1 & H2). split; auto.
    destruct (Nat.ltb_spec i (w_timer w)) as [A|A], (Nat.ltb_spec i (Datatypes.S (w_timer w))) as [B|B]; auto; try lia.
    destruct t as [|s|r|r]; simpl in *; auto.
    + destruct H1 as (s0 & cut & k & H0 & H3 & _ & HR). rewrite (H3 eq_refl) in HR. exists s0, (Some k), k. split; auto. split; [discriminate|]. split; [eauto|].
      apply (reaches_flag HR). intros j Hj. simpl. symmetry. apply Nat.leb_gt. auto.
    + destruct H1 as (s0 & cut & H0 & _ & HR). exists s0, cut. split; auto. split; [discriminate|auto].
    + destruct H1 as (s0 & cut & H0 & _ & HR). exists s0, cut. split; auto. split; [discriminate|auto].
Qed.

Lemma inv_run es : forall w, inv w -> exists w', run_events init step js es w = Ok w' /\ inv w' /\ (~ In Tick es -> w_timer w' = w_timer w).
Proof.
  induction es as [|[i|] es IH]; intros w HI; simpl.
  - exists w. auto.
  - destruct (inv_work i HI) as (w' & -> & HI' & ET & _). cbn [bind]. destruct (IH w' HI') as (w2 & -> & HI2 & ET2). exists w2. split; auto. split; auto. intros H. rewrite ET2; auto.
  - destruct (inv_tick HI) as (w' & -> & HI' & _). cbn [bind]. destruct (IH w' HI') as (w2 & -> & HI2 & _). exists w2. split; auto. split; auto. intros H. exfalso. auto.
Qed.

Lemma collect_ok (ts : list (task R St)) : (exists rs, collect ts = Ok rs /\ ts = map (@Finished R St) rs) \/ (collect ts = Err Fuel /\ exists t, In t ts /\ forall r, t <> Finished _ r).
Proof.
  induction ts as [|t ts IH]; simpl; [left; exists []; auto|].
  destruct t as [|s|r|r]; try (right; split; [auto|]; eexists; split; [left; reflexivity|discriminate]).
  destruct IH as [(rs & -> & ->)|(-> & t & H1 & H2)]; cbn [bind]; [left; exists (r :: rs); auto|right; split; auto; exists t; auto].
Qed.

(** Enough work finishes every task. *)
Definition within (m i : nat) (t : task R St) : Prop :=
  match t with
  | Idle _ _ => exists b s0, start_of i s0 /\ halts step b s0 /\ b + 2 <= m
  | Running _ s => exists b, halts step b s /\ b + 1 <= m
  | Returned _ _ => 1 <= m
  | Finished _ _ => True
  end.
Lemma within_work w i t m : inv w -> nth_error (w_tasks w) i = Some t -> within (Datatypes.S m) i t ->
  exists w' t', work init step js w i = Ok w' /\ nth_error (w_tasks w') i = Some t' /\ within m i t'.
Proof.
  intros (L1 & L2 & L3 & L4 & HS & HT) E HW. unfold work. rewrite E. assert (Li : i < length js) by (rewrite <- L1; apply nth_error_Some; congruence).
  destruct t as [|s|r|r].
  - destruct HW as (b & s0 & (a & kw & EJ & ->) & HB & L). unfold get. rewrite EJ. cbn [bind]. eexists. eexists. split; [reflexivity|]. cbn [w_tasks]. rewrite nth_upd, Nat.eqb_refl by lia. split; [reflexivity|]. exists b. split; auto. lia.
  - destruct HW as (b & HB & L). unfold get. destruct (nth_error (w_stop w) i) as [f|] eqn:EB; [|apply nth_error_None in EB; lia]. cbn [bind].
    destruct b as [|b]; [destruct HB|]. simpl in HB. specialize (HB f). destruct (step s f) as [(s', [z|])|r].
    + unfold set. rewrite (proj2 (Nat.ltb_lt i (length (w_status w)))) by lia. cbn [bind]. eexists. eexists. split; [reflexivity|]. cbn [w_tasks]. rewrite nth_upd, Nat.eqb_refl by lia. split; [reflexivity|]. exists b. split; auto. lia.
    + eexists. eexists. split; [reflexivity|]. cbn [w_tasks]. rewrite nth_upd, Nat.eqb_refl by lia. split; [reflexivity|]. exists b. split; auto. lia.
    + eexists. eexists. split; [reflexivity|]. cbn [w_tasks]. rewrite nth_upd, Nat.eqb_refl by lia. split; [reflexivity|]. simpl. lia.
  - unfold set. rewrite (proj2 (Nat.ltb_lt i (length (w_completed w)))) by lia. cbn [bind]. eexists. eexists. split; [reflexivity|]. cbn [w_tasks]. rewrite nth_upd, Nat.eqb_refl by lia. split; [reflexivity|]. exact I.
  - eexists. eexists. split; [reflexivity|]. split; [eauto|]. exact I.
Qed.
Lemma within_run es : forall w i t, inv w -> nth_error (w_tasks w) i = Some t -> within (length (filter (works_on i) es)) i t ->
  exists w' r, run_events init step js es w = Ok w' /\ nth_error (w_tasks w') i = Some (Finished _ r).
Proof.
  induction es as [|[j|] es IH]; intros w i t HI E HW; simpl in *.
  - destruct t as [|s|r|r]; simpl in HW; [destruct HW as (b & s0 & _ & _ & L); lia|destruct HW as (b & _ & L); lia|lia|]. exists w, r. auto.
  - destruct (inv_work j HI) as (w' & Ew & HI' & _ & HO). destruct (Nat.eqb_spec i j) as [->|Hn].
    + destruct (within_work HI E HW) as (w2 & t' & Ew2 & E' & HW'). rewrite Ew in Ew2. inversion Ew2; subst w2. rewrite Ew. cbn [bind]. apply (IH w' j t'); auto.
    + rewrite Ew. cbn [bind]. apply (IH w' i t); auto. rewrite HO; auto.
  - destruct (inv_tick HI) as (w' & -> & HI' & ET). cbn [bind]. apply (IH w' i t); auto. rewrite ET; auto.
Qed.
End Sched.
