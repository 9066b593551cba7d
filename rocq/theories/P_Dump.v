(** Files and dump_results: proofs. *)
From Coq Require Import String. From Coq Require Import List ZArith Bool Arith Lia.
Import ListNotations.
From Verif Require Import M_Json M_JsonTn S_Json M_Dump S_Dump P_Json P_JsonTn.
Set Implicit Arguments.
Unset Strict Implicit.
Local Open Scope string_scope. Local Open Scope list_scope. Local Open Scope nat_scope.

(** ** Lists of states *)
Lemma update_same (A : Type) (l : list A) : forall i x, i < length l -> nth_error (update l i x) i = Some x.
Proof. induction l as [|a l IH]; intros [|i] x H; simpl in *; [lia|lia|reflexivity|apply IH; lia]. Qed.
Lemma update_other (A : Type) (l : list A) : forall i j x, i <> j -> nth_error (update l i x) j = nth_error l j.
Proof. induction l as [|a l IH]; intros [|i] [|j] x H; simpl; try reflexivity; [congruence|apply IH; lia]. Qed.
Lemma update_length (A : Type) (l : list A) : forall i x, length (update l i x) = length l.
Proof. induction l as [|a l IH]; intros [|i] x; simpl; try reflexivity. rewrite IH. reflexivity. Qed.

Lemma teqb_refl a : teqb a a = true. Proof. apply teqb_eq. reflexivity. Qed.
Lemma teqb_false a b : teqb a b = false <-> a <> b.
Proof. destruct (teqb a b) eqn:E; [apply teqb_eq in E; split; [discriminate|congruence]|]. split; [intros _ H; apply teqb_eq in H; congruence|reflexivity]. Qed.
Lemma one_of_true s l : one_of s l = true <-> In s l.
Proof.
  unfold one_of. rewrite existsb_exists. split; [intros (x & Hx & E); apply teqb_eq in E; subst; exact Hx|intros H; exists s; split; [exact H|apply teqb_refl]].
Qed.

Definition odec (a b : option bytes) : {a = b} + {a <> b}.
Proof. decide equality. apply (list_eq_dec Z.eq_dec). Defined.

Section Dump.
Variable L : lib.

Lemma is_json_spec c : is_json L c = true <-> json_wanted L c.
Proof.
  unfold is_json, json_wanted. destruct (format c) as [f|]; [rewrite teqb_eq; split; [intros E; exists f; auto|intros (f' & E & H); congruence]|].
  split; [discriminate|intros (f & E & _); discriminate].
Qed.
Lemma check_spec c fs : check L c fs = None <-> accepted L c fs.
Proof.
  unfold check, accepted. split.
  - intros H. destruct (extra c); [discriminate|]. split; [reflexivity|].
    destruct (match format c with None => true | Some f => one_of (lower L f) [str "raw"; str "json"] end) eqn:E1; [|discriminate]. cbn [negb] in H.
    destruct (match name c with Some ((_ :: _) as n) => negb (valid_path L n) | _ => false end) eqn:E2; [discriminate|].
    destruct (match name c with Some n => negb (overwrite c) && match fs (file L n) with Some _ => true | None => false end | None => false end) eqn:E3; [discriminate|].
    destruct (one_of (lower L (compression c)) [str "auto"; str "none"; str "bz2"; str "gzip"]) eqn:E4; [|discriminate].
    split; [|split; [|split]].
    + destruct (format c) as [f|]; [right; exists f; split; [reflexivity|]; apply one_of_true in E1; destruct E1 as [E|[E|[]]]; auto|left; reflexivity].
    + intros n En Hn. rewrite En in E2. destruct n; [congruence|]. apply negb_false_iff in E2. exact E2.
    + intros n En. rewrite En in E3. destruct (overwrite c); [auto|right]. cbn in E3. destruct (fs (file L n)); [discriminate|reflexivity].
    + apply one_of_true in E4. destruct E4 as [E|[E|[E|[E|[]]]]]; auto.
  - intros (H0 & H1 & H2 & H3 & H4). rewrite H0.
    assert (E1 : match format c with None => true | Some f => one_of (lower L f) [str "raw"; str "json"] end = true).
    { destruct H1 as [->|(f & -> & H)]; [reflexivity|]. apply one_of_true. destruct H as [->| ->]; simpl; auto. }
    rewrite E1. cbn [negb].
    assert (E2 : match name c with Some ((_ :: _) as n) => negb (valid_path L n) | _ => false end = false).
    { destruct (name c) as [[|a n]|]; [reflexivity| |reflexivity]. rewrite (H2 _ eq_refl); [reflexivity|discriminate]. }
    rewrite E2.
    assert (E3 : match name c with Some n => negb (overwrite c) && match fs (file L n) with Some _ => true | None => false end | None => false end = false).
    { destruct (name c) as [n|]; [|reflexivity]. destruct (H3 _ eq_refl) as [->| ->]; [reflexivity|apply andb_false_r]. }
    rewrite E3. assert (E4 : one_of (lower L (compression c)) [str "auto"; str "none"; str "bz2"; str "gzip"] = true).
    { apply one_of_true. simpl. destruct H4 as [->|[->|[->| ->]]]; auto. }
    rewrite E4. reflexivity.
Qed.

(** ** Invariants of a single step *)
Definition target (c : call) (n : text) : bytes :=
  apply_codec c (codec_of L c n) (if is_json L c then match as_json c with Some t => encoded c t | None => [] end else fst (pickled c)).
(** The file of a state. *)
Definition good (c : call) (st : state) : Prop :=
  match st with
  | Begin => True
  | Passed => check_only c = false
  | Ready f d w => check_only c = false /\ exists n, name c = Some n /\ f = file L n /\ d = target c n /\ (is_json L c = true -> as_json c <> None)
  | Writing f pos d w => check_only c = false /\ exists n done, name c = Some n /\ f = file L n /\ target c n = done ++ d /\ pos = length done /\ (is_json L c = true -> as_json c <> None)
  | Ended _ => True
  end.
Lemma step_good c go st fs : good c st -> good c (fst (step L c go st fs)).
Proof.
  intros G. destruct go as [k|]; [|destruct st; exact I]. destruct st as [| |f d w|f pos d w|o]; cbn [step].
  - destruct (check L c fs); [exact I|]. destruct (check_only c) eqn:E; [exact I|exact E].
  - destruct (is_json L c) eqn:Ej.
    + destruct (as_json c) as [t|] eqn:Et; [|exact I]. destruct (name c) as [n|] eqn:En; [|exact I]. split; [exact G|]. exists n. unfold target. rewrite Ej, Et. split; [exact En|]. split; [reflexivity|]. split; [reflexivity|discriminate].
    + destruct (name c) as [n|] eqn:En; [|exact I]. split; [exact G|]. exists n. unfold target. rewrite Ej. split; [exact En|]. split; [reflexivity|]. split; [reflexivity|discriminate].
  - destruct G as (G & n & En & Ef & Ed & Ej). split; [exact G|]. exists n, []. split; [exact En|]. split; [exact Ef|]. split; [symmetry; exact Ed|]. split; [reflexivity|exact Ej].
  - destruct G as (G & n & don & En & Ef & Ed & Ep & Ej). destruct d as [|a d]; [exact I|]. cbn [fst]. split; [exact G|]. exists n, (don ++ firstn (S k) (a :: d)). split; [exact En|]. split; [exact Ef|].
    split; [rewrite <- app_assoc, firstn_skipn; exact Ed|]. split; [rewrite app_length, Ep; reflexivity|exact Ej].
  - exact I.
Qed.
Lemma step_frame c go st fs f : good c st -> snd (step L c go st fs) f <> fs f -> names_file L c f /\ check_only c = false /\ (is_json L c = true -> as_json c <> None) /\ match st with Ready _ _ _ | Writing _ _ _ _ => True | _ => False end.
Proof.
  intros G. destruct go as [k|]; [|destruct st; intros H; exfalso; apply H; reflexivity]. destruct st as [| |f' d w|f' pos d w|o]; cbn [step].
  - destruct (check L c fs); [intros H; exfalso; apply H; reflexivity|]. destruct (check_only c); intros H; exfalso; apply H; reflexivity.
  - destruct (is_json L c); [destruct (as_json c) as [t|]|]; try (destruct (name c)); intros H; exfalso; apply H; reflexivity.
  - destruct G as (G & n & En & Ef & _ & Ej). unfold set_file. cbn [snd]. destruct (Nat.eqb_spec f f') as [E|E]; [|congruence]. intros _. split; [exists n; split; [exact En|congruence]|]. auto.
  - destruct G as (G & n & don & En & Ef & _ & _ & Ej). destruct d as [|a d]; [intros H; exfalso; apply H; reflexivity|]. unfold set_file. cbn [snd]. destruct (Nat.eqb_spec f f') as [E|E]; [|congruence]. intros _. split; [exists n; split; [exact En|congruence]|]. auto.
  - intros H; exfalso; apply H; reflexivity.
Qed.

(** ** Systems *)
Definition sgood (cs : list call) (s : list state * files) : Prop :=
  length (fst s) = length cs /\ forall i c st, nth_error cs i = Some c -> nth_error (fst s) i = Some st -> good c st.
Lemma run_ind (cs : list call) (fs : files) (P : list state * files -> Prop) :
  P (map (fun _ => Begin) cs, fs) ->
  (forall s i go c st, sgood cs s -> P s -> nth_error cs i = Some c -> nth_error (fst s) i = Some st ->
     P (update (fst s) i (fst (step L c go st (snd s))), snd (step L c go st (snd s)))) ->
  forall sched, sgood cs (run L cs sched fs) /\ P (run L cs sched fs).
Proof.
  intros H0 Hs sched. induction sched as [|m sched IH] using rev_ind.
  - split; [|exact H0]. split; [apply map_length|]. intros i c st Hc Hst. cbn [run fold_left fst] in Hst. rewrite nth_error_map, Hc in Hst. injection Hst as <-. exact I.
  - unfold run in *. rewrite fold_left_app. cbn [fold_left]. destruct (fold_left (fun s m => system_step L cs m s) sched (map (fun _ => Begin) cs, fs)) as (sts, fs') eqn:E. destruct IH as ((Hl & G) & HP). cbn [fst] in Hl.
    unfold system_step. destruct (nth_error cs (fst m)) as [c|] eqn:Ec; [|split; [split; assumption|exact HP]].
    destruct (nth_error sts (fst m)) as [st|] eqn:Est; [|split; [split; assumption|exact HP]].
    specialize (Hs (sts, fs') (fst m) (snd m) c st (conj Hl G) HP Ec Est). cbn [fst snd] in Hs.
    pose proof (@step_good c (snd m) st fs' (G _ _ _ Ec Est)) as G1. destruct (step L c (snd m) st fs') as (st', fs'') eqn:Estep. cbn [fst snd] in *. split; [|exact Hs].
    split; [cbn [fst]; rewrite update_length; exact Hl|]. intros j c' st'' Hc' Hst''. cbn [fst] in Hst''. destruct (Nat.eq_dec (fst m) j) as [<-|N].
    + rewrite update_same in Hst'' by (rewrite Hl; apply nth_error_Some; congruence). injection Hst'' as <-. assert (c' = c) by congruence. subst. exact G1.
    + rewrite update_other in Hst'' by exact N. exact (G _ _ _ Hc' Hst'').
Qed.

(** Only the files that the calls name change. *)
Lemma only_named cs sched fs f : (forall c, In c cs -> names_file L c f -> check_only c = true \/ (json_wanted L c /\ as_json c = None)) -> snd (run L cs sched fs) f = fs f.
Proof.
  intros H. apply (@run_ind cs fs (fun s => snd s f = fs f)); [reflexivity|]. intros s i go c st G E Hc Hst. cbn [snd]. rewrite <- E.
  destruct G as (_ & G). specialize (G _ _ _ Hc Hst).
  destruct (odec (snd (step L c go st (snd s)) f) (snd s f)) as [E'|N]; [exact E'|].
  destruct (step_frame G N) as (Hn & Hk & Hj & _). destruct (H c (nth_error_In _ _ Hc) Hn) as [E'|(Hw & E')]; [congruence|]. apply is_json_spec in Hw. exfalso. apply (Hj Hw E').
Qed.

(** Files do not disappear. *)
Lemma step_exists c go st fs f : fs f <> None -> snd (step L c go st fs) f <> None.
Proof.
  intros H. destruct go as [k|]; [|destruct st; exact H]. destruct st as [| |f' d w|f' pos d w|o]; cbn [step].
  - destruct (check L c fs); [exact H|]. destruct (check_only c); exact H.
  - destruct (is_json L c); [destruct (as_json c) as [t|]|]; try (destruct (name c)); exact H.
  - unfold set_file. cbn [snd]. destruct (Nat.eqb f f'); [discriminate|exact H].
  - destruct d as [|a d]; [exact H|]. unfold set_file. cbn [snd]. destruct (Nat.eqb f f'); [discriminate|exact H].
  - exact H.
Qed.
Lemma no_overwrite cs sched fs f b : (forall c, In c cs -> names_file L c f -> overwrite c = false) -> fs f = Some b -> snd (run L cs sched fs) f = Some b.
Proof.
  intros H Hb.
  apply (@run_ind cs fs (fun s => snd s f = Some b /\ forall i c st, nth_error cs i = Some c -> nth_error (fst s) i = Some st -> names_file L c f -> match st with Begin | Ended _ => True | _ => False end)).
  - split; [exact Hb|]. intros i c st Hc Hst _. cbn [fst] in Hst. rewrite nth_error_map, Hc in Hst. injection Hst as <-. exact I.
  - intros s i go c st G (E & I0) Hc Hst. cbn [fst snd]. destruct G as (Hl & G). specialize (G _ _ _ Hc Hst). split.
    + destruct (odec (snd (step L c go st (snd s)) f) (snd s f)) as [E'|N]; [congruence|].
      destruct (step_frame G N) as (Hn & _ & _ & Hst'). specialize (I0 _ _ _ Hc Hst Hn). destruct st; contradiction.
    + intros j c' st' Hc' Hst' Hn. destruct (Nat.eq_dec i j) as [<-|N].
      * rewrite update_same in Hst' by (rewrite Hl; apply nth_error_Some; congruence). injection Hst' as <-. assert (c' = c) by congruence. subst c'. specialize (I0 _ _ _ Hc Hst Hn).
        destruct st as [| | | |o]; try contradiction; [|destruct go; exact I]. destruct go as [k|]; [|exact I]. cbn [step].
        destruct (check L c (snd s)) eqn:Ek; [exact I|]. apply check_spec in Ek. destruct Ek as (_ & _ & _ & Ho & _). destruct Hn as (n & En & Ef). destruct (Ho _ En) as [Eo|Ee]; [rewrite (H c (nth_error_In _ _ Hc) (ex_intro _ n (conj En Ef))) in Eo; discriminate|congruence].
      * rewrite update_other in Hst' by exact N. exact (I0 _ _ _ Hc' Hst' Hn).
Qed.

(** ** The file of one call *)
Lemma write_at_end (don d : bytes) : write_at don (length don) d = don ++ d.
Proof.
  unfold write_at. rewrite Nat.sub_diag. simpl. rewrite app_nil_r, firstn_all, skipn_all2, app_nil_r by lia. reflexivity.
Qed.
Definition keeps (fs0 : files) (c : call) (n : text) (st : state) (fs : files) : Prop :=
  match st with
  | Begin | Passed | Ready _ _ _ => fs (file L n) = fs0 (file L n)
  | Writing _ pos d w => fs (file L n) = Some (firstn pos (target c n)) /\ (w = (if is_json L c then true else snd (pickled c)))
  | Ended RetNone => if check_only c then fs (file L n) = fs0 (file L n) else fs (file L n) = Some (target c n) /\ (is_json L c = false -> snd (pickled c) = true)
  | Ended (Raise _) => fs (file L n) = fs0 (file L n) \/ check_only c = false /\ exists k, fs (file L n) = Some (firstn k (target c n))
  | Ended _ => False
  end /\ match st with Ready _ _ w => w = (if is_json L c then true else snd (pickled c)) | _ => True end.
Lemma step_keeps fs0 c n go st fs : name c = Some n -> good c st -> keeps fs0 c n st fs -> keeps fs0 c n (fst (step L c go st fs)) (snd (step L c go st fs)).
Proof.
  intros En G (K & K'). unfold keeps in *. destruct go as [k|].
  - destruct st as [| |f d w|f pos d w|o]; cbn [step].
    + destruct (check L c fs); [cbn; auto|]. destruct (check_only c) eqn:E; cbn; rewrite ?E; auto.
    + rewrite En. destruct (is_json L c) eqn:Ej; [destruct (as_json c); cbn; rewrite ?Ej; auto|cbn; rewrite ?Ej; auto].
    + destruct G as (G & n' & En' & Ef & Ed & _). assert (n' = n) by congruence. subst n'. cbn [fst snd]. split; [|exact I]. split; [|exact K']. unfold set_file. rewrite Ef, Nat.eqb_refl. reflexivity.
    + destruct G as (G & n' & don & En' & Ef & Ed & Ep & _). assert (n' = n) by congruence. subst n'. destruct K as (K & Kw). destruct d as [|a d].
      * cbn [fst snd]. split; [|exact I]. rewrite app_nil_r in Ed. rewrite K, Ep, <- Ed, firstn_all. destruct w.
        -- rewrite G. split; [reflexivity|]. intros Ej. rewrite Ej in Kw. congruence.
        -- right. split; [exact G|]. exists (length don). rewrite Ed at 1. rewrite Ed, firstn_all. reflexivity.
      * cbn [fst snd]. split; [|exact I]. split; [|exact Kw]. unfold set_file. rewrite Ef, Nat.eqb_refl. rewrite <- Ef, Ef, K, Ed, Ep.
        f_equal. rewrite firstn_app, firstn_all, Nat.sub_diag. cbn [firstn]. rewrite app_nil_r. rewrite write_at_end.
        rewrite firstn_app. rewrite (firstn_all2 (n := length don + _)) by lia. f_equal. replace (length don + length (a :: firstn k d) - length don) with (length (a :: firstn k d)) by lia.
        cbn [length firstn]. f_equal. rewrite firstn_length. destruct (Nat.le_gt_cases k (length d)); [rewrite Nat.min_l by lia; reflexivity|rewrite Nat.min_r by lia; rewrite !firstn_all2 by lia; reflexivity].
    + exact (conj K K').
  - destruct st as [| |f d w|f pos d w|o]; cbn; try (split; [left; exact K|exact I]).
    + split; [|exact I]. destruct K as (K & _). right. destruct G as (G & _). split; [exact G|]. exists pos. exact K.
    + exact (conj K K').
Qed.

Lemma own_file cs sched fs i c n st : nth_error cs i = Some c -> name c = Some n ->
  (forall j c', nth_error cs j = Some c' -> names_file L c' (file L n) -> j = i) ->
  nth_error (fst (run L cs sched fs)) i = Some st -> keeps fs c n st (snd (run L cs sched fs)).
Proof.
  intros Hc En Ho.
  destruct (@run_ind cs fs (fun s => forall st, nth_error (fst s) i = Some st -> keeps fs c n st (snd s))) with (sched := sched) as (_ & R).
  - intros st' Hst. cbn [fst] in Hst. rewrite nth_error_map, Hc in Hst. injection Hst as <-. split; [reflexivity|exact I].
  - intros s j go c' st0 G K Hc' Hst0. cbn [fst snd]. intros st' Hst'. destruct G as (Hl & G). pose proof (G _ _ _ Hc' Hst0) as G0. destruct (Nat.eq_dec j i) as [->|N].
    + rewrite update_same in Hst' by (rewrite Hl; apply nth_error_Some; congruence). injection Hst' as <-. assert (c' = c) by congruence. subst c'. apply step_keeps; [exact En|exact G0|apply K; exact Hst0].
    + rewrite update_other in Hst' by exact N. specialize (K _ Hst').
      assert (E : snd (step L c' go st0 (snd s)) (file L n) = snd s (file L n)).
      { destruct (odec (snd (step L c' go st0 (snd s)) (file L n)) (snd s (file L n))) as [E'|N']; [exact E'|]. destruct (step_frame G0 N') as (Hn & _). exfalso. apply N. apply (Ho _ _ Hc' Hn). }
      unfold keeps in *. rewrite E. exact K.
  - intros H. apply R. exact H.
Qed.
End Dump.
