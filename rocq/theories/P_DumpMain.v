(** Files and dump_results: what a file holds in the end, and reading it. *)
From Coq Require Import String. From Coq Require Import List ZArith Bool Arith Lia.
Import ListNotations.
From Verif Require Import M_Json M_JsonTn S_Json M_Dump S_Dump P_Json P_JsonTn P_Dump.
Set Implicit Arguments.
Unset Strict Implicit.
Local Open Scope string_scope. Local Open Scope list_scope. Local Open Scope nat_scope.

(** ** Suffixes *)
Lemma parts_none s : forall acc, ~ In 47%Z s -> parts s acc = [rev acc ++ s].
Proof.
  induction s as [|c s IH]; intros acc H; cbn [parts]; [rewrite app_nil_r; reflexivity|]. destruct (Z.eqb_spec c 47) as [E|E]; [exfalso; apply H; left; exact E|].
  rewrite IH by (intros Hi; apply H; right; exact Hi). cbn [rev]. rewrite <- app_assoc. reflexivity.
Qed.
Lemma parts_app d s : forall acc, exists l, parts (d ++ 47%Z :: s) acc = l ++ parts s [].
Proof.
  induction d as [|c d IH]; intros acc; cbn [parts app].
  - exists [rev acc]. reflexivity.
  - destruct (c =? 47)%Z; [|apply IH]. destruct (IH []) as (l & ->). exists (rev acc :: l). reflexivity.
Qed.
Lemma last_app_one (A : Type) (l : list A) x d : last (l ++ [x]) d = x.
Proof. induction l as [|a l IH]; [reflexivity|]. cbn [app last]. destruct (l ++ [x]) eqn:E; [destruct l; discriminate|exact IH]. Qed.
Lemma last_part_ok dir m : (dir = [] \/ exists d, dir = d ++ str "/") -> m <> [] -> m <> str "." -> ~ In 47%Z m -> last_part (dir ++ m) = m.
Proof.
  intros Hd Hm Hm' Hi. unfold last_part.
  assert (E : exists l, parts (dir ++ m) [] = l ++ [m]).
  { destruct Hd as [->|(d & ->)]; [exists []; rewrite parts_none by exact Hi; reflexivity|]. rewrite <- app_assoc. destruct (parts_app d m []) as (l & E). exists l. change (str "/" ++ m) with (47%Z :: m). rewrite E, parts_none by exact Hi. reflexivity. }
  destruct E as (l & ->). rewrite filter_app. cbn [filter]. rewrite (proj2 (teqb_false m [])), (proj2 (teqb_false m (str "."))) by assumption. cbn [negb andb]. apply last_app_one.
Qed.
Lemma after_dot_none s : forall b, ~ In 46%Z s -> after_dot b s = None.
Proof. induction s as [|c s IH]; intros b H; [reflexivity|]. cbn [after_dot]. rewrite IH by (intros Hi; apply H; right; exact Hi). destruct (Z.eqb_spec c 46) as [E|E]; [exfalso; apply H; left; exact E|reflexivity]. Qed.
Lemma after_dot_ok s e : forall b, ~ In 46%Z e -> after_dot b (s ++ 46%Z :: e) = Some (match s with [] => negb b | _ => true end, e).
Proof.
  induction s as [|c s IH]; intros b H; cbn [app after_dot].
  - rewrite (after_dot_none (s := e)) by exact H. reflexivity.
  - rewrite IH by exact H. destruct s; reflexivity.
Qed.
Lemma suffix_ok dir stem ext n : path_with dir stem ext n -> suffix n = ext.
Proof.
  intros (-> & Hd & Hs & He & Hi & Hi' & Hdot). unfold suffix. change (str "." ++ ext) with (46%Z :: ext).
  assert (Hl : last_part (dir ++ stem ++ 46%Z :: ext) = stem ++ 46%Z :: ext).
  { apply last_part_ok; [exact Hd|destruct stem; discriminate| |].
    - intros E. apply (f_equal (@length Z)) in E. rewrite app_length in E. cbn in E. destruct stem; [congruence|]. cbn in E. lia.
    - intros H. apply in_app_or in H. destruct H as [H|[H|H]]; [contradiction|discriminate|contradiction]. }
  rewrite Hl, after_dot_ok by exact Hdot. destruct stem; [congruence|reflexivity].
Qed.

Section Dump.
Variable L : lib.

Lemma codec_gzip c n : asks_gzip L c n -> codec_of L c n = Gz.
Proof.
  unfold codec_of. intros [E|(E & d & s & H)]; rewrite E; [reflexivity|]. cbn [teqb str]. rewrite teqb_refl, (suffix_ok H). reflexivity.
Qed.
Lemma codec_bz2 c n : asks_bz2 L c n -> codec_of L c n = Bz.
Proof.
  unfold codec_of. intros [E|(E & d & s & H)]; rewrite E; [reflexivity|]. rewrite teqb_refl, (suffix_ok H). reflexivity.
Qed.
Lemma codec_none c n : asks_none L c n -> codec_of L c n = Plain.
Proof.
  unfold codec_of. intros [E|(E & d & s & e & H & N1 & N2)]; rewrite E; [reflexivity|]. rewrite teqb_refl, (suffix_ok H). cbv zeta.
  rewrite (proj2 (teqb_false e (str "gzip"))), (proj2 (teqb_false e (str "bz2"))) by assumption. reflexivity.
Qed.
Lemma target_bytes c n : name c = Some n -> (is_json L c = true -> as_json c <> None) -> file_bytes L c (target L c n).
Proof.
  intros En Hj. unfold file_bytes, target. exists n. exists (if is_json L c then match as_json c with Some t => encoded c t | None => [] end else fst (pickled c)). split; [exact En|]. split; [|split; [|split; [|split]]].
  - unfold output_bytes. destruct (is_json L c) eqn:Ej.
    + left. split; [apply is_json_spec; exact Ej|]. destruct (as_json c) as [t|]; [exists t; split; reflexivity|exfalso; apply Hj; reflexivity].
    + right. split; [|reflexivity]. intros H. apply is_json_spec in H. congruence.
  - intros H. rewrite (codec_gzip H). reflexivity.
  - intros H. rewrite (codec_bz2 H). reflexivity.
  - intros H. rewrite (codec_none H). reflexivity.
  - destruct (codec_of L c n); cbn [apply_codec]; auto.
Qed.

Lemma json_target c n t : is_json L c = true -> as_json c = Some t -> target L c n = apply_codec c (codec_of L c n) (encoded c t).
Proof. intros Ej Et. unfold target. rewrite Ej, Et. reflexivity. Qed.

(** as_json = None: RetNone cannot be reached. *)
Lemma json_none_alone cs sched fs i c : nth_error cs i = Some c -> json_wanted L c -> as_json c = None -> check_only c = false ->
  nth_error (fst (run L cs sched fs)) i <> Some (Ended RetNone).
Proof.
  intros Hc Hj Et Eo. apply is_json_spec in Hj.
  destruct (@run_ind L cs fs (fun s => forall st, nth_error (fst s) i = Some st -> st <> Ended RetNone)) with (sched := sched) as (_ & R).
  - intros st Hst. cbn [fst] in Hst. rewrite nth_error_map, Hc in Hst. injection Hst as <-. discriminate.
  - intros s j go c' st0 G K Hc' Hst0. cbn [fst snd]. intros st' Hst'. destruct G as (Hl & G). destruct (Nat.eq_dec j i) as [->|N].
    + rewrite update_same in Hst' by (rewrite Hl; apply nth_error_Some; congruence). injection Hst' as <-. assert (c' = c) by congruence. subst c'. specialize (G _ _ _ Hc Hst0). specialize (K _ Hst0).
      destruct go as [k|]; [|destruct st0; cbn; try discriminate; exact K]. destruct st0 as [| |f d w|f pos d w|o]; cbn [step].
      * destruct (check L c (snd s)); [discriminate|]. rewrite Eo. discriminate.
      * rewrite Hj, Et. discriminate.
      * discriminate.
      * destruct G as (_ & n & don & _ & _ & _ & _ & Hn). exfalso. apply (Hn Hj Et).
      * exact K.
    + rewrite update_other in Hst' by exact N. exact (K _ Hst').
  - intros H. exact (R _ H eq_refl).
Qed.

Lemma complete cs sched fs i c n : nth_error cs i = Some c -> name c = Some n -> check_only c = false ->
  (forall j c', nth_error cs j = Some c' -> names_file L c' (file L n) -> j = i) ->
  nth_error (fst (run L cs sched fs)) i = Some (Ended RetNone) ->
  snd (run L cs sched fs) (file L n) = Some (target L c n) /\ file_bytes L c (target L c n) /\ (json_wanted L c \/ snd (pickled c) = true).
Proof.
  intros Hc En Eo Ho Hs. destruct (own_file Hc En Ho Hs) as (K & _). rewrite Eo in K. destruct K as (K & Kw). split; [exact K|].
  split; [|destruct (is_json L c) eqn:Ej; [left; apply is_json_spec; exact Ej|right; apply Kw; reflexivity]].
  apply target_bytes; [exact En|]. intros Ej Et. apply (json_none_alone (sched := sched) (fs := fs) Hc); [apply is_json_spec; exact Ej|exact Et|exact Eo|exact Hs].
Qed.

Lemma any_time cs sched fs i c n : nth_error cs i = Some c -> name c = Some n ->
  (forall j c', nth_error cs j = Some c' -> names_file L c' (file L n) -> j = i) ->
  let fs' := snd (run L cs sched fs) in
  fs' (file L n) = fs (file L n) \/
  check_only c = false /\ exists b k, file_bytes L c b /\ fs' (file L n) = Some (firstn k b).
Proof.
  intros Hc En Ho fs'. unfold fs'.
  destruct (odec (snd (run L cs sched fs) (file L n)) (fs (file L n))) as [E|N]; [left; exact E|right].
  assert (Hj : is_json L c = true -> as_json c <> None).
  { intros Ej Et. apply N. apply only_named. intros c' Hin Hn'. apply In_nth_error in Hin. destruct Hin as (j & Hj'). assert (j = i) by (eapply Ho; eassumption). subst j. assert (c' = c) by congruence. subst c'. right. split; [apply is_json_spec; exact Ej|exact Et]. }
  destruct (nth_error (fst (run L cs sched fs)) i) as [st|] eqn:Est.
  2:{ exfalso. destruct (@run_ind L cs fs (fun _ => True) I (fun _ _ _ _ _ _ _ _ _ => I) sched) as ((Hl & _) & _). apply nth_error_None in Est. rewrite Hl in Est. apply nth_error_None in Est. congruence. }
  destruct (own_file Hc En Ho Est) as (K & _).
  destruct st as [| |f d w|f pos d w|[| | |e]]; try contradiction.
  - destruct K as (K & _). split.
    + destruct (@run_ind L cs fs (fun _ => True) I (fun _ _ _ _ _ _ _ _ _ => I) sched) as ((_ & G) & _). exact (proj1 (G _ _ _ Hc Est)).
    + exists (target L c n), pos. split; [apply target_bytes; assumption|exact K].
  - destruct (check_only c) eqn:Eo; [contradiction|]. split; [reflexivity|]. destruct K as (K & _). exists (target L c n), (length (target L c n)). rewrite firstn_all. split; [apply target_bytes; assumption|exact K].
  - destruct K as [K|(Eo & k & K)]; [contradiction|]. split; [exact Eo|]. exists (target L c n), k. split; [apply target_bytes; assumption|exact K].
Qed.

(** ** A call on its own *)
Local Notation alone := (alone L).
Fixpoint steps (c : call) (moves : list nat) (s : state * files) : state * files :=
  match moves with [] => s | k :: m => steps c m (step L c (Some k) (fst s) (snd s)) end.
Lemma run_steps c moves : forall st fs, fold_left (fun s m => system_step L [c] m s) (map (fun k => (0, Some k)) moves) ([st], fs) = ([fst (steps c moves (st, fs))], snd (steps c moves (st, fs))).
Proof.
  induction moves as [|k m IH]; intros st fs; [reflexivity|]. cbn [map fold_left steps fst snd]. unfold system_step at 2. cbn [fst snd nth_error update].
  destruct (step L c (Some k) st fs) as (st', fs') eqn:E. rewrite IH. reflexivity.
Qed.
Lemma alone_steps c moves fs : alone c moves fs = (Some (fst (steps c moves (Begin, fs))), snd (steps c moves (Begin, fs))).
Proof. unfold alone, run. cbn [map]. rewrite run_steps. reflexivity. Qed.
Lemma steps_ended c moves o fs : steps c moves (Ended o, fs) = (Ended o, fs).
Proof. induction moves as [|k m IH]; [reflexivity|exact IH]. Qed.
Lemma steps_writing c moves : forall f pos d w fs, length d < length moves -> exists fs', steps c moves (Writing f pos d w, fs) = (Ended (if w then RetNone else Raise OtherErr), fs').
Proof.
  induction moves as [|k m IH]; intros f pos d w fs H; [simpl in H; lia|]. cbn [steps fst snd step]. destruct d as [|a d].
  - exists fs. apply steps_ended.
  - apply IH. rewrite skipn_length. cbn [length] in *. lia.
Qed.
Lemma alone_ends c moves fs n : name c = Some n -> accepted L c fs -> check_only c = false -> (json_wanted L c -> as_json c <> None) ->
  length (target L c n) + 4 <= length moves ->
  fst (alone c moves fs) = Some (Ended (if is_json L c || snd (pickled c) then RetNone else Raise OtherErr)).
Proof.
  intros En Ha Eo Hj Hl. rewrite alone_steps. cbn [fst]. f_equal. apply check_spec in Ha.
  destruct moves as [|k1 [|k2 [|k3 m]]]; [simpl in Hl; lia..|]. cbn [steps fst snd step]. rewrite Ha, Eo. cbn [fst snd]. rewrite En.
  destruct (is_json L c) eqn:Ej.
  - destruct (as_json c) as [t|] eqn:Et; [|exfalso; apply (Hj (proj1 (is_json_spec L c) Ej)); reflexivity]. cbn [fst snd].
    rewrite (json_target n Ej Et) in Hl. destruct (@steps_writing c m (file L n) 0 (apply_codec c (codec_of L c n) (encoded c t)) true (set_file fs (file L n) [])) as (fs' & E); [cbn [length] in Hl; lia|]. rewrite E. reflexivity.
  - cbn [fst snd]. unfold target in Hl. rewrite Ej in Hl. destruct (@steps_writing c m (file L n) 0 (apply_codec c (codec_of L c n) (fst (pickled c))) (snd (pickled c)) (set_file fs (file L n) [])) as (fs' & E); [cbn [length] in Hl; lia|]. rewrite E. destruct (snd (pickled c)); reflexivity.
Qed.
Lemma alone_no_name c k1 k2 m fs : name c = None -> accepted L c fs -> check_only c = false ->
  alone c (k1 :: k2 :: m) fs = (Some (Ended (if is_json L c then match as_json c with Some t => RetText t | None => Raise OtherErr end else RetPair)), fs).
Proof.
  intros En Ha Eo. rewrite alone_steps. apply check_spec in Ha. cbn [steps fst snd step]. rewrite Ha, Eo. cbn [fst snd]. rewrite En.
  destruct (is_json L c); [destruct (as_json c)|]; cbn [fst snd]; rewrite steps_ended; reflexivity.
Qed.
Lemma alone_check c k m fs e : check L c fs = Some e -> alone c (k :: m) fs = (Some (Ended (Raise e)), fs).
Proof. intros H. rewrite alone_steps. cbn [steps fst snd step]. rewrite H. rewrite steps_ended. reflexivity. Qed.
Lemma alone_check_only c k m fs : check L c fs = None -> check_only c = true -> alone c (k :: m) fs = (Some (Ended RetNone), fs).
Proof. intros H E. rewrite alone_steps. cbn [steps fst snd step]. rewrite H, E. rewrite steps_ended. reflexivity. Qed.
Lemma not_accepted c fs : ~ accepted L c fs -> exists e, check L c fs = Some e /\ e <> OtherErr.
Proof.
  intros H. destruct (check L c fs) as [e|] eqn:E; [|exfalso; apply H, check_spec; exact E]. exists e. split; [reflexivity|]. revert E. unfold check.
  repeat match goal with |- context[if ?b then _ else _] => destruct b end; intros E; injection E as <- || idtac; discriminate.
Qed.
Lemma exists_error c fs n b : accepted L c (fun _ => None) -> name c = Some n -> overwrite c = false -> fs (file L n) = Some b -> check L c fs = Some ExistsErr.
Proof.
  intros Ha En Eo Eb. apply check_spec in Ha. revert Ha. unfold check. rewrite En, Eo, Eb. cbn [negb andb].
  destruct (extra c); [discriminate|]. destruct (negb (match format c with None => true | Some f => one_of (lower L f) [str "raw"; str "json"] end)); [discriminate|].
  destruct (match n with [] => false | _ => negb (valid_path L n) end) ; [discriminate|intros _; reflexivity].
Qed.

(** ** Reading back *)
Section Load.
Variable F : Type.
Variable frepr : F -> text.
Variable fread : text -> F.
Variable gunzip bunzip : bytes -> option bytes.
Variable decode : bytes -> option text.
Local Notation json := (loads fread).

Lemma load_encoded c n t v fuel : codecs_ok c gunzip bunzip -> ascii_ok c decode -> printable t -> (exists s, t = 123%Z :: s) -> json t = Some v -> 2 <= fuel ->
  load_bytes gunzip bunzip decode json fuel (apply_codec c (codec_of L c n) (encoded c t)) = LJson v.
Proof.
  intros Hk Ha Hp (s & Es) Hv Hf. destruct (Ha _ Hp) as (Ee & Ed). rewrite Ee.
  assert (P : forall k, 1 <= k -> load_bytes gunzip bunzip decode json k t = LJson v).
  { intros [|k] H; [lia|]. cbn [load_bytes]. rewrite Ed, Hv. rewrite Es. destruct s; reflexivity. }
  destruct fuel as [|fuel]; [lia|]. destruct (Hk t) as (G1 & G2 & B1 & B2). destruct (codec_of L c n); cbn [apply_codec]; [apply P; lia| |]; cbn [load_bytes].
  - rewrite G1, G2. apply P. lia.
  - rewrite B1, B2. apply P. lia.
Qed.

Lemma reload (HF : float_ok frepr fread) cs sched fs i c n net res fuel : nth_error cs i = Some c -> name c = Some n -> valid_path L n = true -> check_only c = false -> json_wanted L c ->
  as_json c = Some (json_output frepr net res) -> plain_network net -> Forall (@plain_results F) res ->
  (forall j c', nth_error cs j = Some c' -> names_file L c' (file L n) -> j = i) ->
  codecs_ok c gunzip bunzip -> ascii_ok c decode -> 2 <= fuel ->
  nth_error (fst (run L cs sched fs)) i = Some (Ended RetNone) ->
  exists v, load_file gunzip bunzip decode json L fuel n (snd (run L cs sched fs)) = LJson v /\ shows_output frepr net res v.
Proof.
  intros Hc En Hv Eo Hj Et Hn Hr Ho Hk Ha Hf Hs. destruct (complete Hc En Eo Ho Hs) as (E & _ & _). apply is_json_spec in Hj. rewrite (json_target n Hj Et) in E.
  exists (output_value frepr net res). split; [|apply shows_output_value]. unfold load_file. rewrite Hv, E. apply load_encoded; try assumption.
  - apply (json_output_printable HF); [apply (norm_plain frepr (plain_net HF Hn))|]. eapply Forall_impl; [|exact Hr]. intros r Hr'. apply (norm_plain frepr (plain_res Hr')).
  - rewrite json_output_eq. eexists. reflexivity.
  - apply loads_plain_output; assumption.
Qed.

(** Results that were pickled. *)
Lemma raw_unreadable c n t fs fuel : (forall s, decode (128%Z :: s) = None) -> codecs_ok c gunzip bunzip -> fst (pickled c) = 128%Z :: t -> ~ json_wanted L c ->
  fs (file L n) = Some (target L c n) -> load_file gunzip bunzip decode json L fuel n fs = LRaise.
Proof.
  intros Hd Hk Ep Hj E. unfold load_file. destruct (valid_path L n); [|reflexivity]. rewrite E. unfold target.
  assert (Ej : is_json L c = false) by (destruct (is_json L c) eqn:Ej; [exfalso; apply Hj, is_json_spec; exact Ej|reflexivity]). rewrite Ej, Ep.
  assert (P : forall k, load_bytes gunzip bunzip decode json k (128%Z :: t) = LRaise).
  { intros [|k]; [reflexivity|]. cbn [load_bytes]. rewrite Hd. destruct t; reflexivity. }
  destruct (Hk (128%Z :: t)) as (G1 & G2 & B1 & B2). destruct (codec_of L c n); cbn [apply_codec]; [apply P| |]; (destruct fuel as [|fuel]; [reflexivity|]; cbn [load_bytes]).
  - rewrite G1, G2. apply P.
  - rewrite B1, B2. apply P.
Qed.
End Load.
End Dump.
