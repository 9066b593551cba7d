From Coq Require Import String.
From Verif Require Import M_Base M_Cost M_Opt M_InfMem M_FinWidth M_Random M_App M_Parallel M_Tensor M_TnApp M_LoadTn
  M_Json M_JsonTn M_Dump S_Dump M_Seed P_Json P_JsonTn P_Dump P_DumpMain M_Life S_Life.
Set Implicit Arguments.
Unset Strict Implicit.

Section Life.
Variables (P R B K : Type) (g : prng P) (next32 : P -> nat * P) (py_seed : nat -> P) (cpp_seed : nat -> R)
  (A : alg K) (eqb : K -> K -> bool) (L : lib).
Notation answer := (answer K).
Variable W : writers answer.
Variable joblib : bool.
Local Notation construct := (construct py_seed L W).
Local Notation work := (work g next32 py_seed cpp_seed A eqb L joblib).
Local Notation optimize := (optimize g next32 py_seed cpp_seed A eqb L W joblib).
Local Notation calls := (calls g next32 py_seed cpp_seed A eqb L W joblib).
Local Notation event := (event R B K).

Lemma dump_alone c moves fs : dump L c moves fs = alone L c moves fs.
Proof. reflexivity. Qed.

Lemma output_spec u only y fs : output_ok L u fs <-> accepted L (dump_call W u only y) fs.
Proof.
  unfold output_ok, accepted, wants_json, known. unfold dump_call. cbn [extra format name compression overwrite]. split.
  - intros (H1 & H2 & H3 & x & Hx & E). split; [reflexivity|]. split; [|split; [exact H2|split; [exact H3|]]].
    + destruct H1 as [H|[(f & H & E')|(f & H & E')]]; [left; exact H|right; exists f; auto|right; exists f; auto].
    + destruct Hx as [<-|[<-|[<-|[<-|[]]]]]; auto.
  - intros (_ & H1 & H2 & H3 & H). split; [|split; [exact H2|split; [exact H3|]]].
    + destruct H1 as [H1|(f & H1 & [E|E])]; [left; exact H1|right; right; exists f; auto|right; left; exists f; auto].
    + destruct H as [H|[H|[H|H]]]; eexists; (split; [|exact H]); simpl; auto.
Qed.

Lemma construct_spec u fs : (exists o, construct u fs = Some o) <-> u_method u = str "sa" /\ output_ok L u fs.
Proof.
  unfold construct, M_Life.construct, has_method. rewrite dump_alone. split.
  - intros (o & H). destruct (teqb (u_method u) (str "sa")) eqn:E; [|discriminate]. apply teqb_eq in E. split; [exact E|].
    apply (output_spec u true None fs), check_spec. destruct (check L (dump_call W u true None) fs) as [e|] eqn:Ec; [|reflexivity].
    rewrite (@alone_check L _ 0 [] fs e Ec) in H. cbn in H. discriminate.
  - intros (E & H). apply (output_spec u true None fs), check_spec in H. rewrite E. replace (teqb (str "sa") (str "sa")) with true by reflexivity.
    rewrite (@alone_check_only L (dump_call W u true None) 0 [] fs H eq_refl). eexists. reflexivity.
Qed.
Lemma construct_is u fs o : construct u fs = Some o -> o = new_optimizer py_seed (u_seed u).
Proof.
  unfold construct, M_Life.construct. destruct (has_method _); [|discriminate].
  destruct (fst _) as [[| | | |[| | |]]|]; intros H; try discriminate. injection H as <-. reflexivity.
Qed.

(** The work does not depend on the options of the output. *)
Lemma work_in_hand u (e : event) o : jobs_ok joblib u = true -> work u e o = work (in_hand u) e o.
Proof. intros H. unfold work, M_Life.work. rewrite H. reflexivity. Qed.

Lemma in_hand_accepted u fs y : lower L (str "auto") = str "auto" -> accepted L (dump_call W (in_hand u) false (Some y)) fs.
Proof.
  intros H. unfold accepted, dump_call, in_hand. cbn. split; [reflexivity|]. split; [left; reflexivity|]. split; [discriminate|]. split; [discriminate|]. left; exact H.
Qed.
Lemma in_hand_dump u fs y moves : lower L (str "auto") = str "auto" ->
  see y (fst (dump L (dump_call W (in_hand u) false (Some y)) moves fs)) = SBusy \/ see y (fst (dump L (dump_call W (in_hand u) false (Some y)) moves fs)) = SPair y.
Proof.
  intros H. destruct moves as [|k1 [|k2 m]].
  - left. reflexivity.
  - left. rewrite dump_alone, alone_steps. cbn [steps fst snd step]. rewrite (proj2 (@check_spec L _ _) (in_hand_accepted u fs y H)). reflexivity.
  - right. rewrite dump_alone. rewrite (@alone_no_name L (dump_call W (in_hand u) false (Some y)) k1 k2 m fs eq_refl (in_hand_accepted u fs y H) eq_refl). reflexivity.
Qed.

(** One call. *)
Lemma steps_app c m1 : forall m2 s, steps L c (m1 ++ m2) s = steps L c m2 (steps L c m1 s).
Proof. induction m1 as [|k m IH]; intros m2 s; [reflexivity|]. cbn [app steps]. apply IH. Qed.
Lemma json_same u only y : json_wanted L (dump_call W u only y) <-> wants_json L u.
Proof. reflexivity. Qed.

Lemma alone_complete c n moves fs : name c = Some n -> check_only c = false -> fst (alone L c moves fs) = Some (Ended RetNone) ->
  exists b, file_bytes L c b /\ snd (alone L c moves fs) (file L n) = Some b.
Proof.
  intros En Eo H. unfold alone in *. cbn [fst snd] in *.
  assert (Ho : forall j c', nth_error [c] j = Some c' -> names_file L c' (file L n) -> j = 0).
  { intros j c' Hj _. destruct j as [|[|j]]; [reflexivity| |]; discriminate. }
  destruct (@complete L [c] (map (fun k => (0, Some k)) moves) fs 0 c n eq_refl En Eo Ho H) as (A1 & A2 & _).
  eexists; split; [exact A2|exact A1].
Qed.
Lemma alone_raise c n moves fs : name c = Some n -> accepted L c fs -> check_only c = false -> (json_wanted L c -> as_json c <> None) ->
  (~ json_wanted L c -> snd (pickled c) = true) ->
  forall o, fst (alone L c moves fs) = Some (Ended o) -> o = RetNone.
Proof.
  intros En Ha Eo Hj Hp o E.
  pose (more := repeat 0 (length (target L c n) + 4)).
  assert (E2 : fst (alone L c (moves ++ more) fs) = Some (Ended o)).
  { rewrite alone_steps in *. cbn [fst] in *. injection E as E. rewrite steps_app. destruct (steps L c moves (M_Dump.Begin, fs)) as (st & fs'). cbn [fst] in E. subst st. rewrite steps_ended. reflexivity. }
  rewrite (@alone_ends L c (moves ++ more) fs n En Ha Eo Hj) in E2; [|unfold more; rewrite app_length, repeat_length; lia].
  injection E2 as <-. destruct (is_json L c) eqn:Ej; [reflexivity|]. rewrite Hp; [reflexivity|]. intros H. apply is_json_spec in H. congruence.
Qed.

(** ** Sessions *)
Fixpoint works (u : options) (evs : list event) (o : optimizer P) : list (res answer) :=
  match evs with [] => [] | e :: evs' => fst (work u e o) :: works u evs' (snd (work u e o)) end.

Lemma calls_cons u (e : event) evs o fs : calls u (e :: evs) o fs =
  let r := optimize u e o fs in (fst (fst r), snd r) :: calls u evs (snd (work u e o)) (snd r).
Proof.
  cbn [M_Life.calls]. unfold M_Life.optimize. destruct (work u e o) as ([y|x] & o'); cbn [fst snd]; reflexivity.
Qed.
Lemma optimize_seen u (e : event) o fs : fst (fst (optimize u e o fs)) =
  match fst (work u e o) with Err _ => SRaise | Ok y => see y (fst (dump L (dump_call W u false (Some y)) (ev_moves e) (ev_others e fs))) end.
Proof. unfold M_Life.optimize. destruct (work u e o) as ([y|x] & o'); reflexivity. Qed.
Lemma optimize_files u (e : event) o fs : snd (optimize u e o fs) =
  match fst (work u e o) with Err _ => ev_others e fs | Ok y => snd (dump L (dump_call W u false (Some y)) (ev_moves e) (ev_others e fs)) end.
Proof. unfold M_Life.optimize. destruct (work u e o) as ([y|x] & o'); reflexivity. Qed.

Lemma works_in_hand u (evs : list event) : jobs_ok joblib u = true -> forall o, works u evs o = works (in_hand u) evs o.
Proof. intros H. induction evs as [|e evs IH]; intros o; [reflexivity|]. cbn [works]. rewrite (work_in_hand e o H). f_equal. apply IH. Qed.

Lemma in_hand_calls u (evs : list event) : lower L (str "auto") = str "auto" -> forall o fs k s f,
  nth_error (calls (in_hand u) evs o fs) k = Some (s, f) -> s <> SBusy ->
  exists r, nth_error (works (in_hand u) evs o) k = Some r /\ s = handed r.
Proof.
  intros Hl. induction evs as [|e evs IH]; intros o fs k s f Hk Hs; [destruct k; discriminate|].
  rewrite calls_cons in Hk. cbv zeta in Hk. cbn [works]. destruct k as [|k]; cbn [nth_error] in *; [|exact (IH _ _ _ _ _ Hk Hs)].
  injection Hk as E _. eexists. split; [reflexivity|]. rewrite optimize_seen in E. destruct (fst (work (in_hand u) e o)) as [y|x]; [|subst s; reflexivity].
  destruct (@in_hand_dump u (ev_others e fs) y (ev_moves e) Hl) as [H|H]; rewrite H in E; [exfalso; apply Hs; symmetry; exact E|subst s; reflexivity].
Qed.

(** A call whose work succeeds and whose output may be written. *)
Lemma dump_delivers u y moves fs : accepted L (dump_call W u false (Some y)) fs -> can_write L W u ->
  see y (fst (dump L (dump_call W u false (Some y)) moves fs)) <> SBusy ->
  has_result L W u y (see y (fst (dump L (dump_call W u false (Some y)) moves fs))) (snd (dump L (dump_call W u false (Some y)) moves fs)).
Proof.
  intros Ha Hw Hb. rewrite dump_alone in *. set (c := dump_call W u false (Some y)) in *. unfold has_result. destruct (u_name u) as [n|] eqn:En.
  - destruct (fst (alone L c moves fs)) as [[| | | |o]|] eqn:E; try (exfalso; apply Hb; reflexivity).
    assert (Ho : o = RetNone).
    { apply (@alone_raise c n moves fs En Ha eq_refl) with (3 := E); [intros H; exact (proj1 (Hw y) H)|intros H; exact (proj2 (Hw y) H)]. }
    subst o. split; [reflexivity|]. exact (@alone_complete c n moves fs En eq_refl E).
  - assert (Hm : exists k1 k2 m, moves = k1 :: k2 :: m).
    { destruct moves as [|k1 [|k2 m]]; [exfalso; apply Hb; reflexivity| |do 3 eexists; reflexivity].
      exfalso. apply Hb. rewrite alone_steps. cbn [steps fst snd step]. rewrite (proj2 (@check_spec L _ _) Ha). reflexivity. }
    destruct Hm as (k1 & k2 & m & ->). rewrite (@alone_no_name L c k1 k2 m fs En Ha eq_refl). cbn [fst].
    split.
    + intros H. destruct (is_json L c) eqn:Ej; [exfalso; apply H; apply is_json_spec in Ej; exact Ej|reflexivity].
    + intros H. destruct (is_json L c) eqn:Ej; [|exfalso; apply (proj2 (@is_json_spec L c)) in H; congruence].
      change (as_json c) with (to_text W y). pose proof (proj1 (Hw y) H) as Ht. destruct (to_text W y) as [t|]; [exists t; split; reflexivity|exfalso; apply Ht; reflexivity].
Qed.
Lemma accepted_any u y fs only y' fs' : u_overwrite u = true \/ u_name u = None ->
  accepted L (dump_call W u only y) fs -> accepted L (dump_call W u false y') fs'.
Proof.
  intros Ho (A1 & A2 & A3 & A4 & A5). unfold accepted in *. cbn in *. split; [reflexivity|]. split; [exact A2|]. split; [exact A3|]. split; [|exact A5].
  intros n Hn. destruct Ho as [Ho|Ho]; [left; exact Ho|congruence].
Qed.

Lemma every_call u (evs : list event) : (u_overwrite u = true \/ u_name u = None) -> can_write L W u -> (exists fs0, output_ok L u fs0) ->
  forall o fs k s f, nth_error (calls u evs o fs) k = Some (s, f) -> s <> SBusy ->
  exists r, nth_error (works u evs o) k = Some r /\ match r with Err _ => s = SRaise | Ok y => has_result L W u y s f end.
Proof.
  intros Ho Hw (fs0 & H0). induction evs as [|e evs IH]; intros o fs k s f Hk Hs; [destruct k; discriminate|].
  rewrite calls_cons in Hk. cbv zeta in Hk. cbn [works]. destruct k as [|k]; cbn [nth_error] in *; [|exact (IH _ _ _ _ _ Hk Hs)].
  injection Hk as E Ef. eexists. split; [reflexivity|]. rewrite optimize_seen in E. rewrite optimize_files in Ef. destruct (fst (work u e o)) as [y|x]; [|symmetry; exact E].
  rewrite <- E, <- Ef. apply dump_delivers; [exact (@accepted_any u None fs0 true (Some y) (ev_others e fs) Ho (proj1 (output_spec u true None fs0) H0))|exact Hw|rewrite E; exact Hs].
Qed.

(** Without overwrite: a file that is there stays. *)
Lemma dump_exists u n b y moves fs : u_name u = Some n -> u_overwrite u = false -> (exists fs0, output_ok L u fs0) -> fs (file L n) = Some b ->
  see y (fst (dump L (dump_call W u false (Some y)) moves fs)) <> SBusy ->
  see y (fst (dump L (dump_call W u false (Some y)) moves fs)) = SRaise /\ snd (dump L (dump_call W u false (Some y)) moves fs) = fs.
Proof.
  intros En Eo (fs0 & H0) Eb Hb. apply (output_spec u true None fs0) in H0. destruct H0 as (A1 & A2 & A3 & A4 & A5). rewrite dump_alone in *. destruct moves as [|k m]; [exfalso; apply Hb; reflexivity|].
  rewrite (@alone_check L (dump_call W u false (Some y)) k m fs ExistsErr); [split; reflexivity|].
  apply (@exists_error L (dump_call W u false (Some y)) fs n b); [|exact En|exact Eo|exact Eb].
  unfold accepted in *. cbn in *. repeat (split; [assumption|]). split; [intros m' Hm; right; reflexivity|exact A5].
Qed.
Lemma present u (evs : list event) n : u_name u = Some n -> u_overwrite u = false -> (exists fs0, output_ok L u fs0) -> undisturbed L u evs ->
  forall o fs b k s f, fs (file L n) = Some b -> Forall (fun x => fst x <> SBusy) (calls u evs o fs) ->
  nth_error (calls u evs o fs) k = Some (s, f) -> s = SRaise /\ f (file L n) = Some b.
Proof.
  intros En Eo H0 Hu. induction evs as [|e evs IH]; intros o fs b k s f Eb HF Hk; [destruct k; discriminate|].
  rewrite calls_cons in Hk, HF. cbv zeta in Hk, HF. inversion HF as [|x l H1 H2]; subst x l. cbn [fst] in H1.
  assert (E1 : ev_others e fs (file L n) = Some b) by (rewrite (Hu e n fs (or_introl eq_refl) En); exact Eb).
  assert (Hn : fst (fst (optimize u e o fs)) = SRaise /\ snd (optimize u e o fs) (file L n) = Some b).
  { rewrite optimize_seen, optimize_files in *. destruct (fst (work u e o)) as [y|x]; [|split; [reflexivity|exact E1]].
    destruct (@dump_exists u n b y (ev_moves e) (ev_others e fs) En Eo H0 E1 H1) as (X1 & X2). rewrite X2. split; [exact X1|exact E1]. }
  destruct k as [|k]; cbn [nth_error] in *; [injection Hk as <- <-; exact Hn|].
  apply (IH (fun e' n' fs' Hi => Hu e' n' fs' (or_intror Hi)) _ _ b k s f (proj2 Hn) H2 Hk).
Qed.
Lemma first_call u (evs : list event) n : u_name u = Some n -> u_overwrite u = false -> can_write L W u -> (exists fs0, output_ok L u fs0) -> undisturbed L u evs ->
  forall o fs k s f, fs (file L n) = None -> Forall (fun x => fst x <> SBusy) (calls u evs o fs) ->
  nth_error (calls u evs o fs) k = Some (s, f) ->
  exists r, nth_error (works u evs o) k = Some r /\
    match r with
    | Err _ => s = SRaise
    | Ok y =>
        ((forall j r', j < k -> nth_error (works u evs o) j = Some r' -> exists x, r' = Err x) -> has_result L W u y s f) /\
        (forall j y' s' f', j < k -> nth_error (works u evs o) j = Some (Ok y') -> nth_error (calls u evs o fs) j = Some (s', f') -> s = SRaise /\ f (file L n) = f' (file L n))
    end.
Proof.
  intros En Eo Hw H0 Hu. induction evs as [|e evs IH]; intros o fs k s f Eb HF Hk; [destruct k; discriminate|].
  assert (HF' := HF). assert (Hk' := Hk). rewrite calls_cons in Hk, HF. cbv zeta in Hk, HF. inversion HF as [|x l H1 H2]; subst x l. cbn [fst] in H1.
  assert (E1 : ev_others e fs (file L n) = None) by (rewrite (Hu e n fs (or_introl eq_refl) En); exact Eb).
  assert (Hu2 : undisturbed L u evs) by (intros e' n' fs' Hi; exact (Hu e' n' fs' (or_intror Hi))).
  cbn [works]. destruct k as [|k]; cbn [nth_error] in *.
  - injection Hk as E Ef. eexists. split; [reflexivity|]. rewrite optimize_seen in E, H1. rewrite optimize_files in Ef. destruct (fst (work u e o)) as [y|x]; [|symmetry; exact E].
    split; [|intros j y' s' f' Hj; lia]. intros _. rewrite <- E, <- Ef. apply dump_delivers; [|exact Hw|exact H1].
    destruct H0 as (fs0 & H0). apply (output_spec u true None fs0) in H0. destruct H0 as (A1 & A2 & A3 & A4 & A5). unfold accepted in *. cbn in *. repeat (split; [assumption|]). split; [|exact A5].
    intros n' Hn. right. assert (n' = n) by congruence. subst n'. exact E1.
  - destruct (fst (work u e o)) as [y0|x0] eqn:Ew.
    + assert (Hd : has_result L W u y0 (fst (fst (optimize u e o fs))) (snd (optimize u e o fs))).
      { rewrite optimize_seen, optimize_files, Ew in *. apply dump_delivers; [|exact Hw|exact H1].
        destruct H0 as (fs0 & H0). apply (output_spec u true None fs0) in H0. destruct H0 as (A1 & A2 & A3 & A4 & A5). unfold accepted in *. cbn in *. repeat (split; [assumption|]). split; [|exact A5].
        intros n' Hn. right. assert (n' = n) by congruence. subst n'. exact E1. }
      unfold has_result in Hd. rewrite En in Hd. destruct Hd as (_ & b & _ & Hb).
      destruct (@present u evs n En Eo H0 Hu2 _ _ b k s f Hb H2 Hk) as (P1 & P2).
      assert (Hl : exists r, nth_error (works u evs (snd (work u e o))) k = Some r).
      { clear -Hk. revert Hk. generalize (snd (work u e o)), (snd (optimize u e o fs)). revert k. induction evs as [|a l IH]; intros k o' fs'; [destruct k; discriminate|].
        rewrite calls_cons. cbv zeta. cbn [works]. destruct k; cbn [nth_error]; [eauto|apply IH]. }
      destruct Hl as (r & Hr). exists r. split; [exact Hr|]. destruct r as [y|x]; [|exact P1]. split.
      * intros H. destruct (H 0 (Ok y0)) as (x & Hx); [lia|reflexivity|discriminate].
      * intros j y' s' f' Hj Hy' Hc. split; [exact P1|]. rewrite P2. rewrite calls_cons in Hc. cbv zeta in Hc. destruct j as [|j]; cbn [nth_error] in Hc; [injection Hc as <- <-; symmetry; exact Hb|].
        destruct (@present u evs n En Eo H0 Hu2 _ _ b j s' f' Hb H2 Hc) as (_ & Q). symmetry. exact Q.
    + assert (Ea : snd (optimize u e o fs) (file L n) = None) by (rewrite optimize_files, Ew; exact E1).
      destruct (IH Hu2 _ _ k s f Ea H2 Hk) as (r & Hr & HR). exists r. split; [exact Hr|]. destruct r as [y|x]; [|exact HR]. destruct HR as (R1 & R2). split.
      * intros H. apply R1. intros j r' Hj Hr'. apply (H (S j) r'); [lia|exact Hr'].
      * intros j y' s' f' Hj Hy' Hc. destruct j as [|j]; cbn [nth_error] in Hy'; [discriminate|]. rewrite calls_cons in Hc. cbv zeta in Hc. cbn [nth_error] in Hc. apply (R2 j y' s' f'); [lia|exact Hy'|exact Hc].
Qed.

(** ** Which optimizer *)
Lemma one_of_known s l : one_of_types L s l = true <-> known L l s.
Proof.
  unfold one_of_types, known. rewrite existsb_exists. split; intros (x & H1 & H2); exists x; split; try assumption; apply teqb_eq; exact H2.
Qed.
Definition no_limit (m : option bound) : Prop := m = None \/ m = Some PosInf \/ m = Some NaN.
Lemma choose_inf m : no_limit m -> choose m = InfiniteMemory.
Proof. intros [E | [E | E] ]; rewrite E; reflexivity. Qed.

Lemma works_im u (evs : list event) : no_limit (u_max u) -> known_cost_type L (u_cost_type u) -> jobs_ok joblib u = true -> forall o,
  works u evs o = map (tag (@inl (list im_result) (list fw_result))) (session
    (fun e o c => im_call g next32 py_seed cpp_seed A eqb (ev_lg e) (ev_rule e) (ev_arr e) (ev_pick e) (ev_sched e) o c)
    (map (fun e => (e, ev_call e)) evs) o).
Proof.
  intros Hm Hc Hj. assert (Ht : types_ok L u = true).
  { unfold types_ok. rewrite (choose_inf Hm). apply one_of_known in Hc. rewrite Hc. reflexivity. }
  induction evs as [|e evs IH]; intros o; [reflexivity|]. cbn [works map session]. rewrite (IH (snd (work u e o))). unfold M_Life.work. rewrite Ht, Hj, (choose_inf Hm).
  destruct (im_call g next32 py_seed cpp_seed A eqb (ev_lg e) (ev_rule e) (ev_arr e) (ev_pick e) (ev_sched e) o (ev_call e)) as (y & o'). reflexivity.
Qed.
Lemma works_fw u w (evs : list event) : u_max u = Some (Fin w) -> known_cost_type L (u_cost_type u) -> known_width_type L (u_width_type u) -> jobs_ok joblib u = true -> forall o,
  works u evs o = map (tag (@inr (list im_result) (list fw_result))) (session
    (fun e o c => fw_call g next32 py_seed cpp_seed A eqb (ev_lg e) w (ev_fr0 e) (ev_frule e) (ev_update_slices e) (ev_arr e) (ev_pick e) (ev_sched e) o c)
    (map (fun e => (e, ev_call e)) evs) o).
Proof.
  intros Hm Hc Hw Hj. assert (Ht : types_ok L u = true).
  { unfold types_ok. rewrite Hm. cbn [choose]. apply one_of_known in Hc. apply one_of_known in Hw. rewrite Hc, Hw. reflexivity. }
  induction evs as [|e evs IH]; intros o; [reflexivity|]. cbn [works map session]. rewrite (IH (snd (work u e o))). unfold M_Life.work. rewrite Ht, Hj, Hm. cbn [choose].
  destruct (fw_call g next32 py_seed cpp_seed A eqb (ev_lg e) w (ev_fr0 e) (ev_frule e) (ev_update_slices e) (ev_arr e) (ev_pick e) (ev_sched e) o (ev_call e)) as (y & o'). reflexivity.
Qed.

(** Options that the constructor lets through and every call refuses. *)
Local Notation refused := (refused L joblib).
Lemma refused_work u (e : event) o : refused u -> exists x, fst (work u e o) = Err x.
Proof.
  intros H. unfold M_Life.work. destruct (types_ok L u) eqn:Et; [|eexists; reflexivity].
  unfold types_ok in Et. apply andb_prop in Et. destruct Et as (Ec & Ew). destruct H as [H|[(w & Hm & Hw)|[H|[(Hm & Hw)|(Hj & Hl)]]]].
  - exfalso. apply H, one_of_known. exact Ec.
  - rewrite Hm in *. cbn [choose fst] in *.
    assert (E : exists x, fst (fw_call g next32 py_seed cpp_seed A eqb (ev_lg e) w (ev_fr0 e) (ev_frule e) (ev_update_slices e) (ev_arr e) (ev_pick e) (ev_sched e) o (ev_call e)) = Err x).
    { unfold fw_call. destruct (load_tn _ _ _ _ _ _ _ _ _) as [tn|x]; [|eexists; reflexivity]. cbv zeta. destruct (check_steps _) as [k|x]; cbn [bind]; [|eexists; reflexivity].
      assert (E : (w <? 0)%Z = true) by (apply Z.ltb_lt; exact Hw). rewrite E. eexists; reflexivity. }
    destruct E as (x & E). rewrite E. exists x. destruct (jobs_ok joblib u); reflexivity.
  - rewrite H in *. cbn [choose fst]. destruct (jobs_ok joblib u); eexists; reflexivity.
  - exfalso. apply Hw, one_of_known. destruct Hm as [Hm|(w & Hm)]; rewrite Hm in Ew; exact Ew.
  - assert (E : jobs_ok joblib u = false) by (unfold jobs_ok; rewrite Hj, Hl; reflexivity). rewrite E. cbn [fst].
    match goal with |- context[let! _ := ?r in Err Throw] => destruct r as [y|x] end; eexists; reflexivity.
Qed.
Lemma refused_calls u (evs : list event) : refused u -> (forall e fs, In e evs -> ev_others e fs = fs) -> forall o fs s f, In (s, f) (calls u evs o fs) -> s = SRaise /\ f = fs.
Proof.
  intros H. induction evs as [|e evs IH]; intros Hu o fs s f Hi; [destruct Hi|]. rewrite calls_cons in Hi. cbv zeta in Hi.
  destruct (@refused_work u e o H) as (x & Ex).
  assert (Ef : snd (optimize u e o fs) = fs) by (rewrite optimize_files, Ex; apply Hu; left; reflexivity).
  destruct Hi as [Hi|Hi].
  - injection Hi as <- <-. rewrite optimize_seen, Ex. split; [reflexivity|exact Ef].
  - rewrite Ef in Hi. apply (IH (fun e' fs' Hin => Hu e' fs' (or_intror Hin)) _ _ _ _ Hi).
Qed.

(** The command line. *)
Lemma main_json u : lower L (str "json") = str "json" -> u_format u = None -> wants_json L (main_options u).
Proof. intros H E. unfold main_options. rewrite E. exists (str "json"). split; [reflexivity|exact H]. Qed.
Lemma json_no_pair u (evs : list event) : wants_json L u -> forall o fs y f, ~ In (SPair y, f) (calls u evs o fs).
Proof.
  intros Hj. induction evs as [|e evs IH]; intros o fs y f Hi; [destruct Hi|]. rewrite calls_cons in Hi. cbv zeta in Hi. destruct Hi as [Hi|Hi]; [|exact (IH _ _ _ _ Hi)].
  injection Hi as E _. rewrite optimize_seen in E. destruct (fst (work u e o)) as [y'|x]; [|discriminate].
  assert (Hn : forall moves st fs1, st <> Ended RetPair -> fst (steps L (dump_call W u false (Some y')) moves (st, fs1)) <> Ended RetPair).
  { induction moves as [|k m IHm]; intros st fs1 Hs; [exact Hs|]. cbn [steps fst snd].
    destruct (step L (dump_call W u false (Some y')) (Some k) st fs1) as (st' & fs') eqn:Es. apply IHm. intros ->. revert Es.
    destruct st as [| |f0 d w|f0 p d w|oo]; cbn [step].
    - destruct (check _ _ _); [congruence|]. cbn. congruence.
    - rewrite (proj2 (@is_json_spec L (dump_call W u false (Some y'))) Hj). destruct (as_json _); [|congruence]. destruct (name _); congruence.
    - congruence.
    - destruct d; [destruct w; congruence|congruence].
    - congruence. }
  rewrite dump_alone, alone_steps in E. cbn [fst] in E. specialize (Hn (ev_moves e) M_Dump.Begin (ev_others e fs)). 
  destruct (fst (steps L (dump_call W u false (Some y')) (ev_moves e) (M_Dump.Begin, ev_others e fs))) as [| | | |[| | |]]; cbn in E; try discriminate. apply Hn; [discriminate|reflexivity].
Qed.
End Life.
