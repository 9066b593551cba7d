(** C71: an optimizer is made once and called many times; its results are handed out or
    written to a file. *)
From Coq Require Import String.
From Verif Require Import M_Base M_Cost M_Opt M_InfMem M_FinWidth M_Random M_App M_Parallel M_Tensor M_TnApp M_LoadTn
  M_Json M_JsonTn M_Dump S_Dump M_Seed P_Dump M_Life S_Life P_Life Props_Dump Props_LoadTn Props_App Props_FinWidth Props_Random Props_Tensor Props_Seed.
Set Implicit Arguments.
Unset Strict Implicit.

(** Optimizer(...) succeeds exactly for method 'sa' and options for the output that are as
    documented: an output file that may not be written is reported before any work. The
    generator starts with the seed. *)
Theorem C71_construction : forall (P K : Type) (py_seed : nat -> P) (L : lib) (W : writers (answer K)) u fs,
  ((exists o, construct py_seed L W u fs = Some o) <-> u_method u = str "sa" /\ output_ok L u fs) /\
  (forall o, construct py_seed L W u fs = Some o -> o = new_optimizer py_seed (u_seed u)).
Proof. intros. split; [apply construct_spec|intros o H; exact (construct_is H)]. Qed.
Print Assumptions C71_construction.

(** max_width decides: without it, or with infinity, the results are those of the
    optimizer with infinite memory; with a finite number, those of the optimizer with that
    maximal width; call after call. *)
Theorem C71_infinite_memory : forall (P R B K : Type) (g : prng P) next32 py_seed (cpp_seed : nat -> R) (A : alg K) eqb (L : lib) (W : writers (answer K)) (joblib : bool) u (evs : list (event R B K)) o fs k s f,
  lower L (str "auto") = str "auto" -> u_max u = None \/ u_max u = Some PosInf -> known_cost_type L (u_cost_type u) ->
  nth_error (calls g next32 py_seed cpp_seed A eqb L W joblib (in_hand u) evs o fs) k = Some (s, f) -> s <> SBusy ->
  exists r, nth_error (session (fun e o c => im_call g next32 py_seed cpp_seed A eqb (ev_lg e) (ev_rule e) (ev_arr e) (ev_pick e) (ev_sched e) o c)
                         (map (fun e => (e, ev_call e)) evs) o) k = Some r /\
            s = match r with Ok (tn, rs) => SPair (tn, inl rs) | Err _ => SRaise end.
Proof.
  intros P R B K g next32 py_seed cpp_seed A eqb L W joblib u evs o fs k s f Hl Hm Hc Hk Hs. destruct (in_hand_calls Hl Hk Hs) as (r & Hr & ->).
  rewrite (@works_im P R B K g next32 py_seed cpp_seed A eqb L joblib (in_hand u) evs) in Hr; [|destruct Hm as [Hm|Hm]; [left|right; left]; exact Hm|exact Hc|reflexivity].
  clear Hk Hs. rewrite nth_error_map in Hr. destruct (nth_error _ k) as [r0|]; [|discriminate]. exists r0. split; [reflexivity|]. injection Hr as <-. destruct r0 as [(tn & rs)|x]; reflexivity.
Qed.
Print Assumptions C71_infinite_memory.

Theorem C71_finite_width : forall (P R B K : Type) (g : prng P) next32 py_seed (cpp_seed : nat -> R) (A : alg K) eqb (L : lib) (W : writers (answer K)) (joblib : bool) u w (evs : list (event R B K)) o fs k s f,
  lower L (str "auto") = str "auto" -> u_max u = Some (Fin w) -> known_cost_type L (u_cost_type u) -> known_width_type L (u_width_type u) ->
  nth_error (calls g next32 py_seed cpp_seed A eqb L W joblib (in_hand u) evs o fs) k = Some (s, f) -> s <> SBusy ->
  exists r, nth_error (session (fun e o c => fw_call g next32 py_seed cpp_seed A eqb (ev_lg e) w (ev_fr0 e) (ev_frule e) (ev_update_slices e) (ev_arr e) (ev_pick e) (ev_sched e) o c)
                         (map (fun e => (e, ev_call e)) evs) o) k = Some r /\
            s = match r with Ok (tn, rs) => SPair (tn, inr rs) | Err _ => SRaise end.
Proof.
  intros P R B K g next32 py_seed cpp_seed A eqb L W joblib u w evs o fs k s f Hl Hm Hc Hw Hk Hs. destruct (in_hand_calls Hl Hk Hs) as (r & Hr & ->).
  rewrite (@works_fw P R B K g next32 py_seed cpp_seed A eqb L joblib (in_hand u) w evs Hm Hc Hw eq_refl) in Hr.
  clear Hk Hs. rewrite nth_error_map in Hr. destruct (nth_error _ k) as [r0|]; [|discriminate]. exists r0. split; [reflexivity|]. injection Hr as <-. destruct r0 as [(tn & rs)|x]; reflexivity.
Qed.
Print Assumptions C71_finite_width.

(** The options for the output and n_jobs do not change the results. If the file may be
    overwritten, or there is none, every call delivers what the optimizer that hands out
    its results gives at this call, and raises where that one raises; whatever others do
    to the files between the calls. *)
Theorem C71_every_call_delivers : forall (P R B K : Type) (g : prng P) next32 py_seed (cpp_seed : nat -> R) (A : alg K) eqb (L : lib) (W : writers (answer K)) (joblib : bool) u fs0 (evs : list (event R B K)) o fs fs' k s f s0 f0,
  lower L (str "auto") = str "auto" -> output_ok L u fs0 -> can_write L W u -> (u_jobs u <> 0)%Z ->
  u_overwrite u = true \/ u_name u = None ->
  nth_error (calls g next32 py_seed cpp_seed A eqb L W joblib u evs o fs) k = Some (s, f) -> s <> SBusy ->
  nth_error (calls g next32 py_seed cpp_seed A eqb L W joblib (in_hand u) evs o fs') k = Some (s0, f0) -> s0 <> SBusy ->
  s0 = SRaise /\ s = SRaise \/ exists y, s0 = SPair y /\ has_result L W u y s f.
Proof.
  intros P R B K g next32 py_seed cpp_seed A eqb L W joblib u fs0 evs o fs fs' k s f s0 f0 Hl H0 Hw Hj Ho Hk Hs Hk0 Hs0.
  destruct (in_hand_calls Hl Hk0 Hs0) as (r & Hr & ->). destruct (every_call Ho Hw (ex_intro _ fs0 H0) Hk Hs) as (r' & Hr' & HR).
  rewrite (works_in_hand) in Hr' by (unfold jobs_ok; apply orb_true_intro; left; apply negb_true_iff, Z.eqb_neq; exact Hj).
  assert (r' = r) by congruence. subst r'. destruct r as [y|x]; [right; exists y; split; [reflexivity|exact HR]|left; split; [reflexivity|exact HR]].
Qed.
Print Assumptions C71_every_call_delivers.

(** If the file may not be overwritten and nobody else touches it, an optimizer that could
    be made delivers the first result that there is. *)
Theorem C71_first_result_is_kept : forall (P R B K : Type) (g : prng P) next32 py_seed (cpp_seed : nat -> R) (A : alg K) eqb (L : lib) (W : writers (answer K)) (joblib : bool) u n (evs : list (event R B K)) o fs fs' k s f s0 f0,
  lower L (str "auto") = str "auto" -> construct py_seed L W u fs = Some o -> can_write L W u -> (u_jobs u <> 0)%Z ->
  u_overwrite u = false -> u_name u = Some n -> undisturbed L u evs ->
  Forall (fun x => fst x <> SBusy) (calls g next32 py_seed cpp_seed A eqb L W joblib u evs o fs) -> Forall (fun x => fst x <> SBusy) (calls g next32 py_seed cpp_seed A eqb L W joblib (in_hand u) evs o fs') ->
  nth_error (calls g next32 py_seed cpp_seed A eqb L W joblib u evs o fs) k = Some (s, f) ->
  nth_error (calls g next32 py_seed cpp_seed A eqb L W joblib (in_hand u) evs o fs') k = Some (s0, f0) ->
  (s0 = SRaise -> s = SRaise) /\
  (forall y, s0 = SPair y ->
     ((forall j x, j < k -> nth_error (calls g next32 py_seed cpp_seed A eqb L W joblib (in_hand u) evs o fs') j = Some x -> fst x = SRaise) -> has_result L W u y s f) /\
     (forall j y' f1 s2 f2, j < k -> nth_error (calls g next32 py_seed cpp_seed A eqb L W joblib (in_hand u) evs o fs') j = Some (SPair y', f1) ->
        nth_error (calls g next32 py_seed cpp_seed A eqb L W joblib u evs o fs) j = Some (s2, f2) -> f (file L n) = f2 (file L n))).
Proof.
  intros P R B K g next32 py_seed cpp_seed A eqb L W joblib u n evs o fs fs' k s f s0 f0 Hl Hcon Hw Hj Eo En Hu HF HF0 Hk Hk0.
  assert (Hok : output_ok L u fs) by (apply (proj1 (construct_spec py_seed L W u fs)); exists o; exact Hcon).
  assert (Hab : fs (file L n) = None). { destruct Hok as (_ & _ & H4 & _). destruct (H4 n En) as [H|H]; [cbn in H; congruence|exact H]. }
  assert (Hs : s <> SBusy) by (rewrite Forall_forall in HF; exact (HF _ (nth_error_In _ _ Hk))).
  assert (HJ : jobs_ok joblib u = true) by (unfold jobs_ok; apply orb_true_intro; left; apply negb_true_iff, Z.eqb_neq; exact Hj).
  assert (Hin : forall j x, nth_error (calls g next32 py_seed cpp_seed A eqb L W joblib (in_hand u) evs o fs') j = Some x -> exists r, nth_error (works g next32 py_seed cpp_seed A eqb L joblib u evs o) j = Some r /\ fst x = handed r).
  { intros j (sj & fj) Hj'. destruct (in_hand_calls Hl Hj') as (r & Hr & E); [rewrite Forall_forall in HF0; exact (HF0 _ (nth_error_In _ _ Hj'))|].
    exists r. split; [rewrite (works_in_hand g next32 py_seed cpp_seed A eqb L evs HJ); exact Hr|exact E]. }
  destruct (Hin _ _ Hk0) as (r & Hr & E0). cbn [fst] in E0.
  destruct (first_call En Eo Hw (ex_intro _ fs Hok) Hu Hab HF Hk) as (r' & Hr' & HR). assert (r' = r) by congruence. subst r'.
  split; [intros ->; destruct r as [y|x]; [discriminate|exact HR]|]. intros y ->. destruct r as [y0|x]; [|discriminate]. injection E0 as <-. destruct HR as (R1 & R2). split.
  - intros H. apply R1. intros j r' Hjk Hr''. 
    assert (HL : exists x, nth_error (calls g next32 py_seed cpp_seed A eqb L W joblib (in_hand u) evs o fs') j = Some x).
    { destruct (nth_error (calls g next32 py_seed cpp_seed A eqb L W joblib (in_hand u) evs o fs') j) as [x|] eqn:E; [exists x; reflexivity|]. apply nth_error_None in E.
      assert (k < length (calls g next32 py_seed cpp_seed A eqb L W joblib (in_hand u) evs o fs')) by (apply nth_error_Some; congruence). lia. }
    destruct HL as (x & Hx). pose proof (H j x Hjk Hx) as Hxr. destruct (Hin _ _ Hx) as (r1 & Hr1 & E1). assert (r' = r1) by congruence. subst r1.
    destruct r' as [y1|e1]; [rewrite Hxr in E1; discriminate|exists e1; reflexivity].
  - intros j y' f1 s2 f2 Hjk Hx H2. destruct (Hin _ _ Hx) as (r1 & Hr1 & E1). destruct r1 as [y1|e1]; [|discriminate].
    exact (proj2 (R2 j y1 s2 f2 Hjk Hr1 H2)).
Qed.
Print Assumptions C71_first_result_is_kept.

(** A type that is not known, a negative maximal width and n_jobs=0 make every call raise;
    no file is touched. *)
Theorem C71_refused_options : forall (P R B K : Type) (g : prng P) next32 py_seed (cpp_seed : nat -> R) (A : alg K) eqb (L : lib) (W : writers (answer K)) (joblib : bool) u (evs : list (event R B K)) o fs s f,
  refused L joblib u -> (forall e fs, In e evs -> ev_others e fs = fs) -> In (s, f) (calls g next32 py_seed cpp_seed A eqb L W joblib u evs o fs) -> s = SRaise /\ f = fs.
Proof. intros P R B K g next32 py_seed cpp_seed A eqb L W joblib u evs o fs s f H Hu Hi. exact (refused_calls H Hu Hi). Qed.
Print Assumptions C71_refused_options.

(** The command line writes JSON if no format is asked for; it never hands out objects. *)
Theorem C71_command_line : forall (P R B K : Type) (g : prng P) next32 py_seed (cpp_seed : nat -> R) (A : alg K) eqb (L : lib) (W : writers (answer K)) (joblib : bool) u (evs : list (event R B K)) o fs y f,
  lower L (str "json") = str "json" -> u_format u = None ->
  wants_json L (main_options u) /\ in_hand (main_options u) = in_hand u /\ u_name (main_options u) = u_name u /\
  u_overwrite (main_options u) = u_overwrite u /\ u_compression (main_options u) = u_compression u /\ u_jobs (main_options u) = u_jobs u /\
  ~ In (SPair y, f) (calls g next32 py_seed cpp_seed A eqb L W joblib (main_options u) evs o fs).
Proof.
  intros P R B K g next32 py_seed cpp_seed A eqb L W joblib u evs o fs y f Hl Hn. pose proof (main_json Hl Hn) as Hj. split; [exact Hj|].
  unfold main_options. rewrite Hn. repeat (split; [reflexivity|]). replace (mk_options _ _ _ _ _ _ _ _ _ _) with (main_options u) by (unfold main_options; rewrite Hn; reflexivity).
  apply json_no_pair. exact Hj.
Qed.
Print Assumptions C71_command_line.

(** ** Examples *)
Definition x_writers : writers (answer nat) :=
  mk_writers (fun y => Some (match snd y with inl rs => map ir_cost rs | inr rs => map fr_cost rs end)) (fun y => ([128; 4]%Z, true)) x_gz x_bz (fun t => t).
Definition x_event (runs : nat) (betas : list unit) : event nat unit nat :=
  mk_event (call_of runs betas) lg2 id ex_pick (rounds [0; 1; 2] 60) rule1 frule1 fx_fr 1 (fun fs => fs) [0; 0; 0; 0; 0; 0; 0].
Definition x_options (mx : option bound) (fmt : option string) (nm : option string) (over : bool) : options :=
  mk_options (str "sa") mx (-1) (str "float32") (str "float64") (option_map str fmt) (option_map str nm) (str "auto") over 5.
Notation x_calls := (calls ex_g next7 id id nat_alg Nat.eqb x_lib x_writers true).
Definition no_files : files := fun _ => None.
(** A call that fails: n_steps is 0. *)
Definition x_bad : event nat unit nat :=
  mk_event (mkCall (network_of sample_network [9; 10; 11; 12; 13]) true (Some 4%Z) [tt] (Some 0%Z) 1 None) lg2 id ex_pick (rounds [0; 1; 2] 60) rule1 frule1 fx_fr 1 (fun fs => fs) [0; 0; 0; 0; 0; 0; 0].

(** Two calls with a file that may be overwritten, and with one that may not, after one that
    fails; with and without a maximal width. *)
Example C71_applies :
  let evs := [x_bad; x_event 2 []; x_event 3 [tt; tt]] in
  let u := x_options (Some (Fin 2)) (Some "json"%string) (Some "a.b"%string) true in
  let v := x_options None (Some "json"%string) (Some "a.b"%string) false in
  exists o, construct id x_lib x_writers u no_files = Some o /\ construct id x_lib x_writers v no_files = Some o /\
  can_write x_lib x_writers u /\ can_write x_lib x_writers v /\ undisturbed x_lib v evs /\
  output_ok x_lib u no_files /\ known_cost_type x_lib (u_cost_type u) /\ known_width_type x_lib (u_width_type u) /\
  (exists f0 f1 f2 b1 b2, x_calls u evs o no_files = [(SRaise, f0); (SNone, f1); (SNone, f2)] /\ f0 3 = None /\ f1 3 = Some b1 /\ f2 3 = Some b2 /\ b1 <> b2) /\
  (exists f0 f1 f2 b1, x_calls v evs o no_files = [(SRaise, f0); (SNone, f1); (SRaise, f2)] /\ f0 3 = None /\ f1 3 = Some b1 /\ f2 3 = Some b1) /\
  (exists f0 f1 f2 tn1 tn2 a b c d e, x_calls (in_hand u) evs o no_files = [(SRaise, f0); (SPair (tn1, inr [a; b]), f1); (SPair (tn2, inr [c; d; e]), f2)]) /\
  (exists f0 f1 f2 tn1 tn2 a b c d e, x_calls (in_hand v) evs o no_files = [(SRaise, f0); (SPair (tn1, inl [a; b]), f1); (SPair (tn2, inl [c; d; e]), f2)]).
Proof.
  cbv zeta. eexists. split; [vm_compute; reflexivity|]. split; [vm_compute; reflexivity|].
  assert (C : forall u, u_format u = Some (str "json") -> can_write x_lib x_writers u).
  { intros u E y. split; [intros _; discriminate|intros H; exfalso; apply H; exists (str "json"); split; [exact E|reflexivity]]. }
  split; [apply C; reflexivity|]. split; [apply C; reflexivity|].
  split; [intros e n fs [<-|[<-|[<-|[]]]] _; reflexivity|].
  split; [apply (@output_spec nat x_lib x_writers _ true None), check_spec; vm_compute; reflexivity|]. split; [exists "float64"%string; split; [right; left; reflexivity|reflexivity]|].
  split; [exists "float32"%string; split; [left; reflexivity|reflexivity]|].
  split. { do 5 eexists. split; [vm_compute; reflexivity|]. split; [reflexivity|]. split; [vm_compute; reflexivity|]. split; [vm_compute; reflexivity|]. discriminate. }
  split. { do 4 eexists. split; [vm_compute; reflexivity|]. split; [reflexivity|]. split; vm_compute; reflexivity. }
  split; do 10 eexists; vm_compute; reflexivity.
Qed.

(** ** What does not hold *)
(** Without overwrite, the second call works and then loses its results: they are neither
    returned nor written. *)
Theorem C71_later_results_refuted : exists (u : options) (evs : list (event nat unit nat)) o f1 f2 f3 f4 y1 y2,
  construct id x_lib x_writers u no_files = Some o /\
  x_calls (in_hand u) evs o no_files = [(SPair y1, f1); (SPair y2, f2)] /\ y1 <> y2 /\
  x_calls u evs o no_files = [(SNone, f3); (SRaise, f4)] /\ f4 3 = f3 3.
Proof.
  exists (x_options None (Some "json"%string) (Some "a.b"%string) false), [x_event 2 []; x_event 3 [tt; tt]]. do 7 eexists.
  split; [vm_compute; reflexivity|]. split; [vm_compute; reflexivity|]. split; [discriminate|]. split; [vm_compute; reflexivity|]. vm_compute. reflexivity.
Qed.
Print Assumptions C71_later_results_refuted.

(** max_width=nan is taken for no limit. *)
Theorem C71_nan_refuted : exists (u : options) (e : event nat unit nat) o f tn r,
  u_max u = Some NaN /\ construct id x_lib x_writers u no_files = Some o /\
  x_calls u [e] o no_files = [(SPair (tn, inl r), f)] /\ r <> [].
Proof.
  exists (x_options (Some NaN) None None false), (x_event 2 []). do 4 eexists. split; [reflexivity|]. split; [vm_compute; reflexivity|]. split; [vm_compute; reflexivity|discriminate].
Qed.
Print Assumptions C71_nan_refuted.

(** The constructor does not check the other options: every call of this optimizer fails. *)
Theorem C71_checked_at_construction_refuted : exists (us : list options), length us = 4 /\
  forall u, In u us -> refused x_lib true u /\ exists o, construct id x_lib x_writers u no_files = Some o /\
  forall (evs : list (event nat unit nat)) s f, (forall e fs, In e evs -> ev_others e fs = fs) -> In (s, f) (x_calls u evs o no_files) -> s = SRaise.
Proof.
  exists [x_options (Some (Fin (-1))) None None false; x_options (Some NegInf) None None false;
          mk_options (str "sa") None (-1) (str "float32") (str "float16") None None (str "auto") false 5;
          mk_options (str "sa") None 0 (str "float32") (str "float64") None None (str "auto") false 5].
  split; [reflexivity|]. intros u Hu.
  assert (H : refused x_lib true u).
  { destruct Hu as [<-|[<-|[<-|[<-|[]]]]].
    - right; left. exists (-1)%Z. split; [reflexivity|lia].
    - right; right; left. reflexivity.
    - left. intros (x & Hx & E). cbn in Hx. destruct Hx as [<-|[<-|[<-|[<-|[]]]]]; discriminate.
    - do 4 right. split; reflexivity. }
  split; [exact H|]. destruct Hu as [<-|[<-|[<-|[<-|[]]]]]; eexists; (split; [vm_compute; reflexivity|]); intros evs s f Ho Hi; exact (proj1 (refused_calls H Ho Hi)).
Qed.
Print Assumptions C71_checked_at_construction_refuted.
