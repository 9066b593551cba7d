(** The finite-width optimizer with costs of a bounded range: updates, sessions, the best tree. *)
From Coq Require Import List Arith ZArith Lia Bool Permutation.
Import ListNotations.
From Verif Require Import M_Base M_Bitset M_Tree M_CTree M_Cost M_Opt M_InfMem M_FinWidth M_Float M_FinFloat M_Overflow M_OverflowFin
  S_Tree S_Opt S_Float S_FinWidth S_FinFloat S_Overflow S_OverflowFin.
From Verif Require Import P_Base P_Bitset P_Tree P_Shape P_TreeProps P_TreeValid P_Opt P_OptCost P_InfMem P_Canon P_Cost P_InfMemMain P_InfMemFinal
  P_Approx P_FinWidth P_FinWidthOpt P_FinWidthMain P_FinWidthFinal P_FinFloat P_FinFloatRun P_FinFloatWidth P_FinFloatMain P_Overflow P_OverflowMain P_OverflowFin.
Set Implicit Arguments.
Unset Strict Implicit.
Local Open Scope Z_scope.

Lemma fstep_spec m c n sl p a b q : core (nodes c) (inds c) n -> cmodel_ok (fm_cm m) n -> length sl = n -> nth_error (nodes c) p = Some (mkNode (Some a) (Some b) q) ->
  fw_ccost m (dims c) sl (nth p (inds c) []) (nth a (inds c) []) (nth b (inds c) []) = step_cost (fm_cm m) c n (mem sl) a b.
Proof.
  intros HC Hm Ls Hn. assert (K : kids2 (nodes c) p a b) by (exists q; auto).
  destruct (kids2_lt (co_wf HC) K) as (L1 & L2 & L3).
  pose proof (co_sz HC L1) as S1. pose proof (co_sz HC L2) as S2. pose proof (co_sz HC L3) as S3.
  change (nth p (inds c) []) with (ix (inds c) p). change (nth a (inds c) []) with (ix (inds c) a).
  change (nth b (inds c) []) with (ix (inds c) b).
  change (fw_ccost m (dims c) sl (ix (inds c) p) (ix (inds c) a) (ix (inds c) b)) with
    (ccost_of (fm_cm m) (bor (ix (inds c) p) (ix (inds c) a)) sl (ix (inds c) b) (dims c)).
  assert (Lb : length (bor (ix (inds c) p) (ix (inds c) a)) = n) by (rewrite bor_len; congruence).
  rewrite (ccost_prod _ _ Hm Lb Ls). pose proof (co_loc HC K) as HL. unfold step_cost.
  assert (E : forall i, btest (bor (ix (inds c) p) (ix (inds c) a)) i || btest sl i =
                        carries c a i || carries c b i || mem sl i).
  { intros i. specialize (HL i). rewrite bor_test by congruence. unfold carries. change (nth i (nth a (inds c) []) false) with (btest (ix (inds c) a) i).
    change (nth i (nth b (inds c) []) false) with (btest (ix (inds c) b) i). change (mem sl i) with (btest sl i).
    destruct (btest (ix (inds c) p) i), (btest (ix (inds c) a) i), (btest (ix (inds c) b) i); simpl in *; intuition congruence. }
  destruct (fm_cm m) as [|sp np]; cbn [bt_cost]; [|f_equal; [|f_equal]]; apply prod_over_ext; intros i Hi; rewrite E; auto.
Qed.

Section Run.
Variables (xa : xarith) (wa : warith).
Hypothesis RO : range_ok xa.
Notation ar := (xr xa).
Notation frel := (@P_OverflowFin.frel xa _ _).

(** The current tree as far as the generator and the best tree do not matter. *)
Definition setrng {R} (s : fw_state R) (r : R) : fw_state R := fw_set s (fw_ct s) r (fw_width s) (fw_sl s) (fw_cc s) (fw_hyper s).

Lemma update_ok {R} (fr : xfrand R) b (xs : xf_state R) (fs : fw_state (R * list (bool * R))) n :
  xshuffles fr -> good xa (fm_cm (xf_m xs)) -> rfinv ar wa fs n none -> frel xs fs ->
  (xf_update xa wa fr b xs = Err Crash /\ rmay_crash wa fs n) \/
  exists xs' fs' t, xf_update xa wa fr b xs = Ok xs' /\ frel xs' fs' /\ kept ar wa fs fs' n (b = false) /\
    xf_total xs' = Ok t /\ rel xa t (rtot fs') /\
    ((1 < length (nodes (xf_ct xs)))%nat ->
     xf_min xs' = xf_min xs /\ xf_min_ct xs' = xf_min_ct xs /\ xf_min_sl xs' = xf_min_sl xs /\ xltb t (xf_min xs) = false \/
     xf_min xs' = t /\ xf_min_ct xs' = xf_ct xs' /\ xf_min_sl xs' = xf_sl xs' /\ xltb t (xf_min xs) = true) /\
    (xrefuses fr -> small xa (ccost (fw_cc fs)) -> small xa (ccost (fw_cc fs'))).
Proof.
  intros Hsh G HI S. unfold xf_update. destruct (xdraw (xf_base fr) (xf_rng xs)) as [x r0].
  pose proof (rv_core HI) as HC. pose proof (co_wf HC) as W. rewrite <- (fe_ct S). destruct (n_leaves_pos W) as (N0 & N1).
  assert (DP : dims_pos (dims (fw_ct fs))) by (exact (rv_dims HI)).
  set (l := (x mod n_leaves (nodes (fw_ct fs)))%nat).
  assert (Ll : (l < n_leaves (nodes (fw_ct fs)))%nat) by (apply Nat.mod_upper_bound; lia). assert (Lx : (l < length (nodes (fw_ct fs)))%nat) by lia.
  destruct (get_lt Lx) as (nd & -> & Hn). cbn [bind]. destruct (ftotal_rel S HI) as (t0 & Et0 & Rt0).
  destruct (par nd) as [B|] eqn:Ep.
  2:{ right. do 3 eexists. split; [reflexivity|]. split; [|split; [apply kept_refl; exact HI|split; [exact Et0|split; [exact Rt0|split; [|auto]]]]].
      - destruct S; constructor; auto.
      - intros HL. exfalso. assert (l = length (nodes (fw_ct fs)) - 1)%nat. { apply (wl_root W); auto. intros p (m & Hm & Hp). congruence. }
        unfold n_leaves in Ll. assert ((length (nodes (fw_ct fs)) + 1) / 2 < length (nodes (fw_ct fs)))%nat by (apply Nat.div_lt_upper_bound; lia). lia. }
  set (xs0 := xf_set xs (fw_ct fs) r0 (xf_width xs) (xf_sl xs) (xf_pc xs) (xf_cc xs) (xf_hyper xs)).
  change (xf_total xs0) with (xf_total xs). rewrite Et0. cbn [bind].
  assert (PB : parent (nodes (fw_ct fs)) l B) by (exists nd; auto).
  pose proof (parent_lt W PB) as LB. destruct (climb_ex W LB) as (k & Hk).
  assert (HnB : ~ leaf_at (nodes (fw_ct fs)) B).
  { intros (q & Hq). apply (wl_kp W) in PB. destruct PB as (m & Hm & Hkk). rewrite Hq in Hm. inversion Hm; subst. simpl in Hkk. destruct Hkk; discriminate. }
  destruct (@floop_sim xa wa RO R fr (length (nodes (fw_ct fs))) xs0 t0 B) as (sc & SIM).
  set (fs0 := setrng fs (r0, sc ++ [])).
  assert (SR0 : frel xs0 fs0) by (destruct S; constructor; auto).
  specialize (SIM [] fs0 (rtot fs0) DP G SR0 eq_refl).
  destruct (@rfw_loop_spec ar wa _ (sfr fr) k (length (nodes (fw_ct fs))) fs0 n (rtot fs0) B)
      as [(E1 & Hcr)|(fs1 & E1 & HI1 & (D1 & D2 & D3 & D4 & D5 & D6 & D7) & Hdj1 & Hz1 & Hfi1 & HP1)]; auto.
  { apply (rfinv_weaken (rfinv_rng (r0, sc ++ []) HI)). intros v []. }
  { simpl. apply (climb_bound W Hk). }
  { left. rewrite E1 in SIM. destruct (xf_loop xa wa fr (length (nodes (fw_ct fs))) xs0 t0 B) as [|e]; [destruct SIM|]. cbn in SIM. subst e. auto. }
  right. rewrite E1 in SIM. destruct (xf_loop xa wa fr (length (nodes (fw_ct fs))) xs0 t0 B) as [xs1|]; [|destruct SIM]. destruct SIM as (S1 & _ & (V1 & V2 & V3 & V4 & V5) & SML). cbn [bind].
  assert (SM1 : xrefuses fr -> small xa (ccost (fw_cc fs)) -> small xa (ccost (fw_cc fs1))).
  { apply (SML n); [|exact LB]. apply (rfinv_weaken (rfinv_rng (r0, sc ++ []) HI)). intros v []. }
  simpl in D1, D2, D3, D4, D5, D6, D7, HP1. cbn [xs0 xf_set xf_m xf_min xf_min_ct xf_min_sl] in V2, V3, V4, V5.
  assert (Ed : dims (fw_ct fs1) = dims (fw_ct fs)) by apply (moves_dims HP1).
  assert (RES : exists xs2 fs2, xf_reslice xa wa fr b xs1 = Ok xs2 /\ frel xs2 fs2 /\ kept ar wa fs fs2 n (b = false) /\
     xf_min xs2 = xf_min xs /\ xf_min_ct xs2 = xf_min_ct xs /\ xf_min_sl xs2 = xf_min_sl xs /\
     (xrefuses fr -> small xa (ccost (fw_cc fs)) -> small xa (ccost (fw_cc fs2)))).
  { assert (K1 : kept ar wa fs fs1 n (b = false)).
    { unfold kept. split; [exact HI1|]. do 4 (split; [congruence|]). split; [exact HP1|]. split; [exact Hdj1|]. split; [intros H0 _; exact (Hz1 H0)|]. intros lg K Hl Hm Hw _ Hk' Hf. exact (Hfi1 lg K Hl Hm Hw Hk' Hf). }
    unfold xf_reslice. destruct (b && bany (xf_sl xs1)) eqn:Eb.
    2:{ exists xs1, fs1. auto 12. }
    assert (Hb : b = true) by (destruct b; auto; discriminate).
    rewrite <- (fe_width S1), <- (fe_m S1), <- (fe_ct S1), <- (fe_skip S1). rewrite (rv_width HI1).
    destruct (@rget_slices_ok wa R (fw_m fs1) (only_shuffle fr) (fw_ct fs1) n (fw_skip fs1) (rv_m HI1) (rv_dims HI1) (only_shuffles Hsh)
      (proj2 (wf_iff _) (co_wf (rv_core HI1))) (rfinv_shaped HI1) (rv_skip HI1) (xf_rng xs1)) as (sl & r & -> & (G1 & G2) & Gf). cbn [bind].
    destruct (@rcache_ex ar (fw_m fs1) (dims (fw_ct fs1)) sl (fw_ct fs1) n (rv_core HI1)) as (kc & Ek & HK & HP).
    assert (CR : forall a b c, rel xa (xfw_ccost xa (fw_m fs1) (dims (fw_ct fs1)) sl a b c) (rfw_ccost ar (fw_m fs1) (dims (fw_ct fs1)) sl a b c)).
    { intros. apply (fcost_rel RO); [exact (rv_dims HI1)|]. rewrite D3, (fe_m S). exact G. }
    pose proof (make_sim RO CR (fw_ct fs1)) as MS. rewrite Ek in MS. destruct (xcost_cache_make xa (xfw_ccost xa (fw_m fs1) (dims (fw_ct fs1)) sl) (fw_ct fs1)) as [[ps ks]|]; [|destruct MS]. destruct MS as (MP & MK). cbn [fst snd] in MP, MK. cbn [bind].
    pose proof (fback_sim MP) as BS. rewrite (@back_nth (nodes (fw_ct fs1)) (pcost kc) (proj1 HP) (wl_len (co_wf (rv_core HI1)))) in BS. destruct (back ps) as [nt|]; [|destruct BS]. cbn [bind].
    pose proof (@back_nth (nodes (fw_ct fs1)) (pcost kc) (proj1 HP) (wl_len (co_wf (rv_core HI1)))) as EB.
    destruct (ftotal_rel S1 HI1) as (t1 & Et1 & Rt1). rewrite Et1. cbn [bind].
    destruct (xltb nt t1) eqn:LTn.
    - exists (xf_set xs1 (fw_ct fs1) r (rwidth_cache_make wa (fw_m fs1) (fw_ct fs1)) sl ps ks (xf_hyper xs1)), (fw_set fs1 (fw_ct fs1) (fw_rng fs1) (fw_width fs1) sl kc (fw_hyper fs1)).
      split; [reflexivity|]. split. { destruct S1; constructor; auto. apply (rv_width HI1). } split; [|split; [auto|split; [auto|split; [auto|]]]].
      2:{ intros _ _. cbn. eapply (total_small RO); [exact (rv_core HI1)|exact Ek|exact MP|exact MK|exact EB|exact BS|]. intros ->. destruct t1; discriminate LTn. }
      unfold kept. split. { destruct HI1. constructor; auto. } do 4 (split; [simpl; congruence|]). split; [exact HP1|]. split; [intros _ y Hy; apply G2; auto|]. split; [intros _ ?; congruence|].
      intros lg K Hlog Hmx Hwg Hdj Hk' Hf v Hv. simpl in *. rewrite <- D3 in *. rewrite <- Ed in Hwg. apply Gf; auto. eapply (tfitted_skip (ar := ar) (wa := wa)); eauto. rewrite Ed in Hwg. apply Hfi1; auto.
    - exists (xf_set xs1 (fw_ct fs1) r (rwidth_cache_make wa (fw_m fs1) (fw_ct fs1)) (xf_sl xs1) (xf_pc xs1) (xf_cc xs1) (xf_hyper xs1)), fs1.
      split; [reflexivity|]. split; [|auto 12]. destruct S1; constructor; auto. apply (rv_width HI1). }
  destruct RES as (xs2 & fs2 & -> & S2 & K2 & M1 & M2 & M3 & SM2). cbn [bind]. unfold xf_update_min. pose proof K2 as (HI2 & _). destruct (ftotal_rel S2 HI2) as (t & Et & Rt). rewrite Et. cbn [bind]. rewrite M1.
  destruct (xltb t (xf_min xs)) eqn:LT.
  - do 3 eexists. split; [reflexivity|]. split; [|split; [exact K2|split; [exact Et|split; [exact Rt|split; [|exact SM2]]]]]. { destruct S2; constructor; auto. } intros _. right. auto.
  - do 3 eexists. split; [reflexivity|]. split; [exact S2|]. split; [exact K2|]. split; [exact Et|]. split; [exact Rt|]. split; [|exact SM2]. intros _. left. auto.
Qed.

Lemma run_ok {R} n : forall (us : list (xfrand R * bool)) (xs : xf_state R) (fs : fw_state (R * list (bool * R))),
  all_xshuffle us -> good xa (fm_cm (xf_m xs)) -> rfinv ar wa fs n none -> frel xs fs ->
  (xf_run xa wa us xs = Err Crash /\ rmay_crash wa fs n) \/
  exists xs' fs', xf_run xa wa us xs = Ok xs' /\ frel xs' fs' /\ kept ar wa fs fs' n (xno_reslice us) /\
    (all_xrefuse us -> small xa (ccost (fw_cc fs)) -> small xa (ccost (fw_cc fs'))).
Proof.
  induction us as [|[fr b] us IH]; intros xs fs Hsh G HI S; cbn [xf_run].
  - right. exists xs, fs. split; auto. split; auto. split; [apply kept_refl; auto|auto].
  - inversion Hsh as [|? ? H1 H2]; subst. cbn [fst] in H1. destruct (update_ok b H1 G HI S) as [(E & Hc)|(x1 & f1 & t & E & S1 & K1 & _ & _ & _ & SM1)]; rewrite E; cbn [bind]; [left; auto|].
    pose proof K1 as (HI1 & _ & M1 & N1 & Q1 & P1 & _). assert (G1 : good xa (fm_cm (xf_m x1))) by (rewrite <- (fe_m S1), M1, (fe_m S); exact G).
    destruct (IH x1 f1 H2 G1 HI1 S1) as [(E2 & Hc)|(x2 & f2 & E2 & S2 & K2 & SM2)].
    + left. split; auto. eapply rmay_crash_eq; [..|exact Hc]; auto. apply (moves_dims P1).
    + right. exists x2, f2. split; auto. split; auto. split; [|intros HR; inversion HR; subst; auto]. eapply (@kept_trans ar wa _ fs f1 f2 n (b = false) (xno_reslice us)); eauto. intros Hn. inversion Hn; auto.
Qed.
Lemma run_app {R} (us1 us2 : list (xfrand R * bool)) s s1 : xf_run xa wa us1 s = Ok s1 -> xf_run xa wa (us1 ++ us2) s = xf_run xa wa us2 s1.
Proof. revert s. induction us1 as [|[fr b] us IH]; simpl; intros s H; [congruence|]. apply bind_ok in H. destruct H as (s' & E & H). rewrite E. cbn [bind]. auto. Qed.
Lemma run_split {R} (us1 us2 : list (xfrand R * bool)) s s2 : xf_run xa wa (us1 ++ us2) s = Ok s2 -> exists s1, xf_run xa wa us1 s = Ok s1 /\ xf_run xa wa us2 s1 = Ok s2.
Proof. revert s. induction us1 as [|[fr b] us IH]; simpl; intros s H; [eauto|]. apply bind_ok in H. destruct H as (s' & E & H). rewrite E. cbn [bind]. auto. Qed.

Section Built.
Variables (R : Type) (fr : xfrand R) (c : ctree) (m : fmodel) (maxnew : nat) (r : R) (ds : bool)
  (skip : bitset) (mc : option ctree) (sl msl : option bitset) (s0 : xf_state R).
Hypothesis HB : xfw_built xa wa fr c m maxnew r ds skip mc sl msl s0.
Notation n := (n_inds c).

Lemma bgood : good xa (fm_cm m).
Proof. apply (good_of (xb_model HB) (xb_projs HB)). Qed.

(** The constructor *)
Lemma make_f : exists fs0, rfw_built ar wa (sfr fr) c m maxnew (r, []) ds skip mc sl msl fs0 /\ frel s0 fs0 /\
  xf_min s0 = Fin (fw_min fs0) /\ xf_min_ct s0 = fw_min_ct fs0 /\ xf_min_sl s0 = fw_min_sl fs0 /\ xf_m s0 = m.
Proof.
  pose proof (xb_make HB) as H. unfold xpy_fw_make in H. destruct (existsb _ _) eqn:EX in H; [discriminate|].
  set (sk := if bany skip then Some skip else None) in *. unfold xf_make in H. set (mct := match mc with Some x => x | None => c end) in *.
  destruct (base_is_valid c mct ds) eqn:Hb; cbn [negb] in H; [|discriminate].
  assert (DP : dims_pos (dims c) /\ dims_pos (dims mct)).
  { unfold base_is_valid, ctree_is_valid in Hb. rewrite !andb_true_iff in Hb. split; apply dims_ok_pos; tauto. }
  destruct DP as [D1 D2]. pose proof bgood as GM. cbv zeta in H. apply bind_ok in H. destruct H as ((sl1 & r1) & Esl & H).
  set (msl1 := match msl with Some x => x | None => sl1 end) in *.
  assert (C1 : forall a b e, rel xa (xfw_ccost xa m (dims c) sl1 a b e) (rfw_ccost ar m (dims c) sl1 a b e)) by (intros; apply (fcost_rel RO); auto).
  assert (C2 : forall a b e, rel xa (xfw_ccost xa m (dims mct) msl1 a b e) (rfw_ccost ar m (dims mct) msl1 a b e)) by (intros; apply (fcost_rel RO); auto).
  pose proof (make_sim RO C1 c) as S1. pose proof (get_cost_sim RO C2 mct) as S2.
  destruct (xcost_cache_make xa (xfw_ccost xa m (dims c) sl1) c) as [[ps ks]|] eqn:EM; cbn [bind] in H; [|discriminate]. destruct (fcost_cache_make ar (rfw_ccost ar m (dims c) sl1) c) as [k|] eqn:FM; [|destruct S1]. destruct S1 as [SP SK]. cbn [fst snd] in *.
  destruct (hyper_cache_make c) as [h|] eqn:EH; cbn [bind] in H; [|discriminate]. destruct (xget_cost xa (xfw_ccost xa m (dims mct) msl1) mct) as [mt|] eqn:EG; cbn [bind] in H; [|discriminate]. destruct (fget_cost ar (rfw_ccost ar m (dims mct) msl1) mct) as [fm|] eqn:FG; [|destruct S2].
  set (wc := rwidth_cache_make wa m c) in *. set (xs0 := mkXF c ds r1 mct m maxnew wc sk sl1 msl1 ps ks h mt) in *. cbn in S2.
  set (fs0 := mkFW c ds (r1, @nil (bool * R)) mct m maxnew wc sk sl1 msl1 k h fm).
  assert (SR : frel xs0 fs0) by (constructor; auto).
  pose proof (ftotal_sim SR) as T0. destruct (xf_total xs0) as [tot|] eqn:ET; cbn [bind] in H; [|discriminate]. destruct (has_log2 tot) eqn:L1; cbn [negb orb] in H; [|discriminate]. destruct (has_log2 mt) eqn:L2; cbn [negb] in H; [|discriminate].
  destruct (xf_is_valid xa wa xs0) eqn:EV; [|discriminate]. injection H as <-.
  destruct mt as [zm| | |]; try discriminate. destruct S2 as (M0 & Mr & [(ME & Ml)|(ME & _)]); [|discriminate]. injection ME as ->.
  exists fs0. split; [|split; [exact SR|auto]]. constructor; [apply sfr_shuffles, HB|apply HB|apply HB|apply HB|].
  unfold rpy_fw_make. rewrite EX. fold sk. unfold rfw_make. fold mct. rewrite Hb. cbn [negb]. fold wc.
  assert (Esl' : match sl with Some x => Ok (x, (r, @nil (bool * R))) | None => rget_slices wa m (sfr fr) c sk (r, []) wc end = Ok (sl1, (r1, []))).
  { destruct sl as [x|]; [congruence|]. rewrite get_slices_scripted. rewrite Esl. reflexivity. }
  rewrite Esl'. cbn [bind]. fold msl1. rewrite FM. cbn [bind]. rewrite EH. cbn [bind]. rewrite FG. cbn [bind]. fold fs0.
  destruct (fw_total fs0) as [ft|]; [|destruct T0]. cbn [bind]. destruct tot as [zt| | |]; try discriminate. destruct T0 as (_ & _ & [(TE & _)|(TE & _)]); [|discriminate]. injection TE as ->.
  cbn in L1, L2. apply Z.ltb_lt in L1, L2. destruct (Z.leb_spec ft 0); [lia|]. destruct (Z.leb_spec fm 0); [lia|]. cbn [orb].
  assert (FV : rfw_is_valid ar wa fs0 = true); [|rewrite FV; reflexivity].
  unfold xf_is_valid in EV. cbn [xs0 xf_ct xf_min_ct xf_ds xf_m xf_pc xf_cc xf_hyper xf_min xf_sl xf_min_sl xf_width] in EV. rewrite EG, EM, EH in EV. rewrite !andb_true_iff in EV. destruct EV as ((((((V1 & V2) & V3) & V4) & (V5 & V6)) & V7) & V8).
  unfold rfw_is_valid. cbn [fs0 fw_ct fw_min_ct fw_ds fw_m fw_cc fw_hyper fw_min fw_sl fw_min_sl fw_width]. rewrite FG, FM, EH, V1, V3, V4, V7, V8. rewrite (close_rel SP SP V5), (close_rel SK SK V6). cbn in V2. rewrite V2. reflexivity.
Qed.

Lemma reached us s : all_xshuffle us -> xf_run xa wa us s0 = Ok s -> exists fs0 fs,
  rfw_built ar wa (sfr fr) c m maxnew (r, []) ds skip mc sl msl fs0 /\ frel s fs /\ kept ar wa fs0 fs n (xno_reslice us) /\
  xf_min s0 = Fin (fw_min fs0) /\ xf_min_ct s0 = fw_min_ct fs0 /\ xf_min_sl s0 = fw_min_sl fs0.
Proof.
  intros Hsh Hr. destruct make_f as (fs0 & FB & S & M1 & M2 & M3 & Em). destruct (rbuilt_inv FB) as (HI & _). pose proof bgood as G. rewrite <- Em in G.
  destruct (run_ok Hsh G HI S) as [(E & _)|(s' & fs & E & S' & K & _)]; rewrite Hr in E; [discriminate|]. injection E as <-. exists fs0, fs. auto 10.
Qed.

Lemma c70f_runs us : all_xshuffle us ->
  (exists s, xf_run xa wa us s0 = Ok s) \/
  (xf_run xa wa us s0 = Err Crash /\ (0 < maxnew)%nat /\
   forall e B lg, log_like lg -> waccurate e B lg wa -> widths_upto e B lg (fm_cm m) (dims c) n -> 0 <= fm_max m ->
     fm_max m < set_width lg (fm_cm m) (dims c) n (mem skip) + width_err (fm_cm m) (Z.of_nat n) * e).
Proof.
  intros Hsh. destruct make_f as (fs0 & FB & S & M1 & M2 & M3 & Em). destruct (rbuilt_inv FB) as (HI & _ & _ & _ & Ec & _ & Em' & En & _). pose proof bgood as G. rewrite <- Em in G.
  destruct (run_ok Hsh G HI S) as [(E & H1 & H2)|(s' & fs & E & _)]; [right|left; eauto]. rewrite En in H1. split; auto. split; auto. intros e B lg Hl Ha Hu Hm.
  rewrite <- (skip_width' FB), <- Em'. apply H2; auto; rewrite ?Em', ?Ec; auto. apply (waccurate_good Ha Hl); auto; [|apply HB]. rewrite <- Ec. apply (rv_dims HI).
Qed.

Lemma long us s : all_xshuffle us -> xf_run xa wa us s0 = Ok s -> (1 < length (nodes (xf_ct s)))%nat.
Proof.
  intros Hsh Hr. destruct (reached Hsh Hr) as (fs0 & fs & FB & S & K & _). destruct (rbuilt_inv FB) as (HI & _ & _ & _ & Ec & _). destruct K as (_ & _ & _ & _ & _ & P & _). rewrite <- (fe_ct S).
  destruct (moves_keep (rv_core HI) P) as (-> & _). rewrite Ec. apply (rlength FB).
Qed.

(** The best tree *)
Lemma best_step : forall us s, all_xshuffle us -> xf_run xa wa us s0 = Ok s ->
  exists z, xf_min s = Fin z /\
   (forall us1 us2 s1, us = us1 ++ us2 -> xf_run xa wa us1 s0 = Ok s1 ->
      (exists z1, xf_min s1 = Fin z1 /\ z <= z1) /\ (us1 <> [] -> forall t, xf_total s1 = Ok (Fin t) -> z <= t)) /\
   (xf_min_ct s = xf_min_ct s0 /\ xf_min_sl s = xf_min_sl s0 /\ xf_min s = xf_min s0 \/
    exists us1 us2 s1, us = us1 ++ us2 /\ us1 <> [] /\ xf_run xa wa us1 s0 = Ok s1 /\ xf_min_ct s = xf_ct s1 /\ xf_min_sl s = xf_sl s1 /\ xf_total s1 = Ok (Fin z)).
Proof.
  induction us as [|[f b] us IH] using rev_ind; intros s Hsh Hr.
  - destruct make_f as (fs0 & _ & _ & M0 & _). cbn in Hr. injection Hr as <-. exists (fw_min fs0). split; auto. split; [|left; auto]. intros us1 us2 s1 E Hr1. symmetry in E. apply app_eq_nil in E. destruct E as [-> ->]. cbn in Hr1. injection Hr1 as <-. split; [exists (fw_min fs0); split; auto; lia|congruence].
  - pose proof Hr as Hfull. apply run_split in Hr. destruct Hr as (sp & Hp & Hr). pose proof Hsh as Hall. apply Forall_app in Hsh. destruct Hsh as (Hs1 & Hs2). inversion Hs2 as [|? ? Hs3 _]; subst. cbn [fst] in Hs3.
    cbn in Hr. apply bind_ok in Hr. destruct Hr as (s' & Eu & Hs). injection Hs as ->. specialize (IH sp Hs1 Hp). destruct IH as (z & Mz & Hle & Hh).
    destruct (reached Hs1 Hp) as (fs0 & fp & FB & Sp & Kp & _). destruct (rbuilt_inv FB) as (_ & _ & _ & _ & _ & _ & Em & _). pose proof Kp as (HIp & _ & Mp & _).
    assert (Gp : good xa (fm_cm (xf_m sp))) by (rewrite <- (fe_m Sp), Mp, Em; apply bgood).
    destruct (update_ok b Hs3 Gp HIp Sp) as [(E & _)|(s2 & fs & t & E & S & K & Et & Rt & C & _)]; rewrite Eu in E; [discriminate|]. injection E as <-. specialize (C (long Hs1 Hp)).
    assert (SPL : forall l1 l2, us ++ [(f, b)] = l1 ++ l2 -> l1 = us ++ [(f, b)] /\ l2 = [] \/ exists l, us = l1 ++ l /\ l2 = l ++ [(f, b)]).
    { intros l1 l2 E. destruct l2 as [|a0 l2' _] using rev_ind; [left; rewrite app_nil_r in E; auto|]. right. rewrite app_assoc in E. apply app_inj_tail in E. destruct E as [E1 E2]. subst. eauto. }
    destruct C as [(C1 & C2 & C4 & C3)|(C1 & C2 & C4 & C3)].
    + exists z. split; [congruence|]. split.
      * intros us1 us2 s1 E Hr1. destruct (SPL _ _ E) as [(-> & ->)|(l & -> & ->)].
        -- rewrite Hfull in Hr1. injection Hr1 as <-. split; [exists z; split; [congruence|lia]|]. intros _ t1 Ht1. rewrite Et in Ht1. injection Ht1 as ->. rewrite Mz in C3. cbn in C3. apply Z.ltb_ge in C3. auto.
        -- apply (Hle us1 l s1 eq_refl Hr1).
      * destruct Hh as [(A1 & A2 & A3)|(l1 & l2 & s1 & -> & B2 & B3 & B4 & B5 & B6)]; [left; repeat split; congruence|]. right. exists l1, (l2 ++ [(f, b)]), s1. rewrite <- app_assoc. repeat (split; auto); congruence.
    + rewrite Mz in C3. destruct Rt as (_ & _ & [(-> & _)|(-> & _)]); [|discriminate]. cbn in C3. apply Z.ltb_lt in C3. exists (rtot fs). split; auto. split.
      * intros us1 us2 s1 E Hr1. destruct (SPL _ _ E) as [(-> & ->)|(l & -> & ->)].
        -- rewrite Hfull in Hr1. injection Hr1 as <-. split; [exists (rtot fs); split; auto; lia|]. intros _ t1 Ht1. rewrite Et in Ht1. injection Ht1 as ->. lia.
        -- destruct (Hle us1 l s1 eq_refl Hr1) as [(z1 & Y1 & Y2) Y3]. split; [exists z1; split; auto; lia|]. intros Hne t1 Ht1. specialize (Y3 Hne t1 Ht1). lia.
      * right. exists (us ++ [(f, b)]), [], s. rewrite app_nil_r. split; auto. split; [destruct us; discriminate|]. repeat (split; auto).
Qed.

(** Where the best tree comes from, with the trees that simulate it. *)
Lemma best_from us s : all_xshuffle us -> xf_run xa wa us s0 = Ok s -> exists z, xf_min s = Fin z /\
  ((exists fs0, rfw_built ar wa (sfr fr) c m maxnew (r, []) ds skip mc sl msl fs0 /\ xf_min_ct s = fw_min_ct fs0 /\ xf_min_sl s = fw_min_sl fs0 /\ z = fw_min fs0) \/
   (exists us1 us2 s1, us = us1 ++ us2 /\ all_xshuffle us1 /\ xf_run xa wa us1 s0 = Ok s1 /\ xf_min_ct s = xf_ct s1 /\ xf_min_sl s = xf_sl s1 /\ xf_total s1 = Ok (Fin z))).
Proof.
  intros Hsh Hr. destruct (best_step Hsh Hr) as (z & Mz & _ & [(A1 & A2 & A3)|(l1 & l2 & s1 & -> & B2 & B3 & B4 & B5 & B6)]); exists z; split; auto.
  - left. destruct make_f as (fs0 & FB & _ & M1 & M2 & M3 & _). exists fs0. split; auto. split; [congruence|]. split; [congruence|]. rewrite Mz, M1 in A3. congruence.
  - right. exists l1, l2, s1. apply Forall_app in Hsh. repeat (split; auto); tauto.
Qed.

Lemma c70f_trees us s out : all_xshuffle us -> xf_run xa wa us s0 = Ok s -> exact_inds c out ->
  exact_inds (xf_ct s) out /\ same_problem c (xf_ct s) /\
  ctree_is_valid (xf_ct s) (negb ds) = true /\ ctree_is_valid (xf_min_ct s) (negb ds) = true /\
  (mc = None -> exact_inds (xf_min_ct s) out /\ same_problem c (xf_min_ct s)).
Proof.
  intros Hsh Hr HX.
  assert (K : forall us s, all_xshuffle us -> xf_run xa wa us s0 = Ok s -> exact_inds (xf_ct s) out /\ same_problem c (xf_ct s) /\ ctree_is_valid (xf_ct s) (negb ds) = true).
  { intros u s1 H1 H2. destruct (reached H1 H2) as (fs0 & fs & FB & S & K & _). destruct (rbuilt_inv FB) as (HI & _ & _ & _ & Ec & Ed & _ & _ & _ & _ & _ & _ & _ & V1 & _). pose proof (rv_core HI) as HC. rewrite Ec in HC.
    destruct K as (_ & _ & _ & _ & _ & P & _). rewrite Ec, Ed in P. rewrite <- (fe_ct S). split; [eapply moves_exact; eauto|]. split; [eapply moves_same; eauto|]. eapply moves_valid_shared; eauto. }
  destruct (K _ _ Hsh Hr) as (K1 & K2 & K3). split; auto. split; auto. split; auto.
  destruct (best_from Hsh Hr) as (z & _ & [(fs0 & FB & E1 & _)|(l1 & l2 & s1 & _ & B2 & B3 & B4 & _)]).
  - destruct (@g49_trees _ _ _ _ _ _ _ _ _ _ _ _ _ _ FB [] fs0 out (Forall_nil _) eq_refl HX) as (_ & _ & _ & D & E & _). rewrite E1. auto.
  - rewrite B4. destruct (K _ _ B2 B3) as (L1 & L2 & L3). auto.
Qed.

Lemma c70f_skip us s : all_xshuffle us -> xf_run xa wa us s0 = Ok s -> disjoint (mem (xf_sl s)) (mem skip) /\ disjoint (mem (xf_min_sl s)) (mem skip).
Proof.
  intros Hsh Hr. assert (K : forall us s, all_xshuffle us -> xf_run xa wa us s0 = Ok s -> disjoint (mem (xf_sl s)) (mem skip)).
  { intros u s1 H1 H2. destruct (reached H1 H2) as (fs0 & fs & FB & S & K & _). destruct (rbuilt_inv FB) as (HI & _ & _ & _ & _ & _ & _ & _ & Es0 & _ & Hdj0 & _). destruct K as (_ & _ & _ & _ & Es & _ & Hd & _).
    rewrite <- (fe_sl S). intros x Hx Hy. specialize (Hd Hdj0 x Hx). rewrite Es, Es0, omem_oskip in Hd. congruence. }
  split; [eapply K; eauto|]. destruct (best_from Hsh Hr) as (z & _ & [(fs0 & FB & _ & E2 & _)|(l1 & l2 & s1 & _ & B2 & B3 & _ & B5 & _)]).
  - destruct (@g49_skip _ _ _ _ _ _ _ _ _ _ _ _ _ _ FB [] fs0 (Forall_nil _) eq_refl) as (_ & D). rewrite E2. auto.
  - rewrite B5. eapply K; eauto.
Qed.

Lemma c70f_fit us s e B lg : log_like lg -> waccurate e B lg wa -> widths_upto e B lg (fm_cm m) (dims c) n -> 0 <= fm_max m ->
  fm_cm m = Simple \/ maxnew = 0%nat -> all_xshuffle us -> xf_run xa wa us s0 = Ok s ->
  all_fit lg (fm_cm m) (fm_max m + width_err (fm_cm m) (Z.of_nat n) * e) n (xf_ct s) (mem (xf_sl s)) /\
  all_fit lg (fm_cm m) (fm_max m + width_err (fm_cm m) (Z.of_nat n) * e) n (xf_min_ct s) (mem (xf_min_sl s)).
Proof.
  intros Hl Ha Hu Hm0 Hk Hsh Hr. set (Kw := width_err (fm_cm m) (Z.of_nat n) * e).
  assert (K : forall us s, all_xshuffle us -> xf_run xa wa us s0 = Ok s -> all_fit lg (fm_cm m) (fm_max m + Kw) n (xf_ct s) (mem (xf_sl s))).
  { intros u s1 H1 H2. destruct (reached H1 H2) as (fs0 & fs & FB & S & K & _). destruct (rbuilt_inv FB) as (HI & _ & Hf & _ & Ec & Ed & Em & En & _ & _ & Hdj & _).
    assert (Hdp : dims_positive (dims c)) by (rewrite <- Ec; apply (rv_dims HI)). pose proof (waccurate_good Ha Hl Hdp (xb_model HB) Hu) as Hg. fold Kw in Hg.
    assert (Hk0 : fits_kept fs0) by (unfold fits_kept; rewrite Em, En; auto).
    assert (Hf0 : tfitted lg (fm_max m + Kw) fs0).
    { intros v Hv. pose proof (proj2 (rfinv_shaped HI) _ (nth_In (inds (fw_ct fs0)) [] Hv)) as Lv. specialize (Hf v Hv). rewrite Em, Ec in *. apply (wgood_width Hg); auto.
      unfold ix. rewrite bdiff_len; [exact Lv|]. rewrite (rv_sl HI). exact Lv. }
    destruct K as (HI1 & _ & M1 & _ & _ & P1 & _ & _ & F1). rewrite Em, Ec in F1. specialize (F1 lg Kw Hl Hm0 Hg Hdj Hk0 Hf0). rewrite <- (fe_ct S), <- (fe_sl S). apply (fit_of_width FB); [apply (rv_sl HI1)|apply (rfinv_shaped HI1)|].
    intros v Hv. specialize (F1 v Hv). rewrite M1, Em in F1. auto. }
  split; [eapply K; eauto|]. destruct (best_from Hsh Hr) as (z & _ & [(fs0 & FB & E1 & E2 & _)|(l1 & l2 & s1 & _ & B2 & B3 & B4 & B5 & _)]).
  - destruct (@g49_fit _ _ _ _ _ _ _ _ _ _ _ _ _ _ FB [] fs0 e B lg Hl Ha Hu Hm0 Hk (Forall_nil _) eq_refl) as (_ & D). rewrite E1, E2. auto.
  - rewrite B4, B5. eapply K; eauto.
Qed.

Lemma c70f_rfit us s : maxnew = 0%nat -> xno_reslice us -> all_xshuffle us -> xf_run xa wa us s0 = Ok s ->
  all_fit_rounded wa m (xf_ct s) (xf_sl s) /\ all_fit_rounded wa m (xf_min_ct s) (xf_min_sl s) /\ xf_sl s = xf_sl s0.
Proof.
  intros Hk Hnr Hsh Hr. destruct make_f as (gs0 & GB & GS & _).
  assert (K : forall us s, xno_reslice us -> all_xshuffle us -> xf_run xa wa us s0 = Ok s -> all_fit_rounded wa m (xf_ct s) (xf_sl s) /\ xf_sl s = xf_sl s0).
  { intros u s1 H0 H1 H2. pose proof bgood as G. destruct (rbuilt_inv GB) as (HI & _ & Hf & _ & Ec & _ & Em & En & _). rewrite <- Em in G. rewrite (fe_m GS) in G.
    destruct (run_ok H1 G HI GS) as [(E & _)|(s' & fs & E & S & K)]; rewrite H2 in E; [discriminate|]. injection E as <-. destruct K as ((HI1 & _ & M1 & _ & _ & P & _ & HZ & _) & _). rewrite En in HZ. destruct (HZ Hk H0) as (E1 & E2). specialize (E2 Hf).
    rewrite <- (fe_ct S), <- (fe_sl S), <- (fe_sl GS). split; auto. apply rfitted_forall in E2. rewrite forallb_forall in E2. intros xs Hx. specialize (E2 xs Hx). unfold rfits in E2. apply Z.leb_le in E2. rewrite M1, Em in E2. auto. }
  destruct (K _ _ Hnr Hsh Hr) as (K1 & K2). split; auto. split; auto. destruct (best_from Hsh Hr) as (z & _ & [(fs0 & FB & E1 & E2 & _)|(l1 & l2 & s1 & E0 & B2 & B3 & B4 & B5 & _)]).
  - destruct (@g49_rfit _ _ _ _ _ _ _ _ _ _ _ _ _ _ FB [] fs0 Hk (Forall_nil _) (Forall_nil _) eq_refl) as (_ & D & _). rewrite E1, E2. auto.
  - rewrite B4, B5. unfold xno_reslice in Hnr. rewrite E0 in Hnr. apply Forall_app in Hnr. destruct (K l1 s1) as (L1 & _); auto. apply Hnr.
Qed.

Section Close.
Variables (q kp : nat).
Hypothesis Hq : (1 <= q)%nat.
Hypothesis Hac : accurate q kp ar.

Lemma c70f_total us s : all_xshuffle us -> xf_run xa wa us s0 = Ok s ->
  exists T x z, tree_of (nodes (xf_ct s)) T /\ xf_total s = Ok x /\ reports xa x z /\
    approx q (2 * (n + kp + 1) + length (nodes c)) z (tree_cost (fm_cm m) (xf_ct s) n (mem (xf_sl s)) T).
Proof.
  intros Hsh Hr. destruct (reached Hsh Hr) as (fs0 & fs & FB & S & K & _). destruct (rbuilt_inv FB) as (HI & _ & _ & _ & Ec & Ed & Em & _). destruct K as (HI' & _ & D2 & _ & _ & P & _). rewrite Em in D2.
  destruct (wfl_tree_of (co_wf (rv_core HI'))) as (T & HT). destruct (ftotal_rel S HI') as (x & Ex & Rx). exists T, x, (rtot fs). rewrite <- (fe_ct S), <- (fe_sl S). split; auto. split; auto. split; [apply Rx|].
  destruct (moves_keep (rv_core HI) P) as (EL & _). rewrite Ec in EL. rewrite <- EL. apply (rtotal_close FB Hq Hac HI' D2 HT).
Qed.

Lemma c70f_best us s : all_xshuffle us -> xf_run xa wa us s0 = Ok s ->
  exists z, xf_min s = Fin z /\
   (forall T, tree_of (nodes (xf_min_ct s)) T ->
      approx q (2 * (n + kp + 1) + length (nodes (xf_min_ct s))) z (tree_cost (fm_cm m) (xf_min_ct s) n (mem (xf_min_sl s)) T)) /\
   (forall us1 us2 s1, us = us1 ++ us2 -> xf_run xa wa us1 s0 = Ok s1 ->
      (exists z1, xf_min s1 = Fin z1 /\ z <= z1) /\ (us1 <> [] -> forall t, xf_total s1 = Ok (Fin t) -> z <= t)) /\
   (xf_min_ct s = xf_min_ct s0 /\ xf_min_sl s = xf_min_sl s0 /\ xf_min s = xf_min s0 \/
    exists us1 us2 s1, us = us1 ++ us2 /\ us1 <> [] /\ xf_run xa wa us1 s0 = Ok s1 /\ xf_min_ct s = xf_ct s1 /\ xf_min_sl s = xf_sl s1 /\ xf_total s1 = Ok (Fin z)).
Proof.
  intros Hsh Hr. destruct (best_step Hsh Hr) as (z & Mz & Hle & Hh). exists z. split; auto. split; [|auto]. intros T HT.
  destruct (best_from Hsh Hr) as (z' & Mz' & [(fs0 & FB & E1 & E2 & E3)|(l1 & l2 & s1 & _ & B2 & B3 & B4 & B5 & B6)]); rewrite Mz in Mz'; injection Mz' as <-.
  - rewrite E1 in *. rewrite E2, E3. apply (@g49_min _ _ _ _ _ _ _ _ _ _ _ _ _ _ FB q kp Hq Hac [] fs0 (Forall_nil _) eq_refl T HT).
  - rewrite B4 in *. rewrite B5. destruct (reached B2 B3) as (fs0 & fs & FB & S & K & _). destruct (rbuilt_inv FB) as (HI & _ & _ & _ & Ec & Ed & Em & _). destruct K as (HI' & _ & D2 & _). rewrite Em in D2.
    destruct (ftotal_rel S HI') as (x & Ex & Rx). rewrite B6 in Ex. injection Ex as <-. destruct Rx as (_ & _ & [(TE & _)|(TE & _)]); [|discriminate]. injection TE as ->. rewrite <- (fe_ct S) in *. rewrite <- (fe_sl S). apply (rtotal_close FB Hq Hac HI' D2 HT).
Qed.
(** Rules that refuse infinite increases *)
Lemma first_small : exists fs0, rfw_built ar wa (sfr fr) c m maxnew (r, []) ds skip mc sl msl fs0 /\ frel s0 fs0 /\ small xa (ccost (fw_cc fs0)).
Proof.
  destruct make_f as (fs0 & FB & S & _). exists fs0. split; auto. split; auto. destruct (rbuilt_inv FB) as (HI & _). destruct (@rcache_ex ar (fw_m fs0) (dims (fw_ct fs0)) (fw_sl fs0) (fw_ct fs0) n (rv_core HI)) as (k & Ek & _).
  destruct (ftotal_rel S HI) as (t & Et & Rt). assert (Hn : t <> PInf).
  { pose proof (xb_make HB) as H. unfold xpy_fw_make in H. destruct (existsb _ _) in H; [discriminate|]. unfold xf_make in H. destruct (negb _) in H; [discriminate|]. cbv zeta in H. apply bind_ok in H. destruct H as ((sl1 & r1) & _ & H).
    do 1 (apply bind_ok in H; destruct H as ((? & ?) & _ & H)). do 2 (apply bind_ok in H; destruct H as (? & _ & H)). apply bind_ok in H. destruct H as (tot & Etot & H). destruct (has_log2 tot) eqn:L1; cbn [negb orb] in H; [|discriminate].
    destruct (negb _) in H; [discriminate|]. destruct (xf_is_valid _ _ _) in H; [|discriminate]. injection H as <-. rewrite Et in Etot. injection Etot as ->. intros ->. discriminate. }
  pose proof (rv_pc HI) as (LP & PK & PL). pose proof (rv_cc HI) as (LK & KK & KL). apply (total_small_of RO (rv_core HI) (fe_pc S) (fe_cc S) (rv_cc HI) (rv_pc HI) (rtotal_ok HI) Rt Hn).
Qed.

Lemma c70f_steps us s : all_xshuffle us -> all_xrefuse us -> xf_run xa wa us s0 = Ok s ->
  forall v a b p, nth_error (nodes (xf_ct s)) v = Some (mkNode (Some a) (Some b) p) ->
  exists z, z <= xmax xa /\ approx q (2 * (n + kp + 1)) z (step_cost (fm_cm m) (xf_ct s) n (mem (xf_sl s)) a b).
Proof.
  intros Hsh Hrf Hr v a b p Hn. destruct first_small as (fs0 & FB & S & SM). destruct (rbuilt_inv FB) as (HI & _ & _ & _ & Ec & Ed & Em & _). pose proof bgood as G. rewrite <- Em, (fe_m S) in G.
  destruct (run_ok Hsh G HI S) as [(E & _)|(s' & fs & E & S' & K & SMr)]; rewrite Hr in E; [discriminate|]. injection E as <-. specialize (SMr Hrf SM). destruct K as (HI' & _ & D2 & _). rewrite Em in D2.
  rewrite <- (fe_ct S') in *. rewrite <- (fe_sl S'). destruct (rsteps_close FB Hq Hac (rv_core HI') (rv_sl HI') Hn) as (A & _). rewrite (fstep_spec (rv_core HI') (xb_model HB) (rv_sl HI') Hn) in A.
  destruct (rv_cc HI') as (LK & KK & _). rewrite D2 in KK. assert (KD : kids2 (nodes (fw_ct fs)) v a b) by (exists p; auto). rewrite <- (KK _ _ _ KD) in A. eexists. split; [|exact A].
  assert (L : (v < length (nodes (fw_ct fs)))%nat) by (apply nth_error_Some; congruence). rewrite <- LK in L. rewrite <- zx_nth. unfold small in SMr. rewrite Forall_forall in SMr. apply SMr, nth_In, L.
Qed.
End Close.
End Built.

Lemma c70f_not_valid (R : Type) (s : xf_state R) x : xf_total s = Ok x -> (forall z, x <> Fin z) -> xf_is_valid xa wa s = false.
Proof.
  intros Ht Hx. destruct (xf_is_valid xa wa s) eqn:V; auto. exfalso. unfold xf_is_valid in V. rewrite !andb_true_iff in V. destruct V as (((_ & V) & _) & _). destruct (xcost_cache_make _ _ _) as [[ps ks]|]; [|discriminate]. apply andb_true_iff in V. destruct V as [V _].
  pose proof (fin_of V) as F. rewrite Forall_forall in F. unfold xf_total, back, get in Ht. destruct (nth_error _ _) eqn:N in Ht; [|discriminate]. injection Ht as ->. apply nth_error_In in N. destruct (F _ N) as (z & ->). eapply Hx. reflexivity.
Qed.
End Run.
