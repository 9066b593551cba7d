(** Final forms of the lemmas about costs of a bounded range. *)
From Coq Require Import List Arith ZArith Lia Bool.
Import ListNotations.
From Verif Require Import M_Base M_Bitset M_Tree M_CTree M_Cost M_Opt M_InfMem M_Float M_Overflow S_Tree S_Opt S_Float S_Overflow.
From Verif Require Import P_Base P_Bitset P_Tree P_Shape P_TreeProps P_TreeValid P_Opt P_OptCost P_InfMem P_Canon P_Cost P_InfMemMain P_InfMemFinal P_Approx P_FinFloatNear P_FloatRun P_FloatCost P_FloatMain P_AppTree P_Overflow.
Set Implicit Arguments.
Unset Strict Implicit.
Local Open Scope Z_scope.

Lemma float_range p pp cl mx pm : (1 <= p)%nat -> (1 <= pp)%nat -> 1 <= mx -> 1 <= pm -> range_ok (mkXA (float p pp cl) mx pm).
Proof.
  intros Hp Hpp Hm Hq. assert (N1 : nearest p 1 = 1) by (apply nearest_exact; auto; change (Z.abs 1) with (2 ^ 0); apply Z.pow_le_mono_r; lia).
  assert (N2 : nearest pp 1 = 1) by (apply nearest_exact; auto; change (Z.abs 1) with (2 ^ 0); apply Z.pow_le_mono_r; lia).
  constructor; cbn.
  - intros. apply nearest_mono; auto.
  - intros x. unfold nearest. rewrite Z.abs_opp, Z.sgn_opp. destruct (Z.log2 (Z.abs x) + 1 - Z.of_nat p <=? 0); auto. ring.
  - intros. apply nearest_idem; auto. apply nearest_pbits; auto.
  - apply nearest_exact; auto. cbn. apply Z.pow_nonneg. lia.
  - exact N1.
  - intros. apply nearest_idem; auto. apply nearest_pbits; auto.
  - intros d k Hd. rewrite <- N1 at 1. apply nearest_mono; auto. rewrite <- N2 at 1. apply nearest_mono; auto. assert (0 < Z.of_N d ^ Z.of_nat k) by (apply Z.pow_pos_nonneg; lia). lia.
  - unfold finite_upto. cbn. lia.
Qed.

Lemma list_eqb_len {A} (f : A -> A -> bool) l : forall k, list_eqb f l k = true -> length l = length k.
Proof. induction l as [|x l IH]; intros [|y k] H; simpl in *; try discriminate; auto. apply andb_true_iff in H. f_equal. apply IH, H. Qed.
Lemma moves_len ds c c' : moves ds c c' -> length (nodes c') = length (nodes c).
Proof.
  induction 1 as [|c c1 c2 Hmv _ IHm]; auto. rewrite IHm. destruct Hmv as (sA & sE & A & B & C & D & E & pA & nC & nD & nE & H & -> & _). simpl. rewrite rot_length. auto.
Qed.

Section Main.
Variable xa : xarith.
Hypothesis RO : range_ok xa.
Notation ar := (xr xa).

Lemma close_rel l k l' k' : Forall2 (rel xa) l l' -> Forall2 (rel xa) k k' -> list_eqb (xclose xa) l k = true -> list_eqb (rclose ar) l' k' = true.
Proof.
  intros H. revert k k'. induction H as [|x z l l' Rx H IH]; intros k k' G E; destruct G as [|y w k k' Ry G]; simpl in *; try discriminate; auto.
  apply andb_true_iff in E. destruct E as [E1 E2]. apply andb_true_iff. split; [|eauto]. destruct x as [x| | |]; try discriminate. destruct y as [y| | |]; try discriminate.
  destruct Rx as (_ & _ & [(X & _)|(X & _)]); [|discriminate]. destruct Ry as (_ & _ & [(Y & _)|(Y & _)]); [|discriminate]. injection X as ->. injection Y as ->. exact E1.
Qed.
Lemma fin_of l k : list_eqb (xclose xa) l k = true -> Forall (fun x => exists z, x = Fin z) l.
Proof.
  revert k. induction l as [|x l IH]; intros [|y k] E; simpl in *; try discriminate; auto. apply andb_true_iff in E. destruct E as [E1 E2]. constructor; [|eauto]. destruct x; try discriminate. eauto.
Qed.

Lemma x_make_f (R : Type) c m (r : R) ds mc xs : good xa m -> x_make xa c m r ds mc = Ok xs ->
  xs_ct xs = c /\ xs_ds xs = ds /\ xs_cm xs = m /\ xs_min_ct xs = match mc with Some x => x | None => c end /\ dims_pos (dims c) /\
  Forall (fun x => exists z, x = Fin z) (xs_cc xs) /\
  forall sc, exists fs, fim_make ar c m (r, sc) ds mc = Ok fs /\ srel xa xs sc fs /\ xs_min xs = Fin (im_min fs) /\ im_min_ct fs = xs_min_ct xs.
Proof.
  intros [G1 G2] H. unfold x_make in H. set (mct := match mc with Some x => x | None => c end) in *. destruct (base_is_valid c mct ds) eqn:Hb; cbn [negb] in H; [|discriminate].
  assert (DP : dims_pos (dims c) /\ dims_pos (dims mct)).
  { unfold base_is_valid, ctree_is_valid in Hb. rewrite !andb_true_iff in Hb. split; apply dims_ok_pos; tauto. }
  destruct DP as [D1 D2].
  assert (C1 : forall a b e, rel xa (xim_ccost xa m (dims c) a b e) (fim_ccost ar m (dims c) a b e)) by (intros; apply relp_rel, (ccost_rel RO); auto).
  assert (C2 : forall a b e, rel xa (xim_ccost xa m (dims mct) a b e) (fim_ccost ar m (dims mct) a b e)) by (intros; apply relp_rel, (ccost_rel RO); auto).
  pose proof (make_sim RO C1 c) as S1. pose proof (get_cost_sim RO C2 mct) as S2.
  destruct (xcost_cache_make xa (xim_ccost xa m (dims c)) c) as [[ps ks]|] eqn:EM; cbn [bind] in H; [|discriminate]. destruct (fcost_cache_make ar (fim_ccost ar m (dims c)) c) as [k|] eqn:FM; [|destruct S1]. destruct S1 as [SP SK]. cbn [fst snd] in *.
  destruct (hyper_cache_make c) as [h|] eqn:EH; cbn [bind] in H; [|discriminate]. destruct (xget_cost xa (xim_ccost xa m (dims mct)) mct) as [mt|] eqn:EG; cbn [bind] in H; [|discriminate]. destruct (fget_cost ar (fim_ccost ar m (dims mct)) mct) as [fm|] eqn:FG; [|destruct S2].
  set (xs0 := mkXS c ds r mct m ps ks h mt) in *. cbn in S2.
  assert (T0 : forall sc : list (bool * R), sim (rel xa) (x_total xs0) (im_total (mkIM c ds (r, sc) mct m k h fm))). { intros sc. apply (@total_sim xa R xs0 sc). constructor; auto. }
  destruct (x_total xs0) as [tot|] eqn:ET; cbn [bind] in H; [|discriminate]. destruct (has_log2 tot) eqn:L1; cbn [negb orb] in H; [|discriminate]. destruct (has_log2 mt) eqn:L2; cbn [negb] in H; [|discriminate].
  destruct (x_is_valid xa xs0) eqn:EV; [|discriminate]. injection H as <-. cbn [xs0 xs_ct xs_ds xs_cm xs_min_ct xs_min xs_cc]. repeat (split; [reflexivity|]). split; auto.
  unfold x_is_valid in EV. cbn [xs0 xs_ct xs_min_ct xs_ds xs_cm xs_pc xs_cc xs_hyper xs_min] in EV. rewrite EG, EM, EH in EV. rewrite !andb_true_iff in EV. destruct EV as (((V1 & V2) & (V3 & V4)) & V5).
  split; [eapply fin_of; exact V4|]. intros sc. specialize (T0 sc). exists (mkIM c ds (r, sc) mct m k h fm).
  destruct mt as [zm| | |]; try discriminate. destruct S2 as (M0 & Mr & [(ME & Ml)|(ME & _)]); [|discriminate]. injection ME as ->.
  split; [|split; [constructor; auto|split; auto]]. unfold fim_make. fold mct. rewrite Hb. cbn [negb]. rewrite FM. cbn [bind]. rewrite EH. cbn [bind]. rewrite FG. cbn [bind].
  destruct (im_total (mkIM c ds (r, sc) mct m k h fm)) as [ft|]; [|destruct T0]. cbn [bind]. destruct tot as [zt| | |]; try discriminate. destruct T0 as (_ & _ & [(TE & _)|(TE & _)]); [|discriminate]. injection TE as ->.
  cbn in L1, L2. apply Z.ltb_lt in L1, L2. destruct (Z.leb_spec ft 0); [lia|]. destruct (Z.leb_spec fm 0); [lia|]. cbn [orb].
  unfold fim_is_valid. cbn [im_ct im_min_ct im_ds im_cm im_cc im_hyper im_min]. rewrite Hb, FG, FM, EH, V5. rewrite (close_rel SP SP V3), (close_rel SK SK V4). cbn in V2. rewrite V2. reflexivity.
Qed.

(** Every session is simulated. *)
Lemma simulated (R : Type) c m (r : R) ds mc s0 rds : well_formed (nodes c) -> good xa m -> x_make xa c m r ds mc = Ok s0 ->
  exists sc fs0 fs s, fim_make ar c m (r, sc) ds mc = Ok fs0 /\ fim_run ar (map (@scripted R) rds) fs0 = Ok fs /\ x_run xa rds s0 = Ok s /\ srel xa s [] fs.
Proof.
  intros W G H. destruct (x_make_f G H) as (E1 & E2 & E3 & E4 & DP & _ & F). destruct (@run_sim xa RO R rds s0) as (sc & S). destruct (F (sc ++ [])) as (fs0 & FM & SR & _). exists (sc ++ []), fs0.
  destruct (c45_runs W FM (map (@scripted R) rds)) as (fs & FR). rewrite <- E1 in DP. rewrite <- E3 in G. specialize (S [] fs0 DP G SR). rewrite FR in S. destruct (x_run xa rds s0) as [s|]; [|destruct S]. exists fs, s. destruct S as (S & _). auto.
Qed.
Lemma c70_runs (R : Type) c m (r : R) ds mc s0 : well_formed (nodes c) -> good xa m -> x_make xa c m r ds mc = Ok s0 -> forall rds, exists s, x_run xa rds s0 = Ok s.
Proof. intros W G H rds. destruct (simulated rds W G H) as (_ & _ & _ & s & _ & _ & E & _). eauto. Qed.

Lemma x_run_app (R : Type) (a b : list (xrand R)) s s1 : x_run xa a s = Ok s1 -> x_run xa (a ++ b) s = x_run xa b s1.
Proof. revert s. induction a as [|rd a IH]; simpl; intros s H; [congruence|]. apply bind_ok in H. destruct H as (s' & E & H). rewrite E. cbn [bind]. auto. Qed.

(** The best tree *)
Lemma x_loop_min (R : Type) (rd : xrand R) : forall fuel s t B s', x_loop xa rd fuel s t B = Ok s' -> xs_min s' = xs_min s /\ xs_min_ct s' = xs_min_ct s.
Proof.
  induction fuel as [|fuel IH]; intros s t B s' H; cbn [x_loop] in H; [discriminate|]. destruct (x_iter xa rd s t B) as [[s1 nx]|] eqn:E; cbn [bind] in H; [|discriminate].
  assert (X : xs_min s1 = xs_min s /\ xs_min_ct s1 = xs_min_ct s).
  { unfold x_iter in E. apply bind_ok in E. destruct E as ([nn r1] & _ & E). destruct nn as [[[[A C] D] E']|]; [|injection E as <- <-; auto].
    repeat (apply bind_ok in E; destruct E as (? & _ & E)). destruct (xaccept rd r1 _ t) as [acc r2]. apply bind_ok in E. destruct E as ([[[[[c' C'] E''] h'] k'] t'] & _ & E).
    repeat (apply bind_ok in E; destruct E as (? & _ & E)). injection E as <- <-. auto. }
  destruct nx as [[t1 A]|]; [|injection H as <-; auto]. destruct (IH _ _ _ _ H). destruct X. split; congruence.
Qed.
Lemma x_update_best (R : Type) (rd : xrand R) s s' : wfl (nodes (xs_ct s)) -> (1 < length (nodes (xs_ct s)))%nat -> x_update xa rd s = Ok s' ->
  exists t, x_total s' = Ok t /\ (xs_min s' = xs_min s /\ xs_min_ct s' = xs_min_ct s /\ xltb t (xs_min s) = false \/ xs_min s' = t /\ xs_min_ct s' = xs_ct s' /\ xltb t (xs_min s) = true).
Proof.
  intros W L H. unfold x_update in H. destruct (xdraw rd (xs_rng s)) as [x r0]. apply bind_ok in H. destruct H as (n & En & H). destruct (n_leaves_pos W) as (N0 & N1).
  assert (Lx : (x mod n_leaves (nodes (xs_ct s)) < n_leaves (nodes (xs_ct s)))%nat) by (apply Nat.mod_upper_bound; lia). destruct (par n) as [B|] eqn:Ep.
  2:{ exfalso. assert (x mod n_leaves (nodes (xs_ct s)) = length (nodes (xs_ct s)) - 1)%nat. { apply (wl_root W); [lia|]. intros p (q & Hq & Hp). unfold get in En. rewrite Hq in En. congruence. }
      unfold n_leaves in *. assert ((length (nodes (xs_ct s)) + 1) / 2 < length (nodes (xs_ct s)))%nat by (apply Nat.div_lt_upper_bound; lia). lia. }
  apply bind_ok in H. destruct H as (t0 & _ & H). apply bind_ok in H. destruct H as (s1 & El & H). destruct (x_loop_min El) as [M1 M2]. cbn [xwith_rng xs_min xs_min_ct] in *. unfold x_update_min in H. apply bind_ok in H. destruct H as (t & Et & H).
  exists t. rewrite M1 in H. destruct (xltb t (xs_min s)) eqn:C; injection H as <-; (split; [exact Et|]).
  - right. auto.
  - left. auto.
Qed.

(** A state that a session reaches: its tree is well formed, with more than one node, and
    its cost is not NaN. *)
Lemma reached (R : Type) c m (r : R) ds mc s0 rds s : well_formed (nodes c) -> good xa m -> x_make xa c m r ds mc = Ok s0 -> x_run xa rds s0 = Ok s ->
  wfl (nodes (xs_ct s)) /\ (1 < length (nodes (xs_ct s)))%nat /\ exists t z, x_total s = Ok t /\ reports xa t z.
Proof.
  intros W G H Hr. destruct (simulated rds W G H) as (sc & fs0 & fs & s' & FM & FR & E & S). rewrite Hr in E. injection E as <-. apply wf_iff in W.
  destruct (fim_make_inv W FM) as (HI & _ & Ec & _ & _ & _ & _ & _ & _ & T1 & _). destruct (frun_facts W FM FR) as (HI' & _ & _ & P & _). rewrite <- (sr_ct S). pose proof (fv_core HI') as HC'. split; [apply (co_wf HC')|]. split.
  - rewrite (moves_len P), <- Ec. pose proof (fv_core HI) as HC. pose proof (co_wf HC) as W0. pose proof (wl_len W0).
    destruct (Nat.eq_dec (length (nodes (im_ct fs0))) 1) as [E|]; [|lia]. exfalso. destruct (fv_pc HI) as (_ & _ & HPl). unfold ftot in T1. rewrite E in T1. simpl in T1.
    destruct (kids2_or_leaf W0 (v := 0%nat) ltac:(lia)) as [Hlf|(a & b & p & Hn)]; [rewrite HPl in T1 by auto; lia|].
    assert (K : kids2 (nodes (im_ct fs0)) 0 a b) by (exists p; auto). destruct (kids2_lt W0 K) as (L1 & L2 & L3).
    destruct (wl_two W0 Hn) as [(E0 & _)|(a' & b' & E0 & E3 & Hne')]; simpl in *; [discriminate|]. inversion E0; inversion E3; subst. lia.
  - pose proof (total_sim S) as T. rewrite (fim_total_ok HI') in T. destruct (x_total s) as [t|]; [|destruct T]. exists t, (ftot fs). split; auto. apply T.
Qed.

Lemma c70_total (R : Type) q kp c m (r : R) ds mc s0 rds s : (1 <= q)%nat -> accurate q kp ar ->
  well_formed (nodes c) -> cmodel_ok m (n_inds c) -> projs_fit xa m -> x_make xa c m r ds mc = Ok s0 -> x_run xa rds s0 = Ok s ->
  exists T x z, tree_of (nodes (xs_ct s)) T /\ x_total s = Ok x /\ reports xa x z /\
    approx q (2 * (n_inds c + kp + 1) + length (nodes c)) z (tree_cost m (xs_ct s) (n_inds c) no_slices T).
Proof.
  intros Hq Hac W Hm Hp H Hr. assert (G : good xa m) by (split; auto; destruct m; auto; apply Hm). destruct (simulated rds W G H) as (sc & fs0 & fs & s' & FM & FR & E & S). rewrite Hr in E. injection E as <-.
  destruct (c45_total Hq Hac W Hm FM FR) as (T & t & HT & Et & A). pose proof (total_sim S) as TS. rewrite Et in TS. rewrite (sr_ct S) in *. destruct (x_total s) as [x|]; [|destruct TS]. exists T, x, t. split; auto. split; auto. split; auto. apply TS.
Qed.

Lemma c70_best_step (R : Type) c m (r : R) ds mc s0 : well_formed (nodes c) -> good xa m -> x_make xa c m r ds mc = Ok s0 ->
  forall rds s, x_run xa rds s0 = Ok s ->
  exists z, xs_min s = Fin z /\
   (forall rds1 rds2 s1, rds = rds1 ++ rds2 -> x_run xa rds1 s0 = Ok s1 ->
      (exists z1, xs_min s1 = Fin z1 /\ z <= z1) /\ (rds1 <> [] -> forall t, x_total s1 = Ok (Fin t) -> z <= t)) /\
   (xs_min_ct s = xs_min_ct s0 /\ xs_min s = xs_min s0 \/
    exists rds1 rds2 s1, rds = rds1 ++ rds2 /\ rds1 <> [] /\ x_run xa rds1 s0 = Ok s1 /\ xs_min_ct s = xs_ct s1 /\ x_total s1 = Ok (Fin z)).
Proof.
  intros W G H. destruct (x_make_f G H) as (_ & _ & _ & _ & _ & _ & F). destruct (F []) as (fs0 & _ & _ & M0 & _).
  induction rds as [|rd rds IH] using rev_ind; intros s Hr.
  - cbn in Hr. injection Hr as <-. exists (im_min fs0). split; auto. split; [|left; auto]. intros rds1 rds2 s1 E Hr1. symmetry in E. apply app_eq_nil in E. destruct E as [-> ->]. cbn in Hr1. injection Hr1 as <-. split; [exists (im_min fs0); split; auto; lia|congruence].
  - destruct (c70_runs W G H rds) as (sp & Hp). rewrite (x_run_app _ Hp) in Hr. cbn in Hr. apply bind_ok in Hr. destruct Hr as (s' & Eu & Hs). injection Hs as ->. specialize (IH sp Hp). destruct IH as (z & Mz & Hle & Hh).
    destruct (reached W G H Hp) as (Wp & Lp & _). destruct (x_update_best Wp Lp Eu) as (t & Et & C).
    assert (Hfull : x_run xa (rds ++ [rd]) s0 = Ok s) by (rewrite (x_run_app _ Hp); cbn; rewrite Eu; reflexivity).
    assert (SPL : forall rds1 rds2, rds ++ [rd] = rds1 ++ rds2 -> rds1 = rds ++ [rd] /\ rds2 = [] \/ exists l, rds = rds1 ++ l /\ rds2 = l ++ [rd]).
    { intros r1 r2 E. destruct r2 as [|a0 r2'] using rev_ind; [left; rewrite app_nil_r in E; auto|]. right. rewrite app_assoc in E. apply app_inj_tail in E. destruct E as [E1 E2]. subst. eauto. }
    destruct C as [(C1 & C2 & C3)|(C1 & C2 & C3)].
    + exists z. split; [congruence|]. split.
      * intros rds1 rds2 s1 E Hr1. destruct (SPL _ _ E) as [(-> & ->)|(l & -> & ->)].
        -- rewrite Hfull in Hr1. injection Hr1 as <-. split; [exists z; split; [congruence|lia]|]. intros _ t1 Ht1. rewrite Et in Ht1. injection Ht1 as ->. rewrite Mz in C3. cbn in C3. apply Z.ltb_ge in C3. auto.
        -- apply (Hle rds1 l s1 eq_refl Hr1).
      * destruct Hh as [[A1 A2]|(r1 & r2 & s1 & -> & B2 & B3 & B4 & B5)]; [left; split; congruence|]. right. exists r1, (r2 ++ [rd]), s1. rewrite <- app_assoc. split; auto. split; auto. split; auto. split; auto. congruence.
    + rewrite Mz in C3. destruct (reached W G H Hfull) as (_ & _ & t' & z' & Et' & Rt). rewrite Et in Et'. injection Et' as <-. destruct Rt as [(-> & _)|(-> & _)]; [|discriminate]. cbn in C3. apply Z.ltb_lt in C3. exists z'. split; auto. split.
      * intros rds1 rds2 s1 E Hr1. destruct (SPL _ _ E) as [(-> & ->)|(l & -> & ->)].
        -- rewrite Hfull in Hr1. injection Hr1 as <-. split; [exists z'; split; auto; lia|]. intros _ t1 Ht1. rewrite Et in Ht1. injection Ht1 as ->. lia.
        -- destruct (Hle rds1 l s1 eq_refl Hr1) as [(z1 & Y1 & Y2) Y3]. split; [exists z1; split; auto; lia|]. intros Hne t1 Ht1. specialize (Y3 Hne t1 Ht1). lia.
      * right. exists (rds ++ [rd]), [], s. rewrite app_nil_r. split; auto. split; [destruct rds; discriminate|]. split; auto.
Qed.

Lemma good_of m n : cmodel_ok m n -> projs_fit xa m -> good xa m.
Proof. intros Hm Hp. split; auto. destruct m; auto. apply Hm. Qed.

Lemma c70_best (R : Type) q kp c m (r : R) ds mc s0 rds s : (1 <= q)%nat -> accurate q kp ar ->
  let mc' := match mc with Some x => x | None => c end in
  well_formed (nodes c) -> cmodel_ok m (n_inds c) -> cmodel_ok m (n_inds mc') -> projs_fit xa m -> x_make xa c m r ds mc = Ok s0 -> x_run xa rds s0 = Ok s ->
  exists z, xs_min s = Fin z /\
   (forall T, tree_of (nodes (xs_min_ct s)) T ->
      approx q (2 * (n_inds (xs_min_ct s) + kp + 1) + length (nodes (xs_min_ct s))) z (tree_cost m (xs_min_ct s) (n_inds (xs_min_ct s)) no_slices T)) /\
   (forall rds1 rds2 s1, rds = rds1 ++ rds2 -> x_run xa rds1 s0 = Ok s1 ->
      (exists z1, xs_min s1 = Fin z1 /\ z <= z1) /\ (rds1 <> [] -> forall t, x_total s1 = Ok (Fin t) -> z <= t)) /\
   (xs_min_ct s = xs_min_ct s0 /\ xs_min s = xs_min s0 \/
    exists rds1 rds2 s1, rds = rds1 ++ rds2 /\ rds1 <> [] /\ x_run xa rds1 s0 = Ok s1 /\ xs_min_ct s = xs_ct s1 /\ x_total s1 = Ok (Fin z)).
Proof.
  intros Hq Hac mc' W Hm Hm' Hp H Hr. pose proof (good_of Hm Hp) as G. destruct (c70_best_step W G H Hr) as (z & Mz & Hle & Hh). exists z. split; auto. split; [|auto]. intros T HT.
  destruct Hh as [[A1 A2]|(r1 & r2 & s1 & -> & B2 & B3 & B4 & B5)].
  - destruct (x_make_f G H) as (_ & _ & _ & E4 & _ & _ & F). destruct (F []) as (fs0 & FM & _ & M0 & M1). fold mc' in E4. rewrite A1 in *. rewrite A2 in Mz. rewrite M0 in Mz. injection Mz as <-.
    destruct (@c45_min ar q kp Hq Hac _ c m (r, []) ds mc fs0 [] fs0 W FM eq_refl) as (C1 & _). rewrite M1 in C1. apply C1; auto. rewrite E4. auto.
  - destruct (simulated r1 W G H) as (sc & fs0 & fs & s' & FM & FR & E & S). rewrite B3 in E. injection E as <-. destruct (c45_total Hq Hac W Hm FM FR) as (T' & t & HT' & Et & A). pose proof (total_sim S) as TS. rewrite Et, B5 in TS.
    destruct TS as (_ & _ & [(TE & _)|(TE & _)]); [|discriminate]. injection TE as ->. assert (W' : wfl (nodes c)) by (apply wf_iff; auto). destruct (frun_facts W' FM FR) as (HI' & _ & _ & P & _). rewrite (sr_ct S) in *. rewrite B4 in *.
    rewrite (tree_uniq HT HT'). pose proof (fv_core HI') as HC. rewrite (sr_ct S) in HC. rewrite (core_n_inds HC), (moves_len P). auto.
Qed.

Lemma c70_trees (R : Type) c m (r : R) ds mc s0 rds s out : good xa m -> x_make xa c m r ds mc = Ok s0 -> exact_inds c out -> x_run xa rds s0 = Ok s ->
  exact_inds (xs_ct s) out /\ same_problem c (xs_ct s) /\
  ctree_is_valid (xs_ct s) (negb ds) = true /\ ctree_is_valid (xs_min_ct s) (negb ds) = true /\
  (mc = None -> exact_inds (xs_min_ct s) out /\ same_problem c (xs_min_ct s)).
Proof.
  intros G H HX Hr. assert (W : well_formed (nodes c)) by (eapply exact_wf; eauto).
  assert (K : forall rds s, x_run xa rds s0 = Ok s -> exact_inds (xs_ct s) out /\ same_problem c (xs_ct s) /\ ctree_is_valid (xs_ct s) (negb ds) = true).
  { intros l s1 H1. destruct (simulated l W G H) as (sc & fs0 & fs & s' & FM & FR & E & S). rewrite H1 in E. injection E as <-. destruct (c45_trees FM HX FR) as (A & B & C & _). rewrite (sr_ct S) in *. auto. }
  destruct (K _ _ Hr) as (K1 & K2 & K3). split; auto. split; auto. split; auto.
  destruct (c70_best_step W G H Hr) as (z & _ & _ & [[A1 _]|(r1 & r2 & s1 & _ & _ & B3 & B4 & _)]).
  - destruct (x_make_f G H) as (_ & _ & _ & _ & _ & _ & F). destruct (F []) as (fs0 & FM & _ & _ & M1).
    destruct (@c45_trees ar _ c m (r, []) ds mc fs0 [] fs0 out FM HX eq_refl) as (_ & _ & _ & D & E). rewrite A1, <- M1. auto.
  - rewrite B4. destruct (K _ _ B3) as (L1 & L2 & L3). auto.
Qed.

(** ** Acceptance that refuses infinite differences *)
Definition fin (x : xnum) : Prop := exists z, x = Fin z /\ 0 <= z <= xmax xa /\ rnd ar z = z.
Lemma sub_fin u k : 0 <= u <= xmax xa -> 0 <= k <= xmax xa -> rnd ar u = u -> rnd ar k = k -> exists z, xsub xa (Fin u) (Fin k) = Fin z.
Proof.
  intros Hu Hk Ru Rk. cbn. unfold fadd. assert (A1 : - k <= rnd ar (u + - k)). { rewrite <- Rk at 1. rewrite <- (ro_neg RO). apply (ro_mono RO). lia. }
  assert (A2 : rnd ar (u + - k) <= u). { rewrite <- Ru at 2. apply (ro_mono RO). lia. }
  unfold over. destruct (Z.ltb_spec (xmax xa) (rnd ar (u + - k))); [lia|]. destruct (Z.ltb_spec (rnd ar (u + - k)) (- xmax xa)); [lia|]. eauto.
Qed.
Lemma delta_inf u v ka kb : (u = PInf \/ v = PInf) -> fin u \/ u = PInf -> fin v \/ v = PInf -> fin (Fin ka) -> fin (Fin kb) ->
  xadd xa (xsub xa u (Fin kb)) (xsub xa v (Fin ka)) = PInf.
Proof.
  intros H Hu Hv (z1 & E1 & A1 & B1) (z2 & E2 & A2 & B2). injection E1 as <-. injection E2 as <-. destruct Hu as [(zu & -> & Au & Bu)| ->]; destruct Hv as [(zv & -> & Av & Bv)| ->].
  - destruct H; discriminate.
  - destruct (sub_fin Au A2 Bu B2) as (z & ->). reflexivity.
  - destruct (sub_fin Av A1 Bv B1) as (z & ->). reflexivity.
  - reflexivity.
Qed.

Lemma fin_set (l l' : list xnum) i x : Forall fin l -> set l i x = Ok l' -> fin x -> Forall fin l'.
Proof.
  intros H E Hx. destruct (set_inv E) as [_ ->]. clear E. revert i. induction H as [|y l Hy H IH]; intros [|i]; simpl; constructor; auto.
Qed.
Lemma fin_get (l : list xnum) i x : Forall fin l -> get l i = Ok x -> fin x.
Proof. intros H E. unfold get in E. destruct (nth_error l i) eqn:N; [|discriminate]. injection E as ->. apply nth_error_In in N. rewrite Forall_forall in H. auto. Qed.

Definition fins (R : Type) (s : x_state R) : Prop := dims_pos (dims (xs_ct s)) /\ good xa (xs_cm s) /\ Forall fin (xs_cc s).

Lemma iter_fins (R : Type) (rd : xrand R) s t B s' nx : refuses rd -> fins s -> x_iter xa rd s t B = Ok (s', nx) -> fins s'.
Proof.
  intros Hrf (D & G & HF) E. unfold x_iter in E. apply bind_ok in E. destruct E as ([nn r1] & _ & E). destruct nn as [[[[A C] D'] E']|]; [|injection E as <- <-; repeat (split; auto); apply G].
  repeat (apply bind_ok in E; let x := fresh "x" in destruct E as (x & ? & E)).
  match goal with H1 : get (xs_cc s) A = Ok ?a, H2 : get (xs_cc s) B = Ok ?b |- _ => pose proof (fin_get HF H1) as Fa; pose proof (fin_get HF H2) as Fb; destruct Fa as (ka & -> & Ka); destruct Fb as (kb & -> & Kb) end.
  assert (Fa : fin (Fin ka)) by (exists ka; auto). assert (Fb : fin (Fin kb)) by (exists kb; auto).
  match type of E with context [xaccept rd r1 (xadd xa (xsub xa ?u _) (xsub xa ?v _)) t] => set (U := u) in *; set (V := v) in * end.
  assert (HU : fin U \/ U = PInf). { destruct G as [G1 G2]. unfold U. match goal with |- fin (xccost_of _ _ ?a ?b ?e _) \/ _ => destruct (ccost_rel RO a b e D G1 G2) as (Z2 & Z3 & [(Z1 & Z4)|(Z1 & _)]); [left; eexists; split; [exact Z1|split; [lia|auto]]|right; auto] end. }
  assert (HV : fin V \/ V = PInf). { destruct G as [G1 G2]. unfold V. match goal with |- fin (xccost_of _ _ ?a ?b ?e _) \/ _ => destruct (ccost_rel RO a b e D G1 G2) as (Z2 & Z3 & [(Z1 & Z4)|(Z1 & _)]); [left; eexists; split; [exact Z1|split; [lia|auto]]|right; auto] end. }
  destruct (xaccept rd r1 _ t) as [acc r2] eqn:EA.
  assert (HA : acc = true -> fin U /\ fin V).
  { intros ->. destruct HU as [HU|HU], HV as [HV|HV]; auto; exfalso; rewrite (@delta_inf U V ka kb ltac:(auto) ltac:(auto) ltac:(auto) Fa Fb) in EA; pose proof (Hrf r1 t) as R1; rewrite EA in R1; discriminate. }
  apply bind_ok in E. destruct E as ([[[[[c' C'] E''] h'] k'] t'] & X & E).
  repeat (apply bind_ok in E; let x := fresh "y" in destruct E as (x & ? & E)). injection E as <- <-. unfold fins. cbn [xs_ct xs_cm xs_cc].
  destruct acc.
  - destruct (HA eq_refl) as (FU & FV). repeat (apply bind_ok in X; let x := fresh "w" in destruct X as (x & ? & X)). injection X as <- <- <- <- <- <-. cbn [dims]. split; auto. split; auto.
    eapply fin_set; [|eassumption|exact FV]. eapply fin_set; [|eassumption|exact FU]. auto.
  - injection X as <- <- <- <- <- <-. auto.
Qed.
Lemma loop_fins (R : Type) (rd : xrand R) : refuses rd -> forall fuel s t B s', fins s -> x_loop xa rd fuel s t B = Ok s' -> fins s'.
Proof.
  intros Hrf. induction fuel as [|fuel IH]; intros s t B s' HF H; cbn [x_loop] in H; [discriminate|]. destruct (x_iter xa rd s t B) as [[s1 nx]|] eqn:E; cbn [bind] in H; [|discriminate].
  pose proof (iter_fins Hrf HF E). destruct nx as [[t1 A]|]; [eauto|injection H as <-; auto].
Qed.
Lemma run_fins (R : Type) : forall (rds : list (xrand R)) s s', (forall rd, In rd rds -> refuses rd) -> fins s -> x_run xa rds s = Ok s' -> fins s'.
Proof.
  induction rds as [|rd rds IH]; intros s s' Hrf HF H; cbn in H; [injection H as <-; auto|]. apply bind_ok in H. destruct H as (s1 & E & H). apply (IH s1 s'); auto; [intros; apply Hrf; simpl; auto|].
  unfold x_update in E. destruct (xdraw rd (xs_rng s)) as [x r0]. apply bind_ok in E. destruct E as (n & _ & E). destruct (par n) as [B|]; [|injection E as <-; exact HF].
  apply bind_ok in E. destruct E as (t & _ & E). apply bind_ok in E. destruct E as (s2 & El & E). assert (F2 : fins s2) by (eapply loop_fins; [apply Hrf; simpl; auto| |exact El]; exact HF).
  unfold x_update_min in E. apply bind_ok in E. destruct E as (t1 & _ & E). destruct (xltb t1 (xs_min s2)); injection E as <-; exact F2.
Qed.

Lemma step_cost_code m c n v a b p : core (nodes c) (inds c) n -> cmodel_ok m n -> nth_error (nodes c) v = Some (mkNode (Some a) (Some b) p) ->
  ccost_of m (nth v (inds c) []) (nth a (inds c) []) (nth b (inds c) []) (dims c) = step_cost m c n no_slices a b.
Proof.
  intros HC Hm Hn. assert (K : kids2 (nodes c) v a b) by (exists p; auto).
  destruct (kids2_lt (co_wf HC) K) as (L1 & L2 & L3).
  pose proof (co_sz HC L1) as S1. pose proof (co_sz HC L2) as S2. pose proof (co_sz HC L3) as S3.
  change (nth v (inds c) []) with (ix (inds c) v). change (nth a (inds c) []) with (ix (inds c) a).
  change (nth b (inds c) []) with (ix (inds c) b).
  rewrite (ccost_prod _ _ Hm S1 S2). pose proof (co_loc HC K) as HL. unfold step_cost, no_slices.
  assert (E : forall i, btest (ix (inds c) v) i || btest (ix (inds c) a) i =
                        carries c a i || carries c b i || false).
  { intros i. specialize (HL i). unfold carries. change (nth i (nth a (inds c) []) false) with (btest (ix (inds c) a) i).
    change (nth i (nth b (inds c) []) false) with (btest (ix (inds c) b) i).
    destruct (btest (ix (inds c) v) i), (btest (ix (inds c) a) i), (btest (ix (inds c) b) i); simpl in *; intuition congruence. }
  destruct m as [|sp np]; [|f_equal; [|f_equal]]; apply prod_over_ext; intros i Hi; rewrite E; auto.
Qed.

Lemma c70_steps (R : Type) q kp c m (r : R) ds mc s0 rds s : (1 <= q)%nat -> accurate q kp ar ->
  well_formed (nodes c) -> cmodel_ok m (n_inds c) -> projs_fit xa m -> x_make xa c m r ds mc = Ok s0 -> x_run xa rds s0 = Ok s ->
  (forall rd, In rd rds -> refuses rd) ->
  forall v a b p, nth_error (nodes (xs_ct s)) v = Some (mkNode (Some a) (Some b) p) ->
  exists z, z <= xmax xa /\ approx q (2 * (n_inds c + kp + 1)) z (step_cost m (xs_ct s) (n_inds c) no_slices a b).
Proof.
  intros Hq Hac W Hm Hp H Hr Hrf v a b p Hn. pose proof (good_of Hm Hp) as G. destruct (x_make_f G H) as (E1 & _ & E3 & _ & D & HF & FF).
  assert (F0 : fins s0). { unfold fins. rewrite E1, E3. split; auto. split; auto. destruct (FF []) as (fs1 & _ & S1 & _). pose proof (sr_cc S1) as F2. clear - F2 HF. induction F2 as [|x y l l' Rxy F2 IH]; constructor; inversion HF as [|? ? (z & E) HF']; subst; auto. destruct Rxy as (R1 & R2 & [(X & Y)|(X & _)]); [|discriminate]. injection X as ->. exists y. auto. } destruct (run_fins Hrf F0 Hr) as (_ & _ & FS).
  destruct (simulated rds W G H) as (sc & fs0 & fs & s' & FM & FR & E & S). rewrite Hr in E. injection E as <-. assert (W' : wfl (nodes c)) by (apply wf_iff; auto). destruct (frun_facts W' FM FR) as (HI & Em & _ & _ & _).
  pose proof (fv_core HI) as HC. pose proof (fv_cc HI) as (CL & CK & _). rewrite (sr_ct S) in *. rewrite Em in CK. destruct (steps_close Hq Hac HC Hm Hn) as [A _]. rewrite (step_cost_code HC Hm Hn) in A.
  assert (K : kids2 (nodes (xs_ct s)) v a b) by (exists p; auto). rewrite <- (CK _ _ _ K) in A. eexists. split; [|exact A].
  assert (L : (v < length (nodes (xs_ct s)))%nat) by (apply nth_error_Some; congruence). rewrite <- CL in L. pose proof (sr_cc S) as F2. clear - F2 FS L. unfold zx. revert v L FS.
  induction F2 as [|x y l l' Rxy F2 IH]; intros [|v] L FS; simpl in *; try lia; inversion FS as [|? ? (zx & -> & _) FS']; subst; [|apply IH; auto; lia].
  destruct Rxy as (_ & _ & [(X & Y)|(X & _)]); [|discriminate]. lia.
Qed.

Lemma c70_not_valid (R : Type) (s : x_state R) x : x_total s = Ok x -> (forall z, x <> Fin z) -> x_is_valid xa s = false.
Proof.
  intros Ht Hx. destruct (x_is_valid xa s) eqn:V; auto. exfalso. unfold x_is_valid in V. rewrite !andb_true_iff in V. destruct V as ((_ & V) & _). destruct (xcost_cache_make _ _ _) as [[ps ks]|]; [|discriminate]. apply andb_true_iff in V. destruct V as [V _].
  pose proof (fin_of V) as F. rewrite Forall_forall in F. unfold x_total, back, get in Ht. destruct (nth_error _ _) eqn:N in Ht; [|discriminate]. injection Ht as ->. apply nth_error_In in N. destruct (F _ N) as (z & ->). eapply Hx. reflexivity.
Qed.
End Main.
