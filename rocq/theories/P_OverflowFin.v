(** Simulation of the finite-width optimizer of M_OverflowFin by the one of M_FinFloat. *)
From Coq Require Import List Arith ZArith Lia Bool Permutation.
Import ListNotations.
From Verif Require Import M_Base M_Bitset M_Tree M_CTree M_Cost M_Opt M_InfMem M_FinWidth M_Float M_FinFloat M_Overflow M_OverflowFin
  S_Tree S_Opt S_Float S_FinWidth S_FinFloat S_Overflow S_OverflowFin.
From Verif Require Import P_Base P_Bitset P_Tree P_Shape P_TreeProps P_TreeValid P_Opt P_OptCost P_InfMem P_Canon P_Cost P_InfMemMain P_InfMemFinal
  P_FinWidth P_FinWidthOpt P_FinWidthMain P_FinFloat P_FinFloatRun P_FinFloatMain P_Overflow P_OverflowMain.
Set Implicit Arguments.
Unset Strict Implicit.
Local Open Scope Z_scope.

Section Sim.
Variables (xa : xarith) (wa : warith).
Hypothesis RO : range_ok xa.
Notation ar := (xr xa).
Notation rel := (rel xa).

Definition sfr {R} (fr : xfrand R) : frand (R * list (bool * R)) :=
  mkFR (scripted (xf_base fr)) (fun s l => let '(p, r) := xf_shuffle fr (fst s) l in (p, (r, snd s))).
Lemma sfr_shuffles {R} (fr : xfrand R) : xshuffles fr -> shuffles (sfr fr).
Proof. intros H [r sc] l. cbn. specialize (H r l). destruct (xf_shuffle fr r l). exact H. Qed.
Lemma only_shuffles {R} (fr : xfrand R) : xshuffles fr -> shuffles (only_shuffle fr).
Proof. intros H r l. exact (H r l). Qed.

Lemma radd_scripted {R} (rd : xrand R) d mw sc : forall k pos np sl w r,
  radd_slices wa (scripted rd) d mw k pos np sl w (r, sc) = let! (x, r') := radd_slices wa (only_draw rd) d mw k pos np sl w r in Ok (x, (r', sc)).
Proof.
  induction k as [|k IH]; intros pos np sl w r; cbn [radd_slices]; [reflexivity|]. destruct (mw <? w); [|reflexivity]. destruct (np =? 0)%nat; [reflexivity|].
  cbn [scripted only_draw draw fst snd]. destruct (xdraw rd r) as [x r']. destruct (get pos (x mod np)) as [a|]; cbn [bind]; [|reflexivity]. destruct (get pos (np - 1)) as [b|]; cbn [bind]; [|reflexivity].
  destruct (set pos (x mod np) b) as [p1|]; cbn [bind]; [|reflexivity]. destruct (set p1 (np - 1) a) as [p2|]; cbn [bind]; [|reflexivity]. apply IH.
Qed.

Lemma get_slices_scripted {R} (fr : xfrand R) m c skip sc w r :
  rget_slices wa m (sfr fr) c skip (r, sc) w = let! (sl, r1) := rget_slices wa m (only_shuffle fr) c skip r w in Ok (sl, (r1, sc)).
Proof.
  unfold rget_slices. destruct (traverse (nodes c)) as [order|]; cbn [bind]; [|reflexivity]. generalize (bempty (n_inds c)) as sl. revert r.
  induction order as [|v order IH]; intros r sl; cbn [fold_res]; [reflexivity|].
  assert (E : rslice_visit wa m (sfr fr) c skip w (sl, (r, sc)) v = let! (x, r1) := rslice_visit wa m (only_shuffle fr) c skip w (sl, r) v in Ok (x, (r1, sc))).
  { unfold rslice_visit. destruct (get w v) as [wv|]; cbn [bind]; [|reflexivity]. destruct (fm_max m <? wv); [|reflexivity]. destruct (get (inds c) v) as [xs|]; cbn [bind]; [|reflexivity].
    destruct (fm_max m <? _); [|reflexivity]. cbn [sfr only_shuffle shuffle fst snd]. destruct (xf_shuffle fr r _) as [p r']. reflexivity. }
  rewrite E. destruct (rslice_visit wa m (only_shuffle fr) c skip w (sl, r) v) as [[x r1]|]; cbn [bind]; [apply IH|reflexivity].
Qed.

Lemma fcost_rel m a b c d sl : dims_pos d -> good xa (fm_cm m) -> rel (xfcost_of xa m a b c d sl) (rfcost_of ar m a b c d sl).
Proof.
  intros D (G1 & G2). apply relp_rel. exact (@ccost_rel xa RO (fm_cm m) (bor a b) sl c d D G1 G2).
Qed.

(** The same tree, slices and caches, up to the range; neither the generators nor the best
    trees are compared. *)
Record frel {R R'} (xs : xf_state R) (fs : fw_state R') : Prop := {
  fe_ct : fw_ct fs = xf_ct xs; fe_ds : fw_ds fs = xf_ds xs; fe_m : fw_m fs = xf_m xs; fe_new : fw_maxnew fs = xf_maxnew xs;
  fe_width : fw_width fs = xf_width xs; fe_skip : fw_skip fs = xf_skip xs; fe_sl : fw_sl fs = xf_sl xs;
  fe_pc : Forall2 rel (xf_pc xs) (pcost (fw_cc fs)); fe_cc : Forall2 rel (xf_cc xs) (ccost (fw_cc fs)); fe_hyper : fw_hyper fs = xf_hyper xs }.

Lemma prop_sim p q k l A B C D E : Forall2 rel p q -> Forall2 rel k l -> sim (Forall2 rel) (xpropagate xa p k A B C D E) (rpropagate ar q l A B C D E).
Proof.
  intros P K. unfold xpropagate, rpropagate.
  eapply sim_bind; [apply get_sim; exact P|]. intros pD qD R1. eapply sim_bind; [apply get_sim; exact P|]. intros pE qE R2. eapply sim_bind; [apply get_sim; exact K|]. intros wB vB R3.
  eapply sim_bind; [apply set_sim; [exact P|apply (add_rel RO); auto; apply (add_rel RO); auto]|]. intros p1 q1 RP.
  eapply sim_bind; [apply get_sim; exact RP|]. intros pB qB R4. eapply sim_bind; [apply get_sim; exact RP|]. intros pC qC R5. eapply sim_bind; [apply get_sim; exact K|]. intros wA vA R6.
  apply set_sim; [exact RP|]. apply (add_rel RO); auto; apply (add_rel RO); auto.
Qed.

Lemma fback_sim p q : Forall2 rel p q -> sim rel (back p) (back q).
Proof. intros P. unfold back. rewrite (F2_len P). apply get_sim, P. Qed.

(** What is decided in an iteration *)
Definition fdecision {R} (fr : xfrand R) (s : xf_state R) (total : xnum) (pos_B : nat) : res (bool * R) :=
  let rd := xf_base fr in
  let c := xf_ct s in
  let m := xf_m s in
  let! (nn, r1) := get_ctree_nn (only_draw rd) c (xf_ds s) (xf_rng s) (Some pos_B) in
  match nn with
  | None => Err Throw
  | Some (pos_A, pos_C, pos_D, pos_E) =>
      let! inds_A := get (inds c) pos_A in
      let! inds_B := get (inds c) pos_B in
      let! inds_C := get (inds c) pos_C in
      let! inds_D := get (inds c) pos_D in
      let! inds_E := get (inds c) pos_E in
      let! hyper_A := get (xf_hyper s) pos_A in
      let! hyper_B := get (xf_hyper s) pos_B in
      let new_B := bor (bor (bxor inds_D inds_C) hyper_A) hyper_B in
      let! _ := get (xf_width s) pos_B in
      let sliced_B := bdiff new_B (xf_sl s) in
      let sw_B := rwidth_of wa m sliced_B (dims c) in
      let! ccost_A := get (xf_cc s) pos_A in
      let! ccost_B := get (xf_cc s) pos_B in
      if sw_B <=? fm_max m then
        let new_ccost_A := xfcost_of xa m inds_A new_B inds_E (dims c) (xf_sl s) in
        let new_ccost_B := xfcost_of xa m new_B inds_D inds_C (dims c) (xf_sl s) in
        let delta := xadd xa (xsub xa new_ccost_B ccost_B) (xsub xa new_ccost_A ccost_A) in
        Ok (xaccept rd r1 delta total)
      else if (0 <? xf_maxnew s)%nat then
        let pos := bpositions (minus_skip sliced_B (xf_skip s)) in
        let! (new_sl, w, r2) := radd_slices wa (only_draw rd) (dims c) (fm_max m) (xf_maxnew s) pos (length pos) (xf_sl s) sw_B r1 in
        if w <=? fm_max m then
          let! inds' := set (inds c) pos_B new_B in
          let! t' := swap_nn (nodes c) pos_E in
          let! (ps, ks) := xcost_cache_make xa (xfw_ccost xa m (dims c) new_sl) (mkCT t' inds' (dims c)) in
          let! new_total := back ps in
          Ok (xaccept rd r2 (xsub xa new_total total) total)
        else Err Throw
      else Err Throw
  end.

Definition xenv {R} (x xs : xf_state R) : Prop :=
  dims (xf_ct x) = dims (xf_ct xs) /\ xf_m x = xf_m xs /\ xf_min x = xf_min xs /\ xf_min_ct x = xf_min_ct xs /\ xf_min_sl x = xf_min_sl xs.

Lemma fiter_sim {R} (fr : xfrand R) xs total B tail fs ftotal :
  dims_pos (dims (xf_ct xs)) -> good xa (fm_cm (xf_m xs)) -> frel xs fs -> fw_rng fs = (xf_rng xs, line (fdecision fr xs total B) ++ tail) ->
  sim (fun x f => frel (fst x) (fst f) /\ fw_rng (fst f) = (xf_rng (fst x), tail) /\ xenv (fst x) xs /\
         match snd x, snd f with None, None => True | Some (_, A), Some (_, A') => A = A' | _, _ => False end)
    (xf_iter xa wa fr xs total B) (rfw_iter ar wa (sfr fr) fs ftotal B).
Proof.
  intros DP GM [E1 E2 E3 E4 E5 E6 E7 P K E8] ER. unfold xf_iter, rfw_iter, fdecision in *. cbv zeta in *. cbn [sfr fr_base].
  rewrite E1, E2, E3, E4, E5, E6, E7, E8, ER in *. rewrite nn_scripted.
  destruct (get_ctree_nn (only_draw (xf_base fr)) (xf_ct xs) (xf_ds xs) (xf_rng xs) (Some B)) as [[nn r1]|e] eqn:EN; cbn [bind]; [|reflexivity].
  destruct nn as [[[[A C] D] E]|]; cbn [bind line app] in *.
  2:{ split; [constructor; auto|]. cbn. split; auto. split; [repeat split; auto|auto]. }
  destruct (get (inds (xf_ct xs)) A) as [iA|]; cbn [bind]; [|reflexivity]. destruct (get (inds (xf_ct xs)) B) as [iB|]; cbn [bind]; [|reflexivity].
  destruct (get (inds (xf_ct xs)) C) as [iC|]; cbn [bind]; [|reflexivity]. destruct (get (inds (xf_ct xs)) D) as [iD|]; cbn [bind]; [|reflexivity]. destruct (get (inds (xf_ct xs)) E) as [iE|]; cbn [bind]; [|reflexivity].
  destruct (get (xf_hyper xs) A) as [hA|]; cbn [bind]; [|reflexivity]. destruct (get (xf_hyper xs) B) as [hB|]; cbn [bind]; [|reflexivity].
  destruct (get (xf_width xs) B) as [wB|]; cbn [bind]; [|reflexivity].
  pose proof (get_sim A K) as GA. destruct (get (xf_cc xs) A) as [kA|], (get (ccost (fw_cc fs)) A) as [zA|]; cbn [bind sim] in *; try contradiction; auto.
  pose proof (get_sim B K) as GB. destruct (get (xf_cc xs) B) as [kB|], (get (ccost (fw_cc fs)) B) as [zB|]; cbn [bind sim] in *; try contradiction; auto.
  set (nb := bor (bor (bxor iD iC) hA) hB) in *.
  assert (STAY : forall r sc', sim (fun x f => frel (fst x) (fst f) /\ fw_rng (fst f) = (xf_rng (fst x), sc') /\ xenv (fst x) xs /\
         match snd x, snd f with None, None => True | Some (_, A), Some (_, A') => A = A' | _, _ => False end)
    (let! p := xpropagate xa (xf_pc xs) (xf_cc xs) A B C D E in Ok (xf_set xs (xf_ct xs) r (xf_width xs) (xf_sl xs) p (xf_cc xs) (xf_hyper xs), Some (total, A)))
    (let! p := rpropagate ar (pcost (fw_cc fs)) (ccost (fw_cc fs)) A B C D E in Ok (fw_set fs (xf_ct xs) (r, sc') (xf_width xs) (xf_sl xs) (mkCC p (ccost (fw_cc fs))) (xf_hyper xs), Some (ftotal, A)))).
  { intros r sc'. eapply sim_bind; [apply prop_sim; [exact P|exact K]|]. intros p q RP. cbn. split; [constructor; auto|]. split; auto. split; [repeat split; auto|auto]. }
  set (sw := rwidth_of wa (xf_m xs) (bdiff nb (xf_sl xs)) (dims (xf_ct xs))) in *.
  destruct (sw <=? fm_max (xf_m xs)).
  - pose proof (@fcost_rel (xf_m xs) iA nb iE (dims (xf_ct xs)) (xf_sl xs) DP GM) as RA. pose proof (@fcost_rel (xf_m xs) nb iD iC (dims (xf_ct xs)) (xf_sl xs) DP GM) as RB.
    cbn [line app]. destruct (xaccept (xf_base fr) r1 _ total) as [acc r2]. cbn [scripted accept fst snd]. destruct acc; [|apply STAY].
    do 4 (apply sim_same; intros ? _). eapply sim_bind; [apply set_sim; [exact K|exact RB]|]. intros k1 k2 R1. eapply sim_bind; [apply set_sim; [exact R1|exact RA]|]. intros k3 k4 R2.
    apply sim_same; intros wd _. eapply sim_bind; [apply prop_sim; [exact P|exact R2]|]. intros p q RP. cbn. split; [constructor; auto|]. split; auto. split; [repeat split; auto|auto].
  - destruct (0 <? xf_maxnew xs)%nat; [|cbn [line app]; apply STAY]. rewrite radd_scripted.
    destruct (radd_slices wa (only_draw (xf_base fr)) _ _ _ _ _ _ _ r1) as [[[nsl w] r2]|]; cbn [bind]; [|reflexivity].
    destruct (w <=? fm_max (xf_m xs)); [|cbn [line app]; apply STAY].
    destruct (set (inds (xf_ct xs)) B nb) as [inds'|] eqn:SI; cbn [bind]; [|reflexivity]. destruct (swap_nn (nodes (xf_ct xs)) E) as [t'|] eqn:SW; cbn [bind]; [|reflexivity].
    assert (CR : forall a b c, rel (xfw_ccost xa (xf_m xs) (dims (xf_ct xs)) nsl a b c) (rfw_ccost ar (xf_m xs) (dims (xf_ct xs)) nsl a b c)) by (intros; apply fcost_rel; auto).
    pose proof (make_sim RO CR (mkCT t' inds' (dims (xf_ct xs)))) as MS.
    destruct (xcost_cache_make xa (xfw_ccost xa (xf_m xs) (dims (xf_ct xs)) nsl) (mkCT t' inds' (dims (xf_ct xs)))) as [[ps ks]|], (fcost_cache_make ar (rfw_ccost ar (xf_m xs) (dims (xf_ct xs)) nsl) (mkCT t' inds' (dims (xf_ct xs)))) as [k|]; cbn [bind sim] in *; try contradiction; auto.
    destruct MS as (MP & MK). cbn [fst snd] in MP, MK. pose proof (fback_sim MP) as BS. destruct (back ps) as [nt|], (back (pcost k)) as [nz|]; cbn [bind sim] in *; try contradiction; auto.
    cbn [line app]. destruct (xaccept (xf_base fr) r2 _ total) as [acc r3]. cbn [scripted accept fst snd]. destruct acc.
    + do 3 (apply sim_same; intros ? _). cbn. split; [constructor; auto|]. split; auto. split; [repeat split; auto|auto].
    + do 2 (apply sim_same; intros ? _). eapply sim_bind; [apply prop_sim; [exact P|exact K]|]. intros p q RP. cbn. split; [constructor; auto|]. split; auto. split; [repeat split; auto|auto].
Qed.

Lemma sim_weaken {A B} (P Q : A -> B -> Prop) x y : (forall a b, P a b -> Q a b) -> sim P x y -> sim Q x y.
Proof. intros H. destruct x, y; cbn; auto. Qed.

(** Contraction costs that are finite numbers. *)
Definition small (l : list Z) : Prop := Forall (fun z => z <= xmax xa) l.
Lemma small_set l l' i x : small l -> set l i x = Ok l' -> x <= xmax xa -> small l'.
Proof.
  intros H E Hx. destruct (set_inv E) as [_ ->]. clear E. revert i. induction H as [|y l Hy H IH]; intros [|i]; simpl; constructor; auto; apply IH.
Qed.
Lemma acc_small U V u v kA kB : rel U u -> rel V v ->
  let d := xadd xa (xsub xa U kB) (xsub xa V kA) in ~ (d = PInf \/ d = NaN) -> u <= xmax xa /\ v <= xmax xa.
Proof.
  intros (_ & _ & [(-> & H1)|(-> & _)]) (_ & _ & [(-> & H2)|(-> & _)]); cbv zeta; auto; intros H; exfalso; apply H.
  - generalize (xsub xa (Fin u) kB) as y. intros y. destruct kA, y; cbn; auto.
  - generalize (xsub xa (Fin v) kA) as y. intros y. destruct kB, y; cbn; auto.
  - generalize (xsub xa PInf kA) as y. intros y. destruct kB, y; cbn; auto.
Qed.
Lemma add_ge a b : 0 <= a -> 0 <= b -> rnd ar a = a -> a <= fadd ar a b.
Proof. intros A B E. unfold fadd. rewrite <- E at 1. apply (ro_mono RO). lia. Qed.
Lemma psum_ge k x y z : 0 <= k -> 0 <= x -> 0 <= y -> rnd ar k = k -> rnd ar x = x -> rnd ar y = y -> P_FloatRun.psum ar k x y z -> k <= z /\ x <= z /\ y <= z.
Proof.
  assert (G : forall a b e, 0 <= a -> 0 <= b -> 0 <= e -> rnd ar a = a -> rnd ar b = b -> rnd ar e = e -> a <= fadd ar (fadd ar a b) e /\ b <= fadd ar (fadd ar a b) e /\ e <= fadd ar (fadd ar a b) e).
  { intros a b e A B E Ra Rb Re. pose proof (add_ge A B Ra). pose proof (add_ge B A Rb) as H1. assert (H2 : fadd ar b a = fadd ar a b) by (unfold fadd; f_equal; lia). rewrite H2 in H1.
    assert (R : rnd ar (fadd ar a b) = fadd ar a b) by apply (ro_idem RO). pose proof (add_ge (a := fadd ar a b) (b := e) ltac:(lia) E R).
    pose proof (add_ge (a := e) (b := fadd ar a b) E ltac:(lia) Re) as H3. assert (H4 : fadd ar e (fadd ar a b) = fadd ar (fadd ar a b) e) by (unfold fadd; f_equal; lia). lia. }
  intros K X Y Rk Rx Ry [->|[->| ->]]; [pose proof (G x y k)|pose proof (G k x y)|pose proof (G k y x)]; intuition.
Qed.
Lemma F2_zx (l : list xnum) (k : list Z) i : Forall2 rel l k -> 0 <= zx k i /\ rnd ar (zx k i) = zx k i.
Proof.
  intros H. unfold zx. revert i. induction H as [|x z l k (H1 & H2 & _) H IH]; intros [|i]; cbn; auto; split; try lia; apply (ro_0 RO).
Qed.
(** A finite total: every contraction cost is a finite number. *)
Lemma total_small_of f c n k ps ks nz nt :
  core (nodes c) (inds c) n -> Forall2 rel ps (pcost k) -> Forall2 rel ks (ccost k) ->
  ccost_ok f (nodes c) (inds c) (ccost k) -> P_FloatRun.fpcost_ok ar (nodes c) (ccost k) (pcost k) none ->
  back (pcost k) = Ok nz -> rel nt nz -> nt <> PInf -> small (ccost k).
Proof.
  intros HC MP MK HK HP Eb Rt Hn. assert (Hz : nz <= xmax xa) by (destruct Rt as (_ & _ & [(_ & H)|(H & _)]); [exact H|contradiction]). pose proof (co_wf HC) as W.
  destruct HP as (LP & HPk & HPl). rewrite (@back_nth (nodes c) (pcost k) LP (wl_len W)) in Eb. injection Eb as Eb.
  assert (UP : forall v j, climb (nodes c) v j -> zx (pcost k) v <= xmax xa).
  { intros v j H. induction H as [v Hv Hr|v p j Hp _ IH].
    - apply (wl_root W Hv) in Hr. subst v. lia.
    - pose proof (parent_lt W Hp) as Lp. apply (wl_kp W) in Hp. destruct (wfl_node W Lp) as [(q & Lf)|(a & b & K)]; [destruct Hp as (nd & Hnd & Hk); rewrite Lf in Hnd; injection Hnd as <-; destruct Hk; discriminate|].
      assert (Ho : v = a \/ v = b) by (destruct K as (q & [Hq|Hq]); destruct Hp as (nd & Hnd & Hk); rewrite Hq in Hnd; injection Hnd as <-; cbn in Hk; destruct Hk as [Hk|Hk]; injection Hk as ->; auto).
      pose proof (HPk _ _ _ K (fun H => H)) as PS. destruct (F2_zx p MK), (F2_zx a MP), (F2_zx b MP). apply psum_ge in PS; auto. destruct Ho; subst; lia. }
  destruct HK as (LK & HKk & HKl). apply Forall_forall. intros z Hz'. destruct (In_nth _ _ 0 Hz') as (v & Lv & Ev). rewrite LK in Lv. rewrite <- Ev. rewrite zx_nth.
  destruct (climb_ex W Lv) as (j & Hj). specialize (UP v j Hj). destruct (wfl_node W Lv) as [L|(a & b & K)].
  - rewrite (HKl v L). pose proof (ro_max RO). pose proof (@M_le xa). lia.
  - pose proof (HPk _ _ _ K (fun H => H)) as PS. destruct (F2_zx v MK), (F2_zx a MP), (F2_zx b MP). apply psum_ge in PS; auto. lia.
Qed.
Lemma total_small m d sl c n k ps ks nz nt :
  core (nodes c) (inds c) n -> fcost_cache_make ar (rfw_ccost ar m d sl) c = Ok k -> Forall2 rel ps (pcost k) -> Forall2 rel ks (ccost k) ->
  back (pcost k) = Ok nz -> rel nt nz -> nt <> PInf -> small (ccost k).
Proof.
  intros HC Ek MP MK Eb Rt Hn. destruct (@rcache_ex ar m d sl c n HC) as (k' & Ek' & HK & HP). rewrite Ek in Ek'. injection Ek' as <-.
  eapply total_small_of; eauto.
Qed.

Lemma iter_small {R} (fr : xfrand R) xs total B tail fs ftotal n w xs1 nx fs1 nf :
  dims_pos (dims (xf_ct xs)) -> good xa (fm_cm (xf_m xs)) -> frel xs fs -> fw_rng fs = (xf_rng xs, line (fdecision fr xs total B) ++ tail) ->
  xrefuses fr -> small (ccost (fw_cc fs)) ->
  xf_iter xa wa fr xs total B = Ok (xs1, nx) -> rfw_iter ar wa (sfr fr) fs ftotal B = Ok (fs1, nf) -> rfinv ar wa fs1 n w -> small (ccost (fw_cc fs1)).
Proof.
  intros DP GM [E1 E2 E3 E4 E5 E6 E7 P K E8] ER RF SM EX EF HI. unfold xf_iter, rfw_iter, fdecision in *. cbv zeta in *. cbn [sfr fr_base] in *.
  rewrite E1, E2, E3, E4, E5, E6, E7, E8, ER in *. rewrite nn_scripted in EF.
  destruct (get_ctree_nn (only_draw (xf_base fr)) (xf_ct xs) (xf_ds xs) (xf_rng xs) (Some B)) as [[nn r1]|e] eqn:EN; cbn [bind] in *; [|discriminate].
  destruct nn as [[[[A C] D] E]|]; cbn [bind line app] in *.
  2:{ injection EF as <- <-. exact SM. }
  destruct (get (inds (xf_ct xs)) A) as [iA|]; cbn [bind] in *; [|discriminate]. destruct (get (inds (xf_ct xs)) B) as [iB|]; cbn [bind] in *; [|discriminate].
  destruct (get (inds (xf_ct xs)) C) as [iC|]; cbn [bind] in *; [|discriminate]. destruct (get (inds (xf_ct xs)) D) as [iD|]; cbn [bind] in *; [|discriminate]. destruct (get (inds (xf_ct xs)) E) as [iE|]; cbn [bind] in *; [|discriminate].
  destruct (get (xf_hyper xs) A) as [hA|]; cbn [bind] in *; [|discriminate]. destruct (get (xf_hyper xs) B) as [hB|]; cbn [bind] in *; [|discriminate].
  destruct (get (xf_width xs) B) as [wB|]; cbn [bind] in *; [|discriminate].
  destruct (get (xf_cc xs) A) as [kA|], (get (ccost (fw_cc fs)) A) as [zA|]; cbn [bind] in *; try discriminate.
  destruct (get (xf_cc xs) B) as [kB|], (get (ccost (fw_cc fs)) B) as [zB|]; cbn [bind] in *; try discriminate.
  set (nb := bor (bor (bxor iD iC) hA) hB) in *.
  set (sw := rwidth_of wa (xf_m xs) (bdiff nb (xf_sl xs)) (dims (xf_ct xs))) in *.
  assert (STAY : forall r sc', (let! p := rpropagate ar (pcost (fw_cc fs)) (ccost (fw_cc fs)) A B C D E in Ok (fw_set fs (xf_ct xs) (r, sc') (xf_width xs) (xf_sl xs) (mkCC p (ccost (fw_cc fs))) (xf_hyper xs), Some (ftotal, A))) = Ok (fs1, nf) -> small (ccost (fw_cc fs1))).
  { intros r sc' H. apply bind_ok in H. destruct H as (p & _ & H). injection H as <- <-. exact SM. }
  destruct (sw <=? fm_max (xf_m xs)).
  - pose proof (@fcost_rel (xf_m xs) iA nb iE (dims (xf_ct xs)) (xf_sl xs) DP GM) as RA. pose proof (@fcost_rel (xf_m xs) nb iD iC (dims (xf_ct xs)) (xf_sl xs) DP GM) as RB.
    cbn [line app] in *. destruct (xaccept (xf_base fr) r1 _ total) as [acc r2] eqn:EA. cbn [scripted accept fst snd line app] in EF. destruct acc; [|eapply STAY; exact EF].
    destruct (@acc_small _ _ _ _ kA kB RB RA) as (LB & LA). { intros HD. pose proof (RF r1 _ total HD) as HR. rewrite EA in HR. discriminate. }
    do 4 (apply bind_ok in EF; destruct EF as (? & _ & EF)). apply bind_ok in EF; destruct EF as (k1 & EK1 & EF). apply bind_ok in EF; destruct EF as (k2 & EK2 & EF). do 2 (apply bind_ok in EF; destruct EF as (? & _ & EF)). injection EF as <- <-. cbn.
    eapply small_set; [|exact EK2|exact LA]. eapply small_set; [exact SM|exact EK1|exact LB].
  - destruct (0 <? xf_maxnew xs)%nat; [|cbn [line app] in *; eapply STAY; exact EF]. rewrite radd_scripted in EF.
    destruct (radd_slices wa (only_draw (xf_base fr)) _ _ _ _ _ _ _ r1) as [[[nsl w0] r2]|]; cbn [bind] in *; [|discriminate].
    destruct (w0 <=? fm_max (xf_m xs)); [|cbn [line app] in *; eapply STAY; exact EF].
    destruct (set (inds (xf_ct xs)) B nb) as [inds'|] eqn:SI; cbn [bind] in *; [|discriminate]. destruct (swap_nn (nodes (xf_ct xs)) E) as [t'|] eqn:SW; cbn [bind] in *; [|discriminate].
    assert (CR : forall a b c, rel (xfw_ccost xa (xf_m xs) (dims (xf_ct xs)) nsl a b c) (rfw_ccost ar (xf_m xs) (dims (xf_ct xs)) nsl a b c)) by (intros; apply fcost_rel; auto).
    pose proof (make_sim RO CR (mkCT t' inds' (dims (xf_ct xs)))) as MS.
    destruct (xcost_cache_make xa (xfw_ccost xa (xf_m xs) (dims (xf_ct xs)) nsl) (mkCT t' inds' (dims (xf_ct xs)))) as [[ps ks]|], (fcost_cache_make ar (rfw_ccost ar (xf_m xs) (dims (xf_ct xs)) nsl) (mkCT t' inds' (dims (xf_ct xs)))) as [k|] eqn:EKK; cbn [bind sim] in *; try contradiction; try discriminate.
    destruct MS as (MP & MK). cbn [fst snd] in MP, MK. pose proof (fback_sim MP) as BS. destruct (back ps) as [nt|], (back (pcost k)) as [nz|] eqn:EB; cbn [bind sim] in *; try contradiction; try discriminate.
    cbn [line app] in *. destruct (xaccept (xf_base fr) r2 _ total) as [acc r3] eqn:EA. cbn [scripted accept fst snd line app] in EF. destruct acc.
    + do 3 (apply bind_ok in EF; destruct EF as (? & _ & EF)). injection EF as <- <-. pose proof (rv_core HI) as HC. cbn [fw_set fw_ct fw_cc] in *. eapply total_small; [exact HC|exact EKK|exact MP|exact MK|exact EB|exact BS|].
      intros ->. assert (HD : xsub xa PInf total = PInf \/ xsub xa PInf total = NaN) by (destruct total; cbn; auto). pose proof (RF r2 _ total HD) as HR. rewrite EA in HR. discriminate.
    + do 2 (apply bind_ok in EF; destruct EF as (? & _ & EF)). apply bind_ok in EF; destruct EF as (p & _ & EF). injection EF as <- <-. exact SM.
Qed.

Lemma floop_sim {R} (fr : xfrand R) : forall fuel xs total B, exists sc, forall tail fs ftotal,
  dims_pos (dims (xf_ct xs)) -> good xa (fm_cm (xf_m xs)) -> frel xs fs -> fw_rng fs = (xf_rng xs, sc ++ tail) ->
  sim (fun x f => frel x f /\ fw_rng f = (xf_rng x, tail) /\ xenv x xs /\
      (forall n, rfinv ar wa fs n (fun v => parent (nodes (fw_ct fs)) B v) -> (B < length (nodes (fw_ct fs)))%nat ->
         xrefuses fr -> small (ccost (fw_cc fs)) -> small (ccost (fw_cc f))))
    (xf_loop xa wa fr fuel xs total B) (rfw_loop ar wa (sfr fr) fuel fs ftotal B).
Proof.
  induction fuel as [|fuel IH]; intros xs total B; [exists []; intros; reflexivity|]. cbn [xf_loop rfw_loop].
  destruct (xf_iter xa wa fr xs total B) as [[xs1 nxt]|e] eqn:EX.
  - destruct nxt as [[t1 A]|].
    + destruct (IH xs1 t1 A) as (sc & H). exists (line (fdecision fr xs total B) ++ sc). intros tail fs ftotal DP GM FR RG. rewrite <- app_assoc in RG. pose proof (fiter_sim ftotal DP GM FR RG) as S. rewrite EX in S.
      destruct (rfw_iter ar wa (sfr fr) fs ftotal B) as [[fs1 nf]|] eqn:EF; [|destruct S]. destruct S as (S1 & S2 & S3 & S4). cbn [fst snd bind] in *. destruct nf as [[tf Af]|]; [|destruct S4]. subst Af.
      specialize (H tail fs1 tf). destruct S3 as (V1 & V2 & V3 & V4 & V5). unfold xenv in H |- *. rewrite V1, V2, V3, V4, V5 in H. specialize (H DP GM S1 S2).
      eapply sim_weaken; [|exact H]. cbn beta. intros x f (K1 & K2 & K3 & K4). split; [exact K1|]. split; [exact K2|]. split; [exact K3|]. intros n HI LB RF SM.
      destruct (@rfw_iter_spec ar wa _ (sfr fr) fs n ftotal B HI LB) as [(r & Q & _)|[(Q & _)|(s' & tt & AA & Q & Q1 & Q2 & Q3 & _)]]; rewrite EF in Q; try discriminate. injection Q as <- <- <-.
      apply (K4 n); auto. { apply (parent_lt (co_wf (rv_core Q3)) Q2). } eapply iter_small; [exact DP|exact GM|exact FR|exact RG|exact RF|exact SM|exact EX|exact EF|exact Q3].
    + exists (line (fdecision fr xs total B)). intros tail fs ftotal DP GM FR RG. pose proof (fiter_sim ftotal DP GM FR RG) as S. rewrite EX in S.
      destruct (rfw_iter ar wa (sfr fr) fs ftotal B) as [[fs1 nf]|] eqn:EF; [|destruct S]. destruct S as (S1 & S2 & S3 & S4). cbn [fst snd bind] in *. destruct nf as [[tf Af]|]; [destruct S4|]. cbn. split; [exact S1|]. split; [exact S2|]. split; [exact S3|].
      intros n HI LB RF SM. destruct (@rfw_iter_spec ar wa _ (sfr fr) fs n ftotal B HI LB) as [(r & Q & _)|[(Q & _)|(s' & tt & AA & Q & _)]]; rewrite EF in Q; try discriminate. injection Q as ->. exact SM.
  - exists (line (fdecision fr xs total B)). intros tail fs ftotal DP GM FR RG. pose proof (fiter_sim ftotal DP GM FR RG) as S. rewrite EX in S. destruct (rfw_iter ar wa (sfr fr) fs ftotal B) as [|]; [destruct S|]. cbn in *. exact S.
Qed.

Lemma ftotal_sim {R R'} (xs : xf_state R) (fs : fw_state R') : frel xs fs -> sim rel (xf_total xs) (fw_total fs).
Proof. intros S. apply fback_sim, S. Qed.
Lemma ftotal_rel {R R'} (xs : xf_state R) (fs : fw_state R') n w : frel xs fs -> rfinv ar wa fs n w -> exists t, xf_total xs = Ok t /\ rel t (rtot fs).
Proof. intros S HI. pose proof (ftotal_sim S) as T. rewrite (rtotal_ok HI) in T. destruct (xf_total xs) as [t|]; [|destruct T]. eauto. Qed.
End Sim.
