(** The finite-width optimizer: one iteration, one update, a session. *)
From Coq Require Import Permutation Relations.
From Verif Require Import M_Base M_Bitset M_Tree M_CTree M_Cost M_Opt M_InfMem M_FinWidth S_Tree S_Opt S_FinWidth
  P_Base P_Bitset P_Tree P_Shape P_TreeProps P_TreeValid P_Opt P_OptCost P_InfMem P_Canon P_Cost P_InfMemMain P_FinWidth.
Set Implicit Arguments.
Unset Strict Implicit.

Lemma fw_ucost m d sl : ucost (fw_ccost m d sl).
Proof. intros a b c a' b' c' H. unfold fw_ccost, fcost_of. destruct (fm_cm m); rewrite H; auto. Qed.

(** ** Choosing random new slices *)
Lemma upd_perm (A : Type) (l : list A) : forall i a b, nth_error l i = Some a -> Permutation (a :: upd l i b) (b :: l).
Proof.
  induction l as [|x l IH]; intros [|i] a b H; simpl in *; try discriminate.
  - inversion H; subst. apply perm_swap.
  - eapply perm_trans; [apply perm_swap|]. eapply perm_trans; [apply perm_skip; apply IH; eauto|]. apply perm_swap.
Qed.

Lemma firstn_upd_lt (A : Type) (l : list A) : forall k i x, i < k -> firstn k (upd l i x) = upd (firstn k l) i x.
Proof.
  induction l as [|y l IH]; intros [|k] [|i] x H; simpl; auto; try lia. f_equal. apply IH. lia.
Qed.
Lemma firstn_upd_ge (A : Type) (l : list A) : forall k i x, k <= i -> firstn k (upd l i x) = firstn k l.
Proof.
  induction l as [|y l IH]; intros [|k] [|i] x H; simpl; auto; try lia. f_equal. apply IH. lia.
Qed.
Lemma firstn_last (A : Type) (l : list A) : forall k b, nth_error l k = Some b -> firstn (S k) l = firstn k l ++ [b].
Proof.
  induction l as [|y l IH]; intros [|k] b H; simpl in *; try discriminate.
  - congruence.
  - f_equal. apply IH. auto.
Qed.
Lemma nth_error_firstn (A : Type) (l : list A) : forall k i, i < k -> nth_error (firstn k l) i = nth_error l i.
Proof. induction l as [|y l IH]; intros [|k] [|i] H; simpl; auto; try lia. apply IH. lia. Qed.

Lemma swap_live (A : Type) (l : list A) np i a b : 0 < np -> i < np -> nth_error l i = Some a -> nth_error l (np - 1) = Some b ->
  Permutation (a :: firstn (np - 1) (upd (upd l i b) (np - 1) a)) (firstn np l).
Proof.
  intros H0 Hi Ha Hb. rewrite firstn_upd_ge by lia.
  replace np with (S (np - 1)) at 2 by lia. rewrite (firstn_last Hb).
  destruct (Nat.eq_dec i (np - 1)) as [E|E].
  - rewrite E in *. assert (a = b) by congruence. subst b. rewrite firstn_upd_ge by lia. apply Permutation_cons_append.
  - rewrite firstn_upd_lt by lia. eapply perm_trans; [apply upd_perm; rewrite nth_error_firstn by lia; exact Ha|].
    apply Permutation_cons_append.
Qed.

Section AddSlices.
  Variables (R : Type) (lg : N -> Z) (rd : rand R) (m : fmodel) (d : dims_t) (n : nat) (skip : option bitset) (nb : bitset).
  Hypotheses (Hm : cmodel_ok (fm_cm m) n) (Hl : log_like lg) (Hd : dims_positive d) (Lnb : length nb = n).

  Definition wide (sl : bitset) : Z := width_of lg m (bdiff nb sl) d.

  Lemma wide_set sl x : length sl = n -> x < n -> btest nb x = true -> btest sl x = false ->
    (wide sl - lg_at lg d x <= wide (bset sl x))%Z /\
    (fm_cm m = Simple -> wide (bset sl x) = (wide sl - lg_at lg d x)%Z).
  Proof.
    intros Ls Hx Hb Hs. change (lg_at lg d x) with (log_dim lg d x). unfold wide.
    assert (Lb : length (bset sl x) = n) by (unfold bset; rewrite upd_length; auto).
    rewrite !(@width_spec lg m _ d n) by (auto; rewrite bdiff_len; congruence).
    assert (E : set_width lg (fm_cm m) d n (mem (bdiff nb sl)) =
      set_width lg (fm_cm m) d n (fun i => (x =? i) || mem (bdiff nb (bset sl x)) i)).
    { apply set_width_ext. intros i Hi. unfold mem. fold (btest (bdiff nb sl) i) (btest (bdiff nb (bset sl x)) i).
      rewrite !bdiff_test by congruence. rewrite bset_test by lia.
      destruct (Nat.eqb_spec x i) as [<-|]; simpl; auto. rewrite Hb, Hs. auto. }
    assert (Hf : mem (bdiff nb (bset sl x)) x = false).
    { unfold mem. fold (btest (bdiff nb (bset sl x)) x). rewrite bdiff_test by congruence. rewrite bset_test by lia.
      rewrite Nat.eqb_refl. simpl. apply andb_false_r. }
    rewrite E. split.
    - pose proof (@set_width_add_le lg (fm_cm m) d n _ x Hl Hd Hx Hf). lia.
    - intros Hs'. pose proof (@set_width_add lg (fm_cm m) d n _ x Hl Hd Hx Hf) as HA. rewrite Hs' in *. lia.
  Qed.

  Lemma add_slices_ok : forall k pos np sl w (r : R), np <= length pos -> NoDup (firstn np pos) -> length sl = n ->
    (forall x, In x (firstn np pos) <-> btest nb x = true /\ btest sl x = false /\ omem skip x = false) ->
    (w <= wide sl)%Z -> (fm_cm m = Simple -> w = wide sl) ->
    (add_slices lg rd d (fm_max m) k pos np sl w r = Err Crash /\ 0 < k /\
       (fm_max m < set_width lg (fm_cm m) d n (fun x => mem nb x && omem skip x))%Z) \/
    exists sl' w' r', add_slices lg rd d (fm_max m) k pos np sl w r = Ok (sl', w', r') /\ length sl' = n /\
      (forall x, btest sl x = true -> btest sl' x = true) /\
      (forall x, btest sl' x = true -> btest sl x = true \/ omem skip x = false) /\
      (fm_cm m = Simple -> w' = wide sl').
  Proof.
    induction k as [|k IH]; intros pos np sl w r Hnp Hnd Ls Hlive Hw Hw'; cbn [add_slices].
    - right. exists sl, w, r. repeat split; auto.
    - destruct (Z.ltb_spec (fm_max m) w) as [Hgt|Hle].
      2:{ right. exists sl, w, r. repeat split; auto. }
      destruct (Nat.eqb_spec np 0) as [E0|E0].
      + left. split; auto. split; [lia|]. subst np. simpl in Hlive. eapply Z.lt_le_trans; [exact Hgt|].
        eapply Z.le_trans; [exact Hw|]. unfold wide. rewrite (@width_spec lg m _ d n) by (auto; rewrite bdiff_len; congruence).
        apply set_width_mono; auto. intros i Hi Hb. unfold mem in Hb. fold (btest (bdiff nb sl) i) in Hb.
        rewrite bdiff_test in Hb by congruence. apply andb_true_iff in Hb. destruct Hb as (Hb1 & Hb2).
        change (mem nb i) with (btest nb i). rewrite Hb1. simpl. destruct (omem skip i) eqn:Hk; auto. exfalso.
        apply (Hlive i). apply negb_true_iff in Hb2. auto.
      + destruct (draw rd r) as (x & r').
        assert (Hi : x mod np < np) by (apply Nat.mod_upper_bound; lia). set (i := x mod np) in *.
        destruct (@get_lt _ pos i ltac:(lia)) as (a & Ea & Na). destruct (@get_lt _ pos (np - 1) ltac:(lia)) as (b & Eb & Nb).
        rewrite Ea. cbn [bind]. rewrite Eb. cbn [bind].
        rewrite set_ok by lia. cbn [bind]. rewrite set_ok by (rewrite upd_length; lia). cbn [bind].
        pose proof (swap_live (np := np) (i := i) ltac:(lia) Hi Na Nb) as HP.
        set (pos2 := upd (upd pos i b) (np - 1) a) in *.
        assert (Hnd2 : NoDup (a :: firstn (np - 1) pos2)).
        { eapply Permutation_NoDup; [apply Permutation_sym; exact HP|auto]. }
        assert (Ha : btest nb a = true /\ btest sl a = false /\ omem skip a = false).
        { apply Hlive. apply (Permutation_in a HP). simpl. auto. }
        destruct Ha as (Ha1 & Ha2 & Ha3). assert (Han : a < n) by (rewrite <- Lnb; apply btest_lt; auto).
        destruct (wide_set Ls Han Ha1 Ha2) as (Hle1 & Heq1).
        assert (Lb : length (bset sl a) = n) by (unfold bset; rewrite upd_length; auto).
        inversion Hnd2 as [|? ? Hni Hnd3]; subst x0 l.
        destruct (IH pos2 (np - 1) (bset sl a) (w - lg_at lg d a)%Z r') as [(E & Hk & Hc)|(sl' & w' & r2 & E & L' & H1 & H2 & H3)].
        * unfold pos2. rewrite !upd_length. lia.
        * exact Hnd3.
        * exact Lb.
        * intros y. rewrite bset_test by lia. rewrite orb_false_iff. split.
          -- intros Hy. assert (In y (firstn np pos)) as Hy' by (apply (Permutation_in y HP); simpl; auto).
             apply Hlive in Hy'. destruct Hy' as (G1 & G2 & G3). repeat split; auto.
             apply Nat.eqb_neq. intros ->. contradiction.
          -- intros (G1 & (G2 & G3) & G4). assert (In y (firstn np pos)) as Hy' by (apply Hlive; auto).
             apply (Permutation_in y (Permutation_sym HP)) in Hy'. destruct Hy' as [->|Hy']; auto.
             rewrite Nat.eqb_refl in G2. discriminate.
        * lia.
        * intros Hs. rewrite (Heq1 Hs), (Hw' Hs). auto.
        * left. split; [exact E|]. split; [lia|auto].
        * right. exists sl', w', r2. split; auto. split; auto. split; [|split]; auto.
          -- intros y Hy. apply H1. rewrite bset_test by lia. rewrite Hy. apply orb_true_r.
          -- intros y Hy. destruct (H2 y Hy) as [Hb|Hb]; auto. rewrite bset_test in Hb by lia.
             rewrite orb_true_iff, Nat.eqb_eq in Hb. destruct Hb as [->|Hb]; auto.
  Qed.
End AddSlices.

(** ** Caches *)
Lemma back_total cc t xs n ks ps : core t xs n -> ccost_ok cc t xs ks -> pcost_ok t ks ps none -> back ps = Ok (sumZ ks).
Proof.
  intros HC HK HP. unfold back.
  destruct (wfl_tree_of (co_wf HC)) as (T & HT). pose proof HT as (HU & _ & Htop & _).
  pose proof (wl_len (co_wf HC)) as L0. pose proof HP as (LP & _).
  rewrite (@get_nth _ _ _ 0%Z) by lia. f_equal. rewrite zx_nth, LP, <- Htop.
  rewrite (pcost_bt HU HP) by auto. destruct HK as (LK & HKk & HKl).
  apply (bt_cost_total HT); auto.
Qed.

Lemma cache_ex m d sl c n : core (nodes c) (inds c) n ->
  exists k, cost_cache_make (fw_ccost m d sl) c = Ok k /\
    ccost_ok (fw_ccost m d sl) (nodes c) (inds c) (ccost k) /\ pcost_ok (nodes c) (ccost k) (pcost k) none.
Proof.
  intros HC. destruct (ccost_exists (fw_ucost m d sl) HC) as (ks & HK). destruct (pcost_exists ks (co_wf HC)) as (ps & HP).
  exists (mkCC ps ks). split; [apply (cost_cache_ok HC HK HP)|]. auto.
Qed.

Lemma propagate_ok (t : tree) p ks A B C D E : length p = length t -> length ks = length t ->
  A < length t -> B < length t -> C < length t -> D < length t -> E < length t ->
  let p1 := upd p B (zx p D + zx p E + zx ks B)%Z in
  propagate p ks A B C D E = Ok (upd p1 A (zx p1 B + zx p1 C + zx ks A)%Z).
Proof.
  intros Lp Lk LA LB LC LD LE p1. unfold propagate.
  rewrite (@get_nth _ p D 0%Z), (@get_nth _ p E 0%Z) by lia. cbn [bind].
  rewrite (@get_nth _ ks B 0%Z) by lia. cbn [bind].
  rewrite set_ok by lia. cbn [bind]. rewrite !zx_nth. fold p1.
  assert (L1 : length p1 = length t) by (unfold p1; rewrite upd_length; auto).
  rewrite (@get_nth _ p1 B 0%Z), (@get_nth _ p1 C 0%Z), (@get_nth _ ks A 0%Z) by lia. cbn [bind].
  rewrite set_ok by lia. rewrite !zx_nth. auto.
Qed.

(** ** State invariant *)
Definition skip_len (skip : option bitset) (n : nat) : Prop := match skip with Some k => length k = n | None => True end.

Record finv (R : Type) (lg : N -> Z) (s : fw_state R) (n : nat) (w : nat -> Prop) : Prop := {
  fv_core  : core (nodes (fw_ct s)) (inds (fw_ct s)) n;
  fv_hyper : hyper_ok (nodes (fw_ct s)) (inds (fw_ct s)) (fw_hyper s) n;
  fv_cc    : ccost_ok (fw_ccost (fw_m s) (dims (fw_ct s)) (fw_sl s)) (nodes (fw_ct s)) (inds (fw_ct s)) (ccost (fw_cc s));
  fv_pc    : pcost_ok (nodes (fw_ct s)) (ccost (fw_cc s)) (pcost (fw_cc s)) w;
  fv_width : fw_width s = width_cache_make lg (fw_m s) (fw_ct s);
  fv_sl    : length (fw_sl s) = n;
  fv_skip  : skip_len (fw_skip s) n;
  fv_m     : cmodel_ok (fm_cm (fw_m s)) n;
  fv_dims  : dims_positive (dims (fw_ct s))
}.

Definition same_fenv (R : Type) (s s' : fw_state R) : Prop :=
  fw_ds s' = fw_ds s /\ fw_min_ct s' = fw_min_ct s /\ fw_m s' = fw_m s /\ fw_maxnew s' = fw_maxnew s /\
  fw_skip s' = fw_skip s /\ fw_min_sl s' = fw_min_sl s /\ fw_min s' = fw_min s.

Definition disj (R : Type) (s : fw_state R) : Prop := forall x, btest (fw_sl s) x = true -> omem (fw_skip s) x = false.
Definition fitted (R : Type) (lg : N -> Z) (s : fw_state R) : Prop := forall v, v < length (inds (fw_ct s)) ->
  (width_of lg (fw_m s) (bdiff (ix (inds (fw_ct s)) v) (fw_sl s)) (dims (fw_ct s)) <= fm_max (fw_m s))%Z.
Definition fits_kept (R : Type) (s : fw_state R) : Prop := fm_cm (fw_m s) = Simple \/ fw_maxnew s = 0.
(** The undefined modulo may be reached. *)
Definition may_crash (R : Type) (lg : N -> Z) (s : fw_state R) (n : nat) : Prop :=
  0 < fw_maxnew s /\ (fm_max (fw_m s) < set_width lg (fm_cm (fw_m s)) (dims (fw_ct s)) n (omem (fw_skip s)))%Z.
Definition ftot (R : Type) (s : fw_state R) : Z := sumZ (ccost (fw_cc s)).

Lemma upd_nth_d (A : Type) (l : list A) (i j : nat) (x dflt : A) : i < length l -> nth j (upd l i x) dflt = if i =? j then x else nth j l dflt.
Proof.
  intros Hi. destruct (Nat.eqb_spec i j) as [<-|Hn].
  - apply nth_error_nth. apply upd_eq. auto.
  - destruct (nth_error l j) as [y|] eqn:Hy.
    + rewrite (@nth_error_nth _ _ j y dflt) by (rewrite upd_neq; auto). symmetry. apply nth_error_nth. auto.
    + rewrite !nth_overflow; auto; [|rewrite upd_length]; apply nth_error_None; auto.
Qed.

Lemma map_upd (A B : Type) (f : A -> B) l : forall i x, map f (upd l i x) = upd (map f l) i (f x).
Proof. induction l as [|y l IH]; intros [|i] x; simpl; auto. f_equal. auto. Qed.

Lemma finv_rng (R : Type) lg (s : fw_state R) n w r :
  finv lg s n w -> finv lg (fw_set s (fw_ct s) r (fw_width s) (fw_sl s) (fw_cc s) (fw_hyper s)) n w.
Proof. intros []. constructor; auto. Qed.
Lemma finv_weaken (R : Type) lg (s : fw_state R) n (w w' : nat -> Prop) : finv lg s n w -> (forall v, w v -> w' v) -> finv lg s n w'.
Proof. intros [H1 H2 H3 (L & H4 & H5)] Hw. constructor; auto. split; [auto|split; auto]. Qed.

Lemma fw_total_ok (R : Type) lg (s : fw_state R) n : finv lg s n none -> fw_total s = Ok (ftot s).
Proof. intros HI. apply (back_total (fv_core HI) (fv_cc HI) (fv_pc HI)). Qed.

Lemma fw_iter_spec (R : Type) lg (fr : frand R) (s : fw_state R) n total B : log_like lg ->
  finv lg s n (fun v => parent (nodes (fw_ct s)) B v) -> B < length (nodes (fw_ct s)) ->
  total = ftot s ->
  (exists r, fw_iter lg fr s total B = Ok (fw_set s (fw_ct s) r (fw_width s) (fw_sl s) (fw_cc s) (fw_hyper s), None) /\
     (leaf_at (nodes (fw_ct s)) B \/ forall p, ~ parent (nodes (fw_ct s)) B p)) \/
  (fw_iter lg fr s total B = Err Crash /\ may_crash lg s n) \/
  (exists s' total' A, fw_iter lg fr s total B = Ok (s', Some (total', A)) /\
     parent (nodes (fw_ct s)) B A /\ parent (nodes (fw_ct s')) B A /\
     finv lg s' n (fun v => parent (nodes (fw_ct s')) A v) /\ same_fenv s s' /\
     total' = ftot s' /\
     (forall k, climb (nodes (fw_ct s)) A k -> climb (nodes (fw_ct s')) A k) /\
     (disj s -> disj s') /\ (fits_kept s -> fitted lg s -> fitted lg s') /\
     ((fw_ct s' = fw_ct s /\ total' = total) \/
      (move (fw_ds s) (fw_ct s) (fw_ct s') /\ allowed (fr_base fr) total total'))).
Proof.
  intros Hlog [HC HH HK HP HW Lsl Lsk Hcm Hd] LB Ht. pose proof (co_wf HC) as W. pose proof (co_len HC) as LX.
  pose proof HH as (LH & HHk & HHl). pose proof HK as (LK & HKk & HKl). pose proof HP as (LP & HPk & HPl).
  assert (LW : length (fw_width s) = length (nodes (fw_ct s))) by (rewrite HW; unfold width_cache_make; rewrite map_length; auto).
  destruct (nn_spec (fr_base fr) (fw_ds s) (fw_rng s) HC LB)
    as [(r' & E0 & Hb)|(r' & sA & sE & A & C & D & E & pA & nC & nD & nE & E0 & H & Hs)].
  { left. unfold fw_iter. rewrite E0. simpl. eauto. }
  right. destruct (nbh_lt H) as (LA & _ & LC & LD & LE).
  destruct (nbh_neq H) as (n1&n2&n3&n4&n5&n6&n7&n8&n9&n10).
  unfold fw_iter. rewrite E0. cbv beta iota zeta. cbn [bind].
  rewrite (@get_nth _ (inds (fw_ct s)) A []), (@get_nth _ (inds (fw_ct s)) B []), (@get_nth _ (inds (fw_ct s)) C []),
    (@get_nth _ (inds (fw_ct s)) D []), (@get_nth _ (inds (fw_ct s)) E []) by lia.
  rewrite (@get_nth _ (fw_hyper s) A []), (@get_nth _ (fw_hyper s) B []) by lia.
  rewrite (@get_nth _ (fw_width s) B 0%Z) by lia.
  rewrite (@get_nth _ (ccost (fw_cc s)) A 0%Z), (@get_nth _ (ccost (fw_cc s)) B 0%Z) by lia.
  rewrite !ix_nth, !zx_nth. cbn [bind].
  rewrite (HHk _ _ _ (nbh_kids2A H)), (HHk _ _ _ (nbh_kids2B H)).
  set (XA := ix (inds (fw_ct s)) A). set (XB := ix (inds (fw_ct s)) B). set (XC := ix (inds (fw_ct s)) C).
  set (XD := ix (inds (fw_ct s)) D). set (XE := ix (inds (fw_ct s)) E).
  fold (newB XA XB XC XD XE). set (nb := newB XA XB XC XD XE).
  set (nw := width_of lg (fw_m s) nb (dims (fw_ct s))).
  set (snb := bdiff nb (fw_sl s)). set (sw := width_of lg (fw_m s) snb (dims (fw_ct s))).
  set (kA' := fcost_of (fw_m s) XA nb XE (dims (fw_ct s)) (fw_sl s)).
  set (kB' := fcost_of (fw_m s) nb XD XC (dims (fw_ct s)) (fw_sl s)).
  set (delta := (kB' - zx (ccost (fw_cc s)) B + (kA' - zx (ccost (fw_cc s)) A))%Z).
  assert (PB : parent (nodes (fw_ct s)) B A).
  { apply (wl_kp W). apply (nbh_kidA H). auto. }
  assert (Hw : forall v, v <> A -> ~ parent (nodes (fw_ct s)) B v).
  { intros v Hv Hp. apply Hv. eapply parent_fun; eauto. }
  pose proof (rot_core' H HC) as HC'. pose proof (rot_hyper H HC HH) as HH'.
  fold XA XB XC XD XE in HC', HH'. fold nb in HC', HH'.
  set (t' := rot (nodes (fw_ct s)) sA sE A B C D E pA nC nE) in *.
  assert (Lt' : length t' = length (nodes (fw_ct s))) by (unfold t'; apply rot_length).
  assert (Lnb : length nb = n).
  { pose proof (co_sz HC' (v := B)) as Hsz. unfold ix in Hsz. rewrite upd_nth_d in Hsz by lia. rewrite Nat.eqb_refl in Hsz.
    apply Hsz. rewrite Lt'. auto. }
  pose proof (rot_nbh H) as H'. fold t' in H'.
  assert (PB' : parent t' B A). { apply (wl_kp (co_wf HC')). apply (nbh_kidA H'). auto. }
  assert (Hcl : forall k, climb (nodes (fw_ct s)) A k -> climb t' A k) by (intros k Hk; apply (climb_rot W H Hk)).
  assert (Hmove : move (fw_ds s) (fw_ct s) (mkCT t' (upd (inds (fw_ct s)) B nb) (dims (fw_ct s)))).
  { exists sA, sE, A, B, C, D, E, pA, nC, nD, nE. auto. }
  (* nothing accepted *)
  assert (Hstay : forall r, exists p,
    propagate (pcost (fw_cc s)) (ccost (fw_cc s)) A B C D E = Ok p /\
    finv lg (fw_set s (fw_ct s) r (fw_width s) (fw_sl s) (mkCC p (ccost (fw_cc s))) (fw_hyper s)) n
      (fun v => parent (nodes (fw_ct s)) A v)).
  { intros r. eexists. split; [apply (propagate_ok LP LK); auto|].
    constructor; simpl; auto. apply (pcost_step H W); auto. }
  assert (Hwd : upd (fw_width s) B nw =
    width_cache_make lg (fw_m s) (mkCT t' (upd (inds (fw_ct s)) B nb) (dims (fw_ct s)))).
  { unfold width_cache_make. simpl. rewrite map_upd, HW. auto. }
  assert (Hfit : forall sl', length sl' = n -> (forall x, btest (fw_sl s) x = true -> btest sl' x = true) ->
    fitted lg s -> (width_of lg (fw_m s) (bdiff nb sl') (dims (fw_ct s)) <= fm_max (fw_m s))%Z ->
    forall v, v < length (upd (inds (fw_ct s)) B nb) ->
      (width_of lg (fw_m s) (bdiff (ix (upd (inds (fw_ct s)) B nb) v) sl') (dims (fw_ct s)) <= fm_max (fw_m s))%Z).
  { intros sl' Ls' Hin Hf Hnb v Hv. rewrite upd_length in Hv. unfold ix. rewrite upd_nth_d by lia.
    destruct (Nat.eqb_spec B v) as [<-|Hn]; auto. eapply Z.le_trans; [|apply (Hf v Hv)].
    pose proof (co_sz HC (v := v) ltac:(lia)) as Lv. unfold ix in Lv |- *. unfold bitset in *.
    apply (width_mono (n := n) Hcm Hlog Hd); try (rewrite bdiff_len; congruence).
    intros i. rewrite !bdiff_test by congruence. rewrite !andb_true_iff, !negb_true_iff. intros (G1 & G2). split; auto.
    destruct (btest (fw_sl s) i) eqn:Hb; auto. rewrite (Hin i Hb) in G2. discriminate. }
  destruct (Z.leb_spec sw (fm_max (fw_m s))) as [Hle|Hgt].
  - (* fits *)
    right. destruct (accept (fr_base fr) r' delta total) as (acc & r2) eqn:Eacc. destruct acc.
    2:{ destruct (Hstay r2) as (p & -> & HI'). cbn [bind]. eexists _, _, A. split; [reflexivity|].
        split; [exact PB|]. split; [exact PB|]. split; [exact HI'|]. split; [repeat split; auto|].
        split; [exact Ht|]. simpl. split; auto. }
    rewrite (swap_nbh H). fold t'. cbn [bind].
    repeat (rewrite !set_ok by (rewrite ?upd_length; lia); cbn [bind]).
    set (ks' := upd (upd (ccost (fw_cc s)) B kB') A kA').
    assert (Lk' : length ks' = length (nodes (fw_ct s))) by (unfold ks'; rewrite !upd_length; auto).
    rewrite (@propagate_ok (nodes (fw_ct s)) (pcost (fw_cc s)) ks' A B E D C) by auto. cbn [bind].
    eexists _, _, A. split; [reflexivity|]. split; [exact PB|]. split; [exact PB'|].
    pose proof (rot_ccost H HC (fw_ucost (fw_m s) (dims (fw_ct s)) (fw_sl s)) HK) as HK'.
    fold t' XA XB XC XD XE in HK'. fold nb in HK'.
    split.
    { constructor; simpl; auto.
      apply (pcost_step H' (co_wf HC')); try (rewrite Lt'; auto).
      - intros v a b K vA vB. apply (rot_kids2 a b H vA vB) in K.
        unfold ks'. rewrite !zx_upd_neq by auto. apply HPk; auto.
      - intros v Hv. apply (rot_leaf _ H) in Hv. auto. }
    split. { repeat split; auto. }
    assert (Esum : sumZ ks' = (total + delta)%Z).
    { unfold ks'. rewrite zx_sum_upd by (rewrite upd_length; lia). rewrite zx_upd_neq by auto.
      rewrite zx_sum_upd by lia. unfold delta. rewrite Ht. unfold ftot. lia. }
    split; [unfold ftot; simpl; lia|]. split; [exact Hcl|]. split; [auto|]. split.
    { intros _ Hf. unfold fitted. simpl. apply Hfit; auto. }
    right. split; [exact Hmove|]. exists r', r2. replace (total + delta - total)%Z with delta by lia. auto.
  - destruct (Nat.ltb_spec 0 (fw_maxnew s)) as [Hn0|Hn0].
    2:{ right. destruct (Hstay r') as (p & -> & HI'). cbn [bind]. eexists _, _, A. split; [reflexivity|].
        split; [exact PB|]. split; [exact PB|]. split; [exact HI'|]. split; [repeat split; auto|].
        split; [exact Ht|]. simpl. split; auto. }
    (* new slices *)
    assert (Lsnb : length snb = n) by (unfold snb; rewrite bdiff_len; congruence).
    set (pos := bpositions (minus_skip snb (fw_skip s))).
    destruct (@add_slices_ok R lg (fr_base fr) (fw_m s) (dims (fw_ct s)) n (fw_skip s) nb Hcm Hlog Hd Lnb
                (fw_maxnew s) pos (length pos) (fw_sl s) sw r')
      as [(Ec & _ & Hc)|(sl' & w' & r2 & Ec & Ls' & Hin & Hout & Hwid)]; auto.
    { rewrite firstn_all. apply bpositions_nodup. }
    { intros x. rewrite firstn_all. unfold pos. rewrite bpositions_in. rewrite (minus_skip_test (n := n) Lsk x Lsnb).
      unfold snb. rewrite bdiff_test by congruence. rewrite !andb_true_iff, !negb_true_iff. tauto. }
    { unfold wide. fold snb sw. lia. }
    { left. rewrite Ec. split; auto. split; auto. eapply Z.lt_le_trans; [exact Hc|].
      apply set_width_mono; auto. intros i _ Hi. apply andb_true_iff in Hi. tauto. }
    right. rewrite Ec. cbn [bind].
    destruct (Z.leb_spec w' (fm_max (fw_m s))) as [Hle'|Hgt'].
    2:{ destruct (Hstay r2) as (p & -> & HI'). cbn [bind]. eexists _, _, A. split; [reflexivity|].
        split; [exact PB|]. split; [exact PB|]. split; [exact HI'|]. split; [repeat split; auto|].
        split; [exact Ht|]. simpl. split; auto. }
    rewrite set_ok by lia. cbn [bind]. rewrite (swap_nbh H). fold t'. cbn [bind].
    set (c' := mkCT t' (upd (inds (fw_ct s)) B nb) (dims (fw_ct s))).
    destruct (@cache_ex (fw_m s) (dims (fw_ct s)) sl' c' n HC') as (k & -> & HK2 & HP2). cbn [bind].
    pose proof (@back_total _ _ _ _ _ _ HC' HK2 HP2) as Eb. rewrite Eb. cbn [bind].
    destruct (accept (fr_base fr) r2 (sumZ (ccost k) - total) total) as (acc & r3) eqn:Eacc. destruct acc.
    + repeat (rewrite !set_ok by (rewrite ?upd_length; lia); cbn [bind]).
      eexists _, _, A. split; [reflexivity|]. split; [exact PB|]. split; [exact PB'|]. split.
      { constructor; simpl; auto. destruct HP2 as (Q1 & Q2 & Q3). split; [exact Q1|]. split; [|exact Q3].
        intros v a b Kv _. apply Q2; auto. }
      split. { repeat split; auto. }
      split; [reflexivity|]. split; [exact Hcl|]. split.
      { intros Hdj x Hx. simpl in *. destruct (Hout x Hx) as [Hx'|Hx']; auto. }
      split.
      { intros [Hsi|Hsi] Hf; [|lia]. unfold fitted. simpl. apply Hfit; auto. specialize (Hwid Hsi). unfold wide in Hwid. lia. }
      right. split; [exact Hmove|]. exists r2, r3. auto.
    + (* swapped back *)
      pose proof (rot_rot H) as Err. fold t' in Err. rewrite Err. cbn [bind].
      rewrite set_ok by (rewrite upd_length; lia). cbn [bind].
      rewrite upd_upd, (@upd_same _ (inds (fw_ct s)) B XB) by (unfold XB, ix; apply nth_error_nth'; lia).
      destruct (Hstay r3) as (p & -> & HI'). cbn [bind]. eexists _, _, A. split; [reflexivity|].
      replace (mkCT (nodes (fw_ct s)) (inds (fw_ct s)) (dims (fw_ct s))) with (fw_ct s) by (destruct (fw_ct s); auto).
      split; [exact PB|]. split; [exact PB|]. split; [exact HI'|]. split; [repeat split; auto|].
      split; [exact Ht|]. simpl. split; auto.
Qed.
