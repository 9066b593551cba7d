(** Rounded costs: constructor and relative errors. *)
From Coq Require Import Permutation Relations Psatz.
From Verif Require Import M_Base M_Bitset M_Tree M_CTree M_Cost M_Opt M_InfMem M_Float S_Tree S_Opt S_Float
  P_Base P_Bitset P_Tree P_Shape P_TreeProps P_TreeValid P_Opt P_OptCost P_InfMem P_Canon P_Cost P_InfMemMain
  P_Approx P_FloatRun.
Set Implicit Arguments.
Unset Strict Implicit.

Section Make.
  Variable ar : arith.

  (** Partial costs as the constructor computes them. *)
  Definition opcost_ok (t : tree) (ks ps : list Z) : Prop :=
    length ps = length t /\
    (forall v a b q, nth_error t v = Some (mkNode (Some a) (Some b) q) ->
       zx ps v = fadd ar (fadd ar (zx ks v) (zx ps a)) (zx ps b)) /\
    (forall v, leaf_at t v -> zx ps v = 0%Z).

  Lemma opcost_fp t ks ps w : opcost_ok t ks ps -> fpcost_ok ar t ks ps w.
  Proof.
    intros (L & H & Hl). split; [auto|split; auto]. intros v a b (q & [Hn|Hn]) _; rewrite (H _ _ _ _ Hn); unfold psum; auto.
  Qed.

  Fixpoint fbt_cost (f : nat -> Z) (T : bt) : Z :=
    match T with
    | Lf _ => 0%Z
    | Nd p l r => fadd ar (fadd ar (f p) (fbt_cost f l)) (fbt_cost f r)
    end.

  Lemma opcost_exists t ks : wfl t -> exists ps, opcost_ok t ks ps.
  Proof.
    intros W.
    destruct (@list_choice Z 0%Z (length t) (fun v z =>
      exists S q, unfolds t q S /\ top S = v /\ z = fbt_cost (zx ks) S)) as (ps & HL & HP).
    { intros v Hv. destruct (nth_error t v) as [nd|] eqn:Hn; [|apply nth_error_None in Hn; lia].
      destruct (build_bt W Hn) as (S & Ht & HU). exists (fbt_cost (zx ks) S). eauto. }
    exists ps. split; auto. split.
    - intros v a b q Hn. assert (K : kids2 t v a b) by (exists q; auto).
      destruct (kids2_lt W K) as (L1 & L2 & L3).
      destruct (HP v L1) as (S & q0 & HU & Ht & E). destruct (HP a L2) as (Sa & qa & Ua & Ta & Ea).
      destruct (HP b L3) as (Sb & qb & Ub & Tb & Eb). unfold zx at 1 3 4. rewrite E, Ea, Eb.
      destruct S as [p|p l r]; simpl in Ht; subst p; simpl in HU.
      + congruence.
      + destruct HU as (Hv & Ul & Ur). rewrite Hn in Hv. inversion Hv as [[E1 E2 E3]].
        assert (l = Sa) by (eapply unfolds_unique; eauto; congruence).
        assert (r = Sb) by (eapply unfolds_unique; eauto; congruence). subst. auto.
    - intros v (q & Hn). destruct (HP v (nth_error_lt Hn)) as (S & q0 & HU & Ht & E).
      unfold zx. rewrite E. destruct S as [p|p l r]; auto. simpl in Ht; subst p. destruct HU as (Hv & _). congruence.
  Qed.

  Section Recompute.
    Variables (cc : bitset -> bitset -> bitset -> Z) (c : ctree) (n : nat).
    Hypothesis HC : core (nodes c) (inds c) n.
    Let t := nodes c.
    Variables (ks ps : list Z).
    Hypothesis HK : ccost_ok cc t (inds c) ks.
    Hypothesis HP : opcost_ok t ks ps.

    Lemma fcost_fold q T k : unfolds t q T -> NoDup (positions T) ->
      length (pcost k) = length t -> length (ccost k) = length t ->
      exists k', fold_res (fcost_cache_visit ar cc c) (postorder T) k = Ok k' /\
        length (pcost k') = length t /\ length (ccost k') = length t /\
        (forall v, In v (positions T) -> zx (pcost k') v = zx ps v /\ zx (ccost k') v = zx ks v) /\
        (forall v, ~ In v (positions T) -> zx (pcost k') v = zx (pcost k) v /\ zx (ccost k') v = zx (ccost k) v).
    Proof.
      destruct HK as (LK & HKk & HKl). destruct HP as (LP & HPk & HPl).
      revert q k. induction T as [p|p l IHl r IHr]; intros q k HU Hnd L1 L2.
      - simpl in HU |- *. unfold fcost_cache_visit. fold t. rewrite (get_some HU). simpl.
        pose proof (nth_error_lt HU) as Lp.
        rewrite !set_ok by lia. simpl. eexists. split; [reflexivity|]. simpl.
        rewrite !upd_length. split; [auto|]. split; [auto|].
        assert (Hlf : leaf_at t p) by (exists q; auto). unfold zx in *.
        split; intros v Hv.
        + destruct Hv as [<-|[]]. rewrite !upd_nth_eq by lia. rewrite HKl, HPl by auto. auto.
        + assert (p <> v) by tauto. rewrite !upd_nth_neq by auto. auto.
      - destruct HU as (Hn & Ul & Ur). simpl in Hnd. inversion Hnd as [|? ? Hni Hnd']; subst.
        apply nodup_app in Hnd'. destruct Hnd' as (N1 & N2 & N3).
        destruct (IHl _ k Ul N1 L1 L2) as (k1 & F1 & M1 & M2 & A1 & B1).
        destruct (IHr _ k1 Ur N2 M1 M2) as (k2 & F2 & M3 & M4 & A2 & B2).
        simpl postorder. rewrite (fold_res_app _ F1), (fold_res_app _ F2). simpl.
        unfold fcost_cache_visit. fold t. rewrite (get_some Hn). simpl.
        pose proof (co_len HC) as HL. fold t in HL.
        pose proof (nth_error_lt Hn) as Lp. destruct (unfolds_top Ul) as (nl & Hl & _). destruct (unfolds_top Ur) as (nr & Hr & _).
        pose proof (nth_error_lt Hl) as Ll. pose proof (nth_error_lt Hr) as Lr.
        rewrite (@get_nth _ (inds c) p []) by lia. simpl bind.
        rewrite (@get_nth _ (inds c) (top l) []) by lia. simpl bind.
        rewrite (@get_nth _ (inds c) (top r) []) by lia. simpl bind.
        rewrite (@get_nth _ (pcost k2) (top l) 0%Z) by lia. simpl bind.
        rewrite (@get_nth _ (pcost k2) (top r) 0%Z) by lia. simpl bind.
        rewrite !set_ok by lia. simpl. eexists. split; [reflexivity|]. simpl.
        rewrite !upd_length. split; [auto|]. split; [auto|].
        fold (zx (pcost k2) (top l)) (zx (pcost k2) (top r)).
        fold (ix (inds c) p) (ix (inds c) (top l)) (ix (inds c) (top r)).
        assert (K : kids2 t p (top l) (top r)) by (exists q; auto).
        rewrite (proj1 (A2 _ (top_in r))).
        assert (T1 : ~ In (top l) (positions r)) by (intros Hi; apply (N3 _ (top_in l) Hi)).
        rewrite (proj1 (B2 _ T1)), (proj1 (A1 _ (top_in l))).
        assert (Dp : forall v, In v (positions l) \/ In v (positions r) -> p <> v).
        { intros v Hv ->. apply Hni. apply in_or_app. auto. }
        split; intros v Hv.
        + destruct Hv as [<-|Hv].
          * rewrite !zx_upd_eq by lia. rewrite (HKk _ _ _ K).
            rewrite (HPk _ _ _ _ Hn). rewrite (HKk _ _ _ K). auto.
          * apply in_app_or in Hv.
            rewrite !zx_upd_neq by (apply Dp; auto).
            destruct (in_dec Nat.eq_dec v (positions r)) as [Hi|Hi]; [apply A2; auto|].
            destruct Hv as [Hv|Hv]; [|contradiction].
            destruct (B2 _ Hi) as (-> & ->). apply A1; auto.
        + simpl in Hv. assert (p <> v) by tauto. rewrite in_app_iff in Hv.
          rewrite !zx_upd_neq by auto.
          destruct (B2 v ltac:(tauto)) as (-> & ->). apply B1. tauto.
    Qed.

    Lemma fcost_cache_ok : fcost_cache_make ar cc c = Ok (mkCC ps ks).
    Proof.
      destruct (wfl_tree_of (co_wf HC)) as (T & HT). unfold fcost_cache_make.
      rewrite (traverse_ok HT). simpl bind. fold t in HT |- *. destruct (tree_of_in HT) as (Hnd & Hin).
      pose proof HT as (HU & _).
      destruct (@fcost_fold None T (mkCC (repeat 0%Z (length t)) (repeat 0%Z (length t))) HU Hnd)
        as (k' & -> & L1 & L2 & HA & _); simpl; try apply repeat_length.
      f_equal. destruct k' as [p' c']. simpl in *.
      destruct HK as (LK & _). destruct HP as (LP & _).
      f_equal; apply zx_ext; try congruence; intros v Hv; apply HA; apply Hin; congruence.
    Qed.
  End Recompute.

  Lemma fim_make_inv (R : Type) c m (r : R) ds mc s : wfl (nodes c) -> fim_make ar c m r ds mc = Ok s ->
    finv ar s (n_inds c) none /\
    fget_cost ar (fim_ccost ar m (dims (im_min_ct s))) (im_min_ct s) = Ok (im_min s) /\
    im_ct s = c /\ im_ds s = ds /\ im_cm s = m /\ im_rng s = r /\
    im_min_ct s = match mc with Some x => x | None => c end /\
    ctree_is_valid c (negb ds) = true /\ ctree_is_valid (im_min_ct s) (negb ds) = true /\
    (0 < ftot s)%Z /\ (0 < im_min s)%Z.
  Proof.
    intros W H. unfold fim_make in H. set (mct := match mc with Some x => x | None => c end) in *.
    destruct (base_is_valid c mct ds) eqn:Hb; simpl in H; [|discriminate].
    unfold base_is_valid in Hb. apply andb_true_iff in Hb. destruct Hb as (V1 & V2).
    destruct (valid_core W V1) as (HC & HD & HS).
    destruct (ccost_exists (fccost_ucost ar m (dims c)) HC) as (ks & HK).
    destruct (opcost_exists ks W) as (ps & HP). destruct (hyper_exists HC) as (hs & HH).
    rewrite (fcost_cache_ok HC HK HP) in H. simpl bind in H.
    rewrite (hyper_fold HC HH eq_refl) in H. simpl bind in H.
    destruct (fget_cost ar (fim_ccost ar m (dims mct)) mct) as [mt|] eqn:Emt; simpl bind in H; [|discriminate].
    assert (HI : finv ar (mkIM c ds r mct m (mkCC ps ks) hs mt) (n_inds c) none).
    { constructor; auto. apply opcost_fp. auto. }
    rewrite (fim_total_ok HI) in H. simpl bind in H.
    destruct ((ftot (mkIM c ds r mct m (mkCC ps ks) hs mt) <=? 0)%Z || (mt <=? 0)%Z) eqn:Hz; [discriminate|].
    apply orb_false_iff in Hz. destruct Hz as (Z1 & Z2). apply Z.leb_gt in Z1. apply Z.leb_gt in Z2.
    destruct (fim_is_valid _); [|discriminate]. inversion H; subst s.
    split; [exact HI|]. split; [exact Emt|]. repeat split; auto.
  Qed.
End Make.

(** ** Relative errors *)
Local Open Scope Z_scope.
  Fixpoint bt_size (T : bt) : nat := match T with Lf _ => 0 | Nd _ l r => S (bt_size l + bt_size r) end.

  Lemma bt_size_len T : (2 * bt_size T + 1 = length (positions T))%nat.
  Proof. induction T as [|p l IHl r IHr]; simpl; auto. rewrite app_length. lia. Qed.

Section Errors.
  Variables (ar : arith) (q kp : nat).
  Hypothesis Hq : (1 <= q)%nat.
  Hypothesis Hac : accurate q kp ar.

  Lemma radd k x y x' y' : 0 <= y -> 0 <= y' -> approx q k x y -> approx q k x' y' ->
    approx q (S k) (fadd ar x x') (y + y').
  Proof.
    intros Hy Hy' H H'. replace (S k) with (k + 1)%nat by lia.
    pose proof (approx_add Hq H H') as Ha. apply (approx_trans Hq Ha).
    apply (ac_rnd Hac). apply (approx_nonneg Hq) with (k := k) (y := y + y'); auto. lia.
  Qed.

  Lemma rmul k j x y x' y' : 0 <= y -> 0 <= y' -> approx q k x y -> approx q j x' y' ->
    approx q (S (k + j)) (fmul ar x x') (y * y').
  Proof.
    intros Hy Hy' H H'. replace (S (k + j)) with (k + j + 1)%nat by lia.
    pose proof (approx_mul Hq Hy Hy' H H') as Ha. apply (approx_trans Hq Ha).
    apply (ac_rnd Hac). apply (approx_nonneg Hq) with (k := (k + j)%nat) (y := y * y'); auto. nia.
  Qed.

  Lemma fprod_acc (f : nat -> Z) l : (forall i, 0 <= f i) -> forall k x y, 0 <= y -> approx q k x y ->
    approx q (k + 2 * length l) (fold_left (fun c i => fmul ar c (rnd ar (f i))) l x) (fold_left (fun c i => c * f i) l y).
  Proof.
    intros Hf. induction l as [|i l IH]; intros k x y Hy H; simpl fold_left.
    - replace (k + 2 * length (@nil nat))%nat with k by (simpl; lia). auto.
    - replace (k + 2 * length (i :: l))%nat with (S (k + 1) + 2 * length l)%nat by (simpl; lia).
      apply IH; [specialize (Hf i); nia|]. apply rmul; auto. apply (ac_rnd Hac). auto.
  Qed.

  Lemma simple_nonneg b d : 0 <= simple_get_cost b d.
  Proof.
    destruct d as [x|l]; simpl.
    - apply Z.pow_nonneg. lia.
    - assert (G : forall ps a, 0 <= a -> 0 <= fold_left (fun c pos => c * Z.of_N (nth pos l 1%N)) ps a).
      { induction ps as [|i ps IH]; simpl; intros a Ha; auto. apply IH. nia. }
      apply G. lia.
  Qed.

  Lemma bpositions_len b : length (bpositions b) = bcount b.
  Proof. rewrite bcount_spec. auto. Qed.

  Lemma fsimple_approx b d : approx q (kp + 2 * bcount b) (fsimple_get_cost ar b d) (simple_get_cost b d).
  Proof.
    destruct d as [x|l]; simpl.
    - apply approx_mono with (k := kp); auto; [apply Z.pow_nonneg; lia|lia|]. apply (ac_pow Hac).
    - pose proof (@fprod_acc (fun i => Z.of_N (nth i l 1%N)) (bpositions b) (fun i => N2Z.is_nonneg _) 0%nat 1 1 ltac:(lia) (approx_refl Hq 1)) as H.
      rewrite bpositions_len in H. apply approx_mono with (k := (0 + 2 * bcount b)%nat); auto.
      + apply (@simple_nonneg b (DVec l)).
      + lia.
  Qed.

  Lemma bcount_split b sp : length sp = length b -> (bcount (bdiff b sp) + bcount (band b sp) = bcount b)%nat.
  Proof.
    revert sp. induction b as [|x b IH]; intros [|y sp] H; simpl in *; try discriminate; auto.
    specialize (IH sp ltac:(lia)). unfold bdiff, band, bcount in *. destruct x, y; simpl in *; lia.
  Qed.
  Lemma bcount_le b : (bcount b <= length b)%nat.
  Proof. unfold bcount. induction b as [|[] b IH]; simpl; lia. Qed.

  Lemma fccost_approx m a b c d n : cmodel_ok m n -> length a = n -> length b = n ->
    approx q (2 * (n + kp + 1)) (fccost_of ar m a b c d) (ccost_of m a b c d) /\ 0 <= ccost_of m a b c d.
  Proof.
    intros Hm La Lb. assert (Lab : length (bor a b) = n) by (rewrite bor_len; congruence).
    pose proof (bcount_le (bor a b)) as Hc. destruct m as [|sp np]; simpl.
    - split; [|apply simple_nonneg]. apply approx_mono with (k := (kp + 2 * bcount (bor a b))%nat); auto; [apply simple_nonneg|lia|].
      apply fsimple_approx.
    - destruct Hm as (Hs & Hnp). unfold fsparse_get_cost, sparse_get_cost.
      set (x := simple_get_cost (band (bor a b) sp) d). set (y := simple_get_cost (bdiff (bor a b) sp) d).
      set (fx := fsimple_get_cost ar (band (bor a b) sp) d). set (fy := fsimple_get_cost ar (bdiff (bor a b) sp) d).
      assert (Hx : 0 <= x) by apply simple_nonneg. assert (Hy : 0 <= y) by apply simple_nonneg.
      replace (if x <? np then x else np) with (Z.min x np) by (destruct (Z.ltb_spec x np); lia).
      replace (if fx <? rnd ar np then fx else rnd ar np) with (Z.min fx (rnd ar np)) by (destruct (Z.ltb_spec fx (rnd ar np)); lia).
      split; [|nia].
      assert (Hsplit : (bcount (bdiff (bor a b) sp) + bcount (band (bor a b) sp) = bcount (bor a b))%nat) by (apply bcount_split; congruence).
      apply approx_mono with (k := S ((kp + 2 * bcount (bdiff (bor a b) sp)) + (1 + (kp + 2 * bcount (band (bor a b) sp))))%nat); auto; [nia|lia|].
      apply rmul; auto; [lia|apply fsimple_approx|]. apply approx_min; auto.
      + apply approx_mono with (k := (kp + 2 * bcount (band (bor a b) sp))%nat); auto. apply fsimple_approx.
      + apply approx_mono with (k := 1%nat); auto; [lia|lia|]. apply (ac_rnd Hac). lia.
  Qed.

  Lemma psum_approx k x y z K X Y : 0 <= K -> 0 <= X -> 0 <= Y -> 
    psum ar k x y z -> forall j, approx q j k K -> approx q j x X -> approx q j y Y -> approx q (S (S j)) z (X + Y + K).
  Proof.
    intros HK HX HY H j Ak Ax Ay.
    assert (G : forall a b c A B C, 0 <= A -> 0 <= B -> 0 <= C -> approx q j a A -> approx q j b B -> approx q j c C ->
      approx q (S (S j)) (fadd ar (fadd ar a b) c) (A + B + C)).
    { intros a b c A B C HA HB HC Aa Ab Ac. apply radd; auto; [lia|apply radd; auto|]. apply approx_S; auto. }
    destruct H as [-> | [-> | ->]].
    - apply G; auto.
    - replace (X + Y + K) with (K + X + Y) by lia. apply G; auto.
    - replace (X + Y + K) with (K + Y + X) by lia. apply G; auto.
  Qed.

  Lemma pcost_approx t ks ps w e f : fpcost_ok ar t ks ps w -> (forall v, ~ w v) ->
    forall T p, unfolds t p T ->
    (forall v a b p', nth_error t v = Some (mkNode (Some a) (Some b) p') -> approx q e (zx ks v) (f v a b) /\ 0 <= f v a b) ->
    approx q (e + 2 * bt_size T) (zx ps (top T)) (bt_cost f T) /\ 0 <= bt_cost f T.
  Proof.
    intros (Lp & Hk & Hlf) Hw. induction T as [v|v l IHl r IHr]; cbn [bt_cost bt_size top unfolds]; intros p HU Hf.
    - rewrite Hlf by (exists p; auto). split; [|lia]. apply approx_mono with (k := 0%nat); auto; try lia. apply (approx_refl Hq).
    - destruct HU as (Hn & Ul & Ur). destruct (IHl _ Ul Hf) as (Al & Pl). destruct (IHr _ Ur Hf) as (Ar & Pr).
      destruct (Hf _ _ _ _ Hn) as (Av & Pv).
      assert (K : kids2 t v (top l) (top r)) by (exists p; auto).
      specialize (Hk v (top l) (top r) K (Hw v)). split; [|lia].
      replace (e + 2 * S (bt_size l + bt_size r))%nat with (S (S (e + 2 * (bt_size l + bt_size r)))) by lia.
      apply (psum_approx Pv Pl Pr Hk).
      + apply approx_mono with (k := e); auto; lia.
      + apply approx_mono with (k := (e + 2 * bt_size l)%nat); auto; lia.
      + apply approx_mono with (k := (e + 2 * bt_size r)%nat); auto; lia.
  Qed.

  Lemma fget_cost_fold cc f e c n : core (nodes c) (inds c) n -> forall T p tot ftot k,
    unfolds (nodes c) p T -> (e <= k)%nat ->
    (forall v a b p', nth_error (nodes c) v = Some (mkNode (Some a) (Some b) p') ->
       approx q e (cc (ix (inds c) v) (ix (inds c) a) (ix (inds c) b)) (f v a b) /\ 0 <= f v a b) ->
    0 <= tot -> approx q k ftot tot ->
    exists z, fold_res (fget_cost_visit ar cc c) (postorder T) ftot = Ok z /\
      approx q (k + bt_size T) z (tot + bt_cost f T) /\ 0 <= tot + bt_cost f T.
  Proof.
    intros HC. induction T as [v|v l IHl r IHr]; intros p tot ftot k HU He Hf Ht Ha.
    - simpl in HU |- *. unfold fget_cost_visit. rewrite (get_some HU). simpl. exists ftot. split; auto.
      rewrite Nat.add_0_r, Z.add_0_r. auto.
    - destruct HU as (Hn & Ul & Ur). simpl postorder.
      destruct (IHl _ tot ftot k Ul He Hf Ht Ha) as (z1 & F1 & A1 & P1).
      destruct (IHr _ (tot + bt_cost f l) z1 (k + bt_size l)%nat Ur ltac:(lia) Hf P1 A1) as (z2 & F2 & A2 & P2).
      rewrite (fold_res_app _ F1), (fold_res_app _ F2). simpl. unfold fget_cost_visit. rewrite (get_some Hn). simpl.
      pose proof (co_len HC) as HL.
      pose proof (nth_error_lt Hn). destruct (unfolds_top Ul) as (nl & Hl & _). destruct (unfolds_top Ur) as (nr & Hr & _).
      pose proof (nth_error_lt Hl). pose proof (nth_error_lt Hr).
      rewrite (@get_nth _ (inds c) v []) by lia. simpl bind.
      rewrite (@get_nth _ (inds c) (top l) []) by lia. simpl bind.
      rewrite (@get_nth _ (inds c) (top r) []) by lia. simpl bind.
      eexists. split; [reflexivity|]. destruct (Hf _ _ _ _ Hn) as (Av & Pv).
      replace (tot + (bt_cost f l + bt_cost f r + f v (top l) (top r))) with (tot + bt_cost f l + bt_cost f r + f v (top l) (top r)) by ring.
      split; [|lia]. replace (k + S (bt_size l + bt_size r))%nat with (S (k + bt_size l + bt_size r)) by lia.
      apply radd; auto. apply approx_mono with (k := e); auto. lia.
  Qed.
End Errors.
