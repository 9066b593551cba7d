(** Below the largest exactly represented number the rounded run is the exact one. *)
From Coq Require Import Permutation Relations Psatz.
From Verif Require Import M_Base M_Bitset M_Tree M_CTree M_Cost M_Opt M_InfMem M_Float S_Tree S_Opt S_Float
  P_Base P_Bitset P_Tree P_Shape P_TreeProps P_TreeValid P_Opt P_OptCost P_InfMem P_Canon P_Cost P_InfMemMain
  P_InfMemFinal P_Approx P_FloatRun P_FloatCost P_FloatMain.
Set Implicit Arguments.
Unset Strict Implicit.
Local Open Scope Z_scope.

Lemma prod_over_S p d n : (forall i, (i < S n)%nat -> 1 <= d i) -> prod_over p d n <= prod_over p d (S n).
Proof.
  intros H. simpl. assert (1 <= prod_over p d n) by (apply prod_over_pos; intros; apply H; lia).
  assert (1 <= d n) by (apply H; lia). destruct (p n); nia.
Qed.

(** A bound on the nodes, for any stale node outside of the subtree. *)
Lemma bt_cost_bound f D t p T : unfolds t p T -> 0 <= D ->
  (forall v a b p', nth_error t v = Some (mkNode (Some a) (Some b) p') -> 0 <= f v a b <= D) ->
  0 <= bt_cost f T <= Z.of_nat (bt_size T) * D.
Proof.
  intros HU HD H. revert p HU. induction T as [v|v l IHl r IHr]; cbn [bt_cost bt_size unfolds]; intros p HU; [lia|].
  destruct HU as (Hn & Ul & Ur). specialize (IHl _ Ul). specialize (IHr _ Ur). specialize (H _ _ _ _ Hn). nia.
Qed.

Lemma pcost_sub t ks ps w p T : unfolds t p T -> pcost_ok t ks ps w ->
  (forall v, In v (positions T) -> ~ w v) -> zx ps (top T) = bt_cost (fun v _ _ => zx ks v) T.
Proof.
  intros HU (Lp & Hk & Hlf). revert p HU. induction T as [v|v l IHl r IHr]; simpl; intros p HU Hw.
  - apply Hlf. exists p. auto.
  - destruct HU as (Hn & Ul & Ur).
    rewrite (Hk v (top l) (top r)); auto; [|exists p; auto].
    rewrite (IHl _ Ul), (IHr _ Ur); auto; intros; apply Hw; right; apply in_or_app; auto.
Qed.

Lemma positions_rank t h p T : wfl t -> ranked t h -> unfolds t p T -> forall v, In v (positions T) -> (h v <= h (top T))%nat.
Proof.
  intros W Hh. revert p. induction T as [x|x l IHl r IHr]; simpl; intros p HU v Hv.
  - destruct Hv as [->|[]]; auto.
  - destruct HU as (Hn & Ul & Ur). destruct Hv as [->|Hv]; auto. apply in_app_or in Hv.
    assert (K : kids2 t x (top l) (top r)) by (exists p; auto). destruct (kids2_kid K) as (Ka & Kb).
    destruct Hv as [Hv|Hv].
    + specialize (IHl _ Ul _ Hv). pose proof (Hh _ _ Ka). lia.
    + specialize (IHr _ Ur _ Hv). pose proof (Hh _ _ Kb). lia.
Qed.

Section Exact.
  Variables (ar : arith) (Bd : Z).
  Hypothesis Hex : exact_upto Bd ar.

  Lemma fadd_exact a b : Z.abs (a + b) <= Bd -> fadd ar a b = a + b.
  Proof. intros. apply (ex_rnd Hex). auto. Qed.
  Lemma fsub_exact a b : Z.abs (a - b) <= Bd -> fsub ar a b = a - b.
  Proof. intros. apply (ex_rnd Hex). auto. Qed.
  Lemma fmul_exact a b : Z.abs (a * b) <= Bd -> fmul ar a b = a * b.
  Proof. intros. apply (ex_rnd Hex). auto. Qed.

  Lemma fprod_exact p (d : nat -> Z) n : (forall i, 1 <= d i) -> prod_over p d n <= Bd ->
    fold_left (fun c i => fmul ar c (rnd ar (d i))) (filter p (seq 0 n)) 1 = prod_over p d n.
  Proof.
    intros Hd. induction n as [|n IH]; intros Hb; auto.
    pose proof (@prod_over_S p d n ltac:(intros; apply Hd)) as HS.
    rewrite seq_S, filter_app, fold_left_app, IH by lia. simpl in Hb |- *. destruct (p n); simpl.
    - assert (1 <= prod_over p d n) by (apply prod_over_pos; intros; apply Hd). pose proof (Hd n).
      rewrite (ex_rnd Hex (d n)) by nia. apply fmul_exact. nia.
    - lia.
  Qed.

  Lemma fsimple_exact b d : dims_pos d -> simple_get_cost b d <= Bd -> fsimple_get_cost ar b d = simple_get_cost b d.
  Proof.
    intros Hd Hb. pose proof (simple_cost_prod b d) as E. destruct d as [x|l].
    - simpl in *. apply (ex_pow Hex). auto.
    - rewrite E in *. unfold fsimple_get_cost, bpositions.
      apply (@fprod_exact (btest b) (dim_at (DVec l)) (length b)); auto.
  Qed.

  Lemma fccost_exact m a b c d n : cmodel_ok m n -> length a = n -> length b = n -> dims_pos d ->
    all_dims d n <= Bd -> projs_upto Bd m ->
    fccost_of ar m a b c d = ccost_of m a b c d /\ 1 <= ccost_of m a b c d <= all_dims d n.
  Proof.
    intros Hm La Lb Hd HB Hp. assert (Lab : length (bor a b) = n) by (rewrite bor_len; congruence).
    assert (Hall : forall p, 1 <= prod_over p (dim_at d) n <= all_dims d n).
    { intros p. split; [apply prod_over_pos; intros; apply Hd|]. unfold all_dims.
      assert (E : forall x, dim_at d x = dimension d x) by (intros; unfold dim_at, dimension; auto).
      rewrite (@prod_over_ext (fun _ => true) (fun _ => true) (dimension d) (dim_at d)) by (intros; split; auto).
      apply prod_over_mono; [intros; apply Hd|auto]. }
    destruct m as [|sp np]; simpl in *.
    - pose proof (simple_cost_prod (bor a b) d) as E. rewrite Lab in E. split; [|rewrite E; apply Hall].
      apply fsimple_exact; auto. rewrite E. specialize (Hall (btest (bor a b))). lia.
    - destruct Hm as (Hs & Hnp). rewrite sparse_cost_prod by congruence. rewrite Lab.
      pose proof (prod_over_split (btest (bor a b)) (btest sp) (dim_at d) n) as Hsp.
      pose proof (Hall (btest (bor a b))) as H0.
      pose proof (Hall (fun i => btest (bor a b) i && negb (btest sp i))) as H1.
      pose proof (Hall (fun i => btest (bor a b) i && btest sp i)) as H2.
      set (P0 := prod_over (btest (bor a b)) (dim_at d) n) in *.
      set (P1 := prod_over (fun i => btest (bor a b) i && negb (btest sp i)) (dim_at d) n) in *.
      set (P2 := prod_over (fun i => btest (bor a b) i && btest sp i) (dim_at d) n) in *.
      assert (HM : 1 <= P1 * Z.min P2 np <= all_dims d n) by nia. split; auto.
      unfold fsparse_get_cost.
      assert (E1 : simple_get_cost (bdiff (bor a b) sp) d = P1).
      { rewrite simple_cost_prod, bdiff_len, Lab by congruence. apply prod_over_ext. intros i _. rewrite bdiff_test by congruence. auto. }
      assert (E2 : simple_get_cost (band (bor a b) sp) d = P2).
      { rewrite simple_cost_prod, band_len, Lab by congruence. apply prod_over_ext. intros i _. rewrite band_test by congruence. auto. }
      rewrite !fsimple_exact by (auto; lia). rewrite E1, E2, (ex_rnd Hex np) by lia.
      replace (if P2 <? np then P2 else np) with (Z.min P2 np) by (destruct (Z.ltb_spec P2 np); lia).
      apply fmul_exact. lia.
  Qed.

  Variables (m : cmodel) (d : dims_t) (n N : nat).
  Hypothesis Hcm : cmodel_ok m n.
  Hypothesis Hd : dims_pos d.
  Hypothesis HB : Z.of_nat N * all_dims d n <= Bd.
  Hypothesis Hpr : projs_upto Bd m.
  Hypothesis HN : (0 < N)%nat.
  Let D := all_dims d n.

  Lemma D_pos : 1 <= D.
  Proof.
    apply prod_over_pos. intros i _. assert (E : dimension d i = dim_at d i) by (unfold dim_at, dimension; auto). rewrite E. apply Hd.
  Qed.
  Lemma D_le : D <= Bd.
  Proof. pose proof D_pos. fold D in HB. nia. Qed.

  (** Facts about a tree of this problem. *)
  Variables (t : tree) (xs : list bitset).
  Hypothesis HC : core t xs n.
  Hypothesis HL : length t = N.

  Lemma cc_exact v a b : kids2 t v a b ->
    fim_ccost ar m d (ix xs v) (ix xs a) (ix xs b) = im_ccost m d (ix xs v) (ix xs a) (ix xs b) /\
    1 <= im_ccost m d (ix xs v) (ix xs a) (ix xs b) <= D.
  Proof.
    intros K. destruct (kids2_lt (co_wf HC) K) as (L1 & L2 & L3).
    apply (fccost_exact _ Hcm); auto; try (apply (co_sz HC); auto). apply D_le.
  Qed.

  Lemma ks_bound ks v : ccost_ok (im_ccost m d) t xs ks -> 0 <= zx ks v <= D.
  Proof.
    intros (LK & HKk & HKl). pose proof D_pos. destruct (Nat.lt_ge_cases v (length t)) as [Hv|Hv].
    - destruct (kids2_or_leaf (co_wf HC) Hv) as [Hlf|(a & b & p & Hn)]; [rewrite HKl; auto; lia|].
      assert (K : kids2 t v a b) by (exists p; auto). rewrite (HKk _ _ _ K). destruct (cc_exact K). lia.
    - unfold zx. rewrite nth_overflow by lia. lia.
  Qed.

  Lemma sub_bound ks p T : ccost_ok (im_ccost m d) t xs ks -> unfolds t p T ->
    0 <= bt_cost (fun v _ _ => zx ks v) T <= Bd.
  Proof.
    intros HK HU. pose proof D_pos. pose proof (bt_size_bound (co_wf HC) HU) as Hs.
    destruct (@bt_cost_bound (fun v _ _ => zx ks v) D t p T HU ltac:(lia)) as (H0 & H1).
    { intros. apply ks_bound; auto. }
    split; auto. fold D in HB. nia.
  Qed.

  Lemma ccost_fok ks : ccost_ok (im_ccost m d) t xs ks -> ccost_ok (fim_ccost ar m d) t xs ks.
  Proof.
    intros (LK & HKk & HKl). split; auto. split; auto. intros v a b K. destruct (cc_exact K) as (-> & _). auto.
  Qed.

  Lemma pcost_oexact ks ps : ccost_ok (im_ccost m d) t xs ks -> pcost_ok t ks ps (fun _ => False) -> opcost_ok ar t ks ps.
  Proof.
    intros HK HP. pose proof HP as (LP & HPk & HPl). split; auto. split; auto.
    intros v a b p Hn. assert (K : kids2 t v a b) by (exists p; auto).
    assert (P0 : forall x, (x < length t)%nat -> 0 <= zx ps x <= Bd).
    { intros x Hx. destruct (nth_error t x) as [nd|] eqn:En; [|apply nth_error_None in En; lia].
      destruct (build_bt (co_wf HC) En) as (S & HU & <-). rewrite (pcost_bt HU HP) by auto. eapply sub_bound; eauto. }
    destruct (kids2_lt (co_wf HC) K) as (L1 & L2 & L3).
    rewrite (HPk _ _ _ K) by auto. pose proof (P0 v L1) as Hv. rewrite (HPk _ _ _ K) in Hv by auto.
    pose proof (P0 a L2). pose proof (P0 b L3). pose proof (ks_bound v HK).
    rewrite (@fadd_exact (zx ks v)) by lia. rewrite fadd_exact by lia. lia.
  Qed.
End Exact.

(** ** The outcome of an iteration, for any arithmetic *)
Definition exactly : arith := mkAr (fun z => z) (fun d k => Z.of_N d ^ Z.of_nat k) Z.eqb.

Section Value.
  Variables (ar : arith) (R : Type) (s : im_state R).
  Variables (A B C D E : nat).
  Definition it_nb : bitset :=
    newB (ix (inds (im_ct s)) A) (ix (inds (im_ct s)) B) (ix (inds (im_ct s)) C) (ix (inds (im_ct s)) D) (ix (inds (im_ct s)) E).
  Definition it_kA : Z := fccost_of ar (im_cm s) (ix (inds (im_ct s)) A) it_nb (ix (inds (im_ct s)) E) (dims (im_ct s)).
  Definition it_kB : Z := fccost_of ar (im_cm s) it_nb (ix (inds (im_ct s)) D) (ix (inds (im_ct s)) C) (dims (im_ct s)).
  Definition it_delta : Z := fadd ar (fsub ar it_kB (zx (ccost (im_cc s)) B)) (fsub ar it_kA (zx (ccost (im_cc s)) A)).
  Definition it_p2 (ks : list Z) (x y : nat) : list Z :=
    let p1 := upd (pcost (im_cc s)) B (fadd ar (fadd ar (zx (pcost (im_cc s)) D) (zx (pcost (im_cc s)) y)) (zx ks B)) in
    upd p1 A (fadd ar (fadd ar (zx p1 B) (zx p1 x)) (zx ks A)).
  Definition it_acc (total : Z) (t' : tree) (r2 : R) : im_state R * option (Z * nat) :=
    let ks' := upd (upd (ccost (im_cc s)) B it_kB) A it_kA in
    (mkIM (mkCT t' (upd (inds (im_ct s)) B it_nb) (dims (im_ct s))) (im_ds s) r2 (im_min_ct s) (im_cm s)
       (mkCC (it_p2 ks' E C) ks')
       (upd (upd (im_hyper s) A (band (band (ix (inds (im_ct s)) A) it_nb) (ix (inds (im_ct s)) E))) B
         (band (band it_nb (ix (inds (im_ct s)) D)) (ix (inds (im_ct s)) C)))
       (im_min s), Some (fadd ar total it_delta, A)).
  Definition it_rej (total : Z) (r2 : R) : im_state R * option (Z * nat) :=
    (mkIM (im_ct s) (im_ds s) r2 (im_min_ct s) (im_cm s) (mkCC (it_p2 (ccost (im_cc s)) C E) (ccost (im_cc s)))
       (im_hyper s) (im_min s), Some (total, A)).
End Value.

Lemma iter_val ar (R : Type) (rd : rand R) (s : im_state R) n total B r' sA sE A C D E pA nC nD nE :
  core (nodes (im_ct s)) (inds (im_ct s)) n ->
  hyper_ok (nodes (im_ct s)) (inds (im_ct s)) (im_hyper s) n ->
  length (ccost (im_cc s)) = length (nodes (im_ct s)) -> length (pcost (im_cc s)) = length (nodes (im_ct s)) ->
  get_ctree_nn rd (im_ct s) (im_ds s) (im_rng s) (Some B) = Ok (Some (A, C, D, E), r') ->
  nbh (nodes (im_ct s)) sA sE A B C D E pA nC nD nE ->
  fim_iter ar rd s total B =
    let '(acc, r2) := accept rd r' (it_delta ar s A B C D E) total in
    Ok (if acc then it_acc ar s A B C D E total (rot (nodes (im_ct s)) sA sE A B C D E pA nC nE) r2
        else it_rej ar s A B C D E total r2).
Proof.
  intros HC HH LK LP E0 H. pose proof (co_len HC) as LX. pose proof HH as (LH & HHk & HHl).
  destruct (nbh_lt H) as (LA & LB & LC & LD & LE).
  destruct (nbh_neq H) as (n1&n2&n3&n4&n5&n6&n7&n8&n9&n10).
  unfold fim_iter. rewrite E0. cbv beta iota zeta. unfold bind at 1.
  rewrite (@get_nth _ (inds (im_ct s)) A []), (@get_nth _ (inds (im_ct s)) B []), (@get_nth _ (inds (im_ct s)) C []),
    (@get_nth _ (inds (im_ct s)) D []), (@get_nth _ (inds (im_ct s)) E []) by lia.
  rewrite (@get_nth _ (im_hyper s) A []), (@get_nth _ (im_hyper s) B []) by lia.
  rewrite (@get_nth _ (ccost (im_cc s)) A 0%Z), (@get_nth _ (ccost (im_cc s)) B 0%Z) by lia.
  rewrite !ix_nth, !zx_nth. cbn [bind].
  rewrite (HHk _ _ _ (nbh_kids2A H)), (HHk _ _ _ (nbh_kids2B H)).
  fold (newB (ix (inds (im_ct s)) A) (ix (inds (im_ct s)) B) (ix (inds (im_ct s)) C) (ix (inds (im_ct s)) D) (ix (inds (im_ct s)) E)).
  fold (it_nb s A B C D E). fold (it_kA ar s A B C D E). fold (it_kB ar s A B C D E). fold (it_delta ar s A B C D E).
  destruct (accept rd r' (it_delta ar s A B C D E) total) as (acc & r2) eqn:Eacc.
  set (kA' := it_kA ar s A B C D E). set (kB' := it_kB ar s A B C D E).
  destruct acc.
  - rewrite (swap_nbh H). cbn [bind].
    repeat (rewrite !set_ok by (rewrite ?upd_length; lia); cbn [bind]).
    rewrite (@get_nth _ (pcost (im_cc s)) D 0%Z), (@get_nth _ (pcost (im_cc s)) C 0%Z) by lia. cbn [bind].
    rewrite (@get_nth _ (upd (upd (ccost (im_cc s)) B kB') A kA') B 0%Z) by (rewrite !upd_length; lia). cbn [bind].
    rewrite set_ok by lia. cbn [bind].
    rewrite !zx_nth.
    set (ks' := upd (upd (ccost (im_cc s)) B kB') A kA').
    set (p1 := upd (pcost (im_cc s)) B (fadd ar (fadd ar (zx (pcost (im_cc s)) D) (zx (pcost (im_cc s)) C)) (zx ks' B))).
    assert (L1 : length p1 = length (nodes (im_ct s))) by (unfold p1; rewrite upd_length; auto).
    assert (Lk' : length ks' = length (nodes (im_ct s))) by (unfold ks'; rewrite !upd_length; auto).
    rewrite (@get_nth _ p1 B 0%Z), (@get_nth _ p1 E 0%Z), (@get_nth _ ks' A 0%Z) by lia. cbn [bind].
    rewrite set_ok by lia. cbn [bind]. rewrite !zx_nth. reflexivity.
  - cbn [bind].
    rewrite (@get_nth _ (pcost (im_cc s)) D 0%Z), (@get_nth _ (pcost (im_cc s)) E 0%Z) by lia. cbn [bind].
    rewrite (@get_nth _ (ccost (im_cc s)) B 0%Z) by lia. cbn [bind].
    rewrite set_ok by lia. cbn [bind]. rewrite !zx_nth.
    set (p1 := upd (pcost (im_cc s)) B (fadd ar (fadd ar (zx (pcost (im_cc s)) D) (zx (pcost (im_cc s)) E)) (zx (ccost (im_cc s)) B))).
    assert (L1 : length p1 = length (nodes (im_ct s))) by (unfold p1; rewrite upd_length; auto).
    rewrite (@get_nth _ p1 B 0%Z), (@get_nth _ p1 C 0%Z), (@get_nth _ (ccost (im_cc s)) A 0%Z) by lia. cbn [bind].
    rewrite set_ok by lia. cbn [bind]. rewrite !zx_nth. reflexivity.
Qed.

Lemma im_iter_fim (R : Type) (rd : rand R) (s : im_state R) total B : im_iter rd s total B = fim_iter exactly rd s total B.
Proof. reflexivity. Qed.

(** ** Equality of the two programs *)
Section Same.
  Variables (ar : arith) (Bd : Z).
  Hypothesis Hex : exact_upto Bd ar.
  Hypothesis Hclose : forall z, 0 <= z -> rclose ar z z = true.

  (** The bound of a tree [c] under cost model [m]. *)
  Definition fits (m : cmodel) (c : ctree) (n : nat) : Prop :=
    cmodel_ok m n /\ dims_pos (dims c) /\ Z.of_nat (length (nodes c)) * all_dims (dims c) n <= Bd /\ projs_upto Bd m.

  Lemma fits_moves m ds c c2 n : core (nodes c) (inds c) n -> moves ds c c2 -> fits m c n -> fits m c2 n.
  Proof.
    intros HC P (H1 & H2 & H3 & H4). destruct (moves_keep HC P) as (E & _). unfold fits. rewrite E, (moves_dims P). auto.
  Qed.

  Lemma valid_dims c b : ctree_is_valid c b = true -> dims_pos (dims c).
  Proof.
    intros H. apply dims_ok_pos. unfold ctree_is_valid in H. repeat (apply andb_true_iff in H; destruct H as (H & ?)); auto.
  Qed.

  Lemma fget_cost_eq m c n : core (nodes c) (inds c) n -> fits m c n ->
    fget_cost ar (fim_ccost ar m (dims c)) c = get_cost (im_ccost m (dims c)) c.
  Proof.
    intros HC (Hcm & Hd & HB & Hp). pose proof (wl_len (co_wf HC)) as HN.
    pose proof (D_pos (n:=n) Hd) as D1. assert (D0 : 0 <= all_dims (dims c) n) by lia.
    destruct (wfl_tree_of (co_wf HC)) as (T & HT). unfold fget_cost, get_cost. rewrite (traverse_ok HT). cbn [bind].
    pose proof HT as (HU & _). pose proof (bt_size_bound (co_wf HC) HU) as Hs.
    set (f := cost_at (im_ccost m (dims c)) (inds c)).
    assert (Hf : forall v a b p', nth_error (nodes c) v = Some (mkNode (Some a) (Some b) p') -> 0 <= f v a b <= all_dims (dims c) n).
    { intros v a b p' Hn. assert (K : kids2 (nodes c) v a b) by (exists p'; auto).
      destruct (cc_exact Hex Hcm Hd HB Hp HN HC K) as (_ & H). unfold f, cost_at. lia. }
    assert (G : forall S p tot, unfolds (nodes c) p S -> 0 <= tot -> tot + bt_cost f S <= Bd ->
      fold_res (fget_cost_visit ar (fim_ccost ar m (dims c)) c) (postorder S) tot =
      fold_res (get_cost_visit (im_ccost m (dims c)) c) (postorder S) tot).
    { induction S as [v|v l IHl r IHr]; intros p tot HUS H0 H1.
      - simpl in HUS |- *. unfold fget_cost_visit, get_cost_visit. rewrite (get_some HUS). auto.
      - destruct HUS as (Hn & Ul & Ur). cbn [bt_cost] in H1.
        destruct (bt_cost_bound Ul D0 Hf) as (Bl & _). destruct (bt_cost_bound Ur D0 Hf) as (Br & _).
        destruct (Hf _ _ _ _ Hn) as (Bv & _).
        cbn [postorder].
        pose proof (@get_cost_fold (im_ccost m (dims c)) c n HC _ _ tot Ul) as F1.
        pose proof (@get_cost_fold (im_ccost m (dims c)) c n HC _ _ (tot + bt_cost f l) Ur) as F2. fold f in F1, F2.
        rewrite (fold_res_app _ F1), (fold_res_app _ F2).
        rewrite <- IHl with (p := Some v) in F1 by (auto; lia). rewrite <- IHr with (p := Some v) in F2 by (auto; lia).
        rewrite (fold_res_app _ F1), (fold_res_app _ F2). cbn [fold_res].
        unfold fget_cost_visit, get_cost_visit. rewrite (get_some Hn). simpl.
        pose proof (co_len HC) as HLL.
        pose proof (nth_error_lt Hn). destruct (unfolds_top Ul) as (nl & Hl & _). destruct (unfolds_top Ur) as (nr & Hr & _).
        pose proof (nth_error_lt Hl). pose proof (nth_error_lt Hr).
        rewrite (@get_nth _ (inds c) v []) by lia. simpl bind.
        rewrite (@get_nth _ (inds c) (top l) []) by lia. simpl bind.
        rewrite (@get_nth _ (inds c) (top r) []) by lia. simpl bind.
        assert (K : kids2 (nodes c) v (top l) (top r)) by (exists p; auto).
        destruct (cc_exact Hex Hcm Hd HB Hp HN HC K) as (E & _). unfold ix in E. rewrite E. f_equal.
        apply (fadd_exact Hex). unfold f, cost_at, ix in *. lia. }
    apply (G T None); auto; [lia|]. destruct (bt_cost_bound HU D0 Hf). nia.
  Qed.

  Lemma fcache_eq m c n : core (nodes c) (inds c) n -> fits m c n ->
    fcost_cache_make ar (fim_ccost ar m (dims c)) c = cost_cache_make (im_ccost m (dims c)) c.
  Proof.
    intros HC (Hcm & Hd & HB & Hp). pose proof (wl_len (co_wf HC)) as HN.
    destruct (ccost_exists (ccost_ucost m (dims c)) HC) as (ks & HK).
    destruct (pcost_exists ks (co_wf HC)) as (ps & HP).
    rewrite (cost_cache_ok HC HK HP).
    apply (fcost_cache_ok HC (ccost_fok Hex Hcm Hd HB Hp HN HC HK)).
    apply (pcost_oexact Hex Hcm Hd HB Hp HN HC eq_refl HK HP).
  Qed.

  Lemma cache_nonneg m c n k : core (nodes c) (inds c) n -> fits m c n ->
    cost_cache_make (im_ccost m (dims c)) c = Ok k ->
    (forall v, (v < length (pcost k))%nat -> 0 <= zx (pcost k) v) /\ (forall v, (v < length (ccost k))%nat -> 0 <= zx (ccost k) v).
  Proof.
    intros HC (Hcm & Hd & HB & Hp) Ek. pose proof (wl_len (co_wf HC)) as HN.
    destruct (ccost_exists (ccost_ucost m (dims c)) HC) as (ks & HK).
    destruct (pcost_exists ks (co_wf HC)) as (ps & HP).
    rewrite (cost_cache_ok HC HK HP) in Ek. inversion Ek; subst k. simpl. split.
    - intros v Hv. pose proof HP as (LP & _). rewrite LP in Hv.
      destruct (nth_error (nodes c) v) as [nd|] eqn:En; [|apply nth_error_None in En; lia].
      destruct (build_bt (co_wf HC) En) as (T & HU & <-). rewrite (pcost_bt HU HP) by auto.
      eapply (sub_bound Hex Hcm Hd HB Hp HN HC eq_refl HK HU).
    - intros v _. apply (ks_bound Hex Hcm Hd HB Hp HN HC eq_refl v HK).
  Qed.

  (** The constructor. *)
  Lemma fim_make_eq (R : Type) c m (r : R) ds mc :
    let c' := match mc with Some x => x | None => c end in
    well_formed (nodes c) -> well_formed (nodes c') -> fits m c (n_inds c) -> fits m c' (n_inds c') ->
    fim_make ar c m r ds mc = im_make c m r ds mc.
  Proof.
    intros c' W W' F F'. apply wf_iff in W. apply wf_iff in W'.
    unfold fim_make, im_make. fold c'. destruct (base_is_valid c c' ds) eqn:Hb; simpl; auto.
    pose proof Hb as Hb'. unfold base_is_valid in Hb. apply andb_true_iff in Hb. destruct Hb as (V1 & V2).
    destruct (valid_core W V1) as (HC & _). destruct (valid_core W' V2) as (HC' & _).
    rewrite (fcache_eq HC F), (fget_cost_eq HC' F').
    destruct (cost_cache_make (im_ccost m (dims c)) c) as [k|] eqn:Ek; cbn [bind]; auto.
    destruct (hyper_cache_make c) as [h|] eqn:Eh; cbn [bind]; auto.
    destruct (get_cost (im_ccost m (dims c')) c') as [mt|] eqn:Et; cbn [bind]; auto.
    destruct (im_total _) as [tt0|]; cbn [bind]; auto. destruct (Z.leb_spec tt0 0); [reflexivity|]. destruct (Z.leb_spec mt 0); [reflexivity|]. simpl orb. cbn iota.
    assert (E1 : fim_is_valid ar (mkIM c ds r c' m k h mt) = true).
    { unfold fim_is_valid. simpl im_ct. simpl im_min_ct. simpl im_ds. simpl im_cm. simpl im_cc. simpl im_hyper. simpl im_min.
      rewrite Hb', (fcache_eq HC F), (fget_cost_eq HC' F'), Ek, Et, Eh, Hclose by lia.
      destruct (cache_nonneg HC F Ek) as (N1 & N2).
      rewrite !(list_eqb_nonneg Hclose), (list_eqb_refl _ beqb_refl) by auto. auto. }
    assert (E2 : im_is_valid (mkIM c ds r c' m k h mt) = true).
    { unfold im_is_valid. simpl im_ct. simpl im_min_ct. simpl im_ds. simpl im_cm. simpl im_cc. simpl im_hyper. simpl im_min.
      rewrite Hb', Ek, Et, Eh, Z.eqb_refl.
      rewrite !(list_eqb_refl _ Z.eqb_refl), (list_eqb_refl _ beqb_refl). auto. }
    rewrite E1, E2. auto.
  Qed.

  (** In any tree of the problem, the new partial costs and the total are within the bound. *)
  Lemma step_bound m d n t' xs' ks' ps' sA' sE' A B C' D E' pA nC' nD' nE' :
    cmodel_ok m n -> dims_pos d -> projs_upto Bd m -> Z.of_nat (length t') * all_dims d n <= Bd ->
    nbh t' sA' sE' A B C' D E' pA nC' nD' nE' -> core t' xs' n ->
    ccost_ok (im_ccost m d) t' xs' ks' ->
    let p1 := upd ps' B (zx ps' D + zx ps' E' + zx ks' B) in
    let p2 := upd p1 A (zx p1 B + zx p1 C' + zx ks' A) in
    length ps' = length t' ->
    pcost_ok t' ks' p2 (fun v => parent t' A v) ->
    fadd ar (fadd ar (zx ps' D) (zx ps' E')) (zx ks' B) = zx ps' D + zx ps' E' + zx ks' B /\
    fadd ar (fadd ar (zx p1 B) (zx p1 C')) (zx ks' A) = zx p1 B + zx p1 C' + zx ks' A /\
    Z.abs (sumZ ks') <= Bd.
  Proof.
    intros Hcm Hd Hpr HB' Hn HCn HKn p1 p2 HLp HPn.
    destruct (nbh_lt Hn) as (LA' & LB' & LC' & LD' & LE').
      destruct (nbh_neq Hn) as (m1&m2&m3&m4&m5&m6&m7&m8&m9&m10).
      pose proof (co_wf HCn) as W'. destruct (wl_rank W') as (h & Hh).
      assert (HN' : (0 < length t')%nat) by lia.
      assert (Sub : forall v, (h v <= h A)%nat -> (v < length t')%nat -> 0 <= zx p2 v <= Bd).
      { intros v Hv Hlt. destruct (nth_error t' v) as [nd|] eqn:En; [|apply nth_error_None in En; lia].
        destruct (build_bt W' En) as (T & HU & <-).
        rewrite (pcost_sub HU HPn).
        - apply (@sub_bound ar Bd Hex m d n (length t') Hcm Hd HB' Hpr HN' t' xs' HCn eq_refl ks' _ T HKn HU).
        - intros x Hx Hpx. pose proof (positions_rank W' Hh HU Hx). apply (wl_kp W') in Hpx. pose proof (Hh _ _ Hpx). clear - H H0 Hv. lia. }
      assert (hB : (h B < h A)%nat) by (apply Hh; apply (nbh_kidA Hn); auto).
      assert (hC : (h C' < h A)%nat) by (apply Hh; apply (nbh_kidA Hn); auto).
      assert (hD : (h D < h B)%nat) by (apply Hh; apply (nbh_kidB Hn); auto).
      assert (hE : (h E' < h B)%nat) by (apply Hh; apply (nbh_kidB Hn); auto).
      assert (Ep1 : length p1 = length t') by (unfold p1; rewrite upd_length; auto).
      pose proof (Sub A ltac:(lia) LA') as SA'. pose proof (Sub B ltac:(lia) LB') as SB'. pose proof (Sub C' ltac:(lia) LC') as SC'.
      pose proof (Sub D ltac:(lia) LD') as SD'. pose proof (Sub E' ltac:(lia) LE') as SE'.
      unfold p2 in SA', SB', SC', SD', SE'. rewrite zx_upd_eq in SA' by lia. rewrite zx_upd_neq in SB', SC', SD', SE' by auto.
      assert (ED : zx p1 D = zx ps' D) by (unfold p1; apply zx_upd_neq; auto).
      assert (EE : zx p1 E' = zx ps' E') by (unfold p1; apply zx_upd_neq; auto).
      assert (EBp : zx p1 B = zx ps' D + zx ps' E' + zx ks' B) by (unfold p1; apply zx_upd_eq; lia).
      rewrite ED in SD'. rewrite EE in SE'.
      pose proof (@ks_bound ar Bd Hex m d n _ Hcm Hd HB' Hpr HN' _ _ HCn eq_refl _ A HKn) as KA'.
      pose proof (@ks_bound ar Bd Hex m d n _ Hcm Hd HB' Hpr HN' _ _ HCn eq_refl _ B HKn) as KB'.
      split; [|split].
      - rewrite (@fadd_exact ar Bd Hex (zx ps' D)) by lia. apply (fadd_exact Hex). lia.
      - rewrite (@fadd_exact ar Bd Hex (zx p1 B)) by lia. apply (fadd_exact Hex). lia.
      - destruct (wfl_tree_of W') as (T & HT). pose proof HT as (HU & _). destruct HKn as (LKn & HKkn & HKln).
        rewrite <- (bt_cost_total HT LKn HKln).
        pose proof (@sub_bound ar Bd Hex m d n (length t') Hcm Hd HB' Hpr HN' t' xs' HCn eq_refl ks' _ T
          (conj LKn (conj HKkn HKln)) HU). lia.
  Qed.

  Lemma it_same (R : Type) (s : im_state R) n sA sE A B C D E pA nC nD nE :
    nbh (nodes (im_ct s)) sA sE A B C D E pA nC nD nE -> core (nodes (im_ct s)) (inds (im_ct s)) n ->
    ccost_ok (im_ccost (im_cm s) (dims (im_ct s))) (nodes (im_ct s)) (inds (im_ct s)) (ccost (im_cc s)) ->
    fits (im_cm s) (im_ct s) n ->
    it_kB ar s A B C D E = it_kB exactly s A B C D E /\ it_kA ar s A B C D E = it_kA exactly s A B C D E /\
    it_delta ar s A B C D E = it_delta exactly s A B C D E.
  Proof.
    intros H HC HK (Hcm & Hd & HB & Hpr). pose proof (wl_len (co_wf HC)) as HN.
    pose proof (D_pos (n:=n) Hd) as D1. pose proof (co_len HC) as LX.
    destruct (nbh_lt H) as (LA & LB & LC & LD & LE). destruct (nbh_neq H) as (n1&_).
    pose proof (rot_core' H HC) as HC'.
    assert (Lnb : length (it_nb s A B C D E) = n).
    { replace (it_nb s A B C D E) with (ix (upd (inds (im_ct s)) B (it_nb s A B C D E)) B) by (unfold ix; apply upd_nth_eq; lia).
      apply (co_sz HC'). rewrite rot_length. auto. }
    pose proof (co_sz HC LA) as SA. pose proof (co_sz HC LD) as SD.
    assert (D2 : all_dims (dims (im_ct s)) n <= Bd) by (apply (D_le Hd HB HN)).
    destruct (@fccost_exact ar Bd Hex (im_cm s) _ _ (ix (inds (im_ct s)) E) (dims (im_ct s)) n Hcm SA Lnb Hd D2 Hpr) as (EA & BA).
    destruct (@fccost_exact ar Bd Hex (im_cm s) _ _ (ix (inds (im_ct s)) C) (dims (im_ct s)) n Hcm Lnb SD Hd D2 Hpr) as (EB & BB).
    pose proof (@ks_bound ar Bd Hex (im_cm s) (dims (im_ct s)) n _ Hcm Hd HB Hpr HN _ _ HC eq_refl _ A HK) as KA.
    pose proof (@ks_bound ar Bd Hex (im_cm s) (dims (im_ct s)) n _ Hcm Hd HB Hpr HN _ _ HC eq_refl _ B HK) as KB.
    assert (N2 : 2 * all_dims (dims (im_ct s)) n <= Bd).
    { assert (2 <= Z.of_nat (length (nodes (im_ct s)))) by lia. clear - H0 HB D1. nia. }
    assert (E1 : it_kB ar s A B C D E = it_kB exactly s A B C D E) by exact EB.
    assert (E2 : it_kA ar s A B C D E = it_kA exactly s A B C D E) by exact EA.
    split; auto. split; auto. unfold it_delta. rewrite E1, E2.
    change (fadd exactly) with Z.add. change (fsub exactly) with Z.sub.
    change (it_kB exactly s A B C D E) with (ccost_of (im_cm s) (it_nb s A B C D E) (ix (inds (im_ct s)) D) (ix (inds (im_ct s)) C) (dims (im_ct s))).
    change (it_kA exactly s A B C D E) with (ccost_of (im_cm s) (ix (inds (im_ct s)) A) (it_nb s A B C D E) (ix (inds (im_ct s)) E) (dims (im_ct s))).
    clear - Hex BA BB KA KB N2.
    rewrite !(fsub_exact Hex) by lia. apply (fadd_exact Hex). lia.
  Qed.

  (** An iteration. *)
  Lemma fim_iter_eq (R : Type) (rd : rand R) (s : im_state R) n total B :
    inv s n (fun v => parent (nodes (im_ct s)) B v) -> (B < length (nodes (im_ct s)))%nat ->
    total = sumZ (ccost (im_cc s)) -> fits (im_cm s) (im_ct s) n ->
    fim_iter ar rd s total B = im_iter rd s total B.
  Proof.
    intros HI LB Ht (Hcm & Hd & HB & Hpr).
    pose proof HI as [HC HH HK HP]. pose proof (co_wf HC) as W. pose proof (co_len HC) as LX.
    pose proof HH as (LH & HHk & HHl). pose proof HK as (LK & HKk & HKl). pose proof HP as (LP & HPk & HPl).
    pose proof (wl_len W) as HN.
    destruct (nn_spec rd (im_ds s) (im_rng s) HC LB)
      as [(r' & E0 & Hb)|(r' & sA & sE & A & C & D & E & pA & nC & nD & nE & E0 & H & Hs)].
    { unfold fim_iter, im_iter. rewrite E0. cbn [bind]. reflexivity. }
    rewrite (iter_val ar total HC HH LK LP E0 H).
    rewrite im_iter_fim. rewrite (iter_val exactly total HC HH LK LP E0 H).
    pose proof (rot_core' H HC) as HC'. pose proof (rot_hyper H HC HH) as HH'.
    pose proof (rot_ccost H HC (ccost_ucost (im_cm s) (dims (im_ct s))) HK) as HK'.
    pose proof (rot_nbh H) as H'.
    pose proof (rot_length (nodes (im_ct s)) sA sE A B C D E pA nC nE) as LR.
    assert (Hw : forall v, v <> A -> ~ parent (nodes (im_ct s)) B v).
    { intros v Hv Hp. apply Hv. eapply parent_fun; eauto. apply (wl_kp W). apply (nbh_kidA H). auto. }
    destruct (it_same H HC HK (conj Hcm (conj Hd (conj HB Hpr)))) as (EB & EA & ED).
    rewrite ED. destruct (accept rd r' (it_delta exactly s A B C D E) total) as (acc & r2).
    destruct acc; f_equal.
    - unfold it_acc. rewrite ED. unfold it_p2. fold (it_kA exactly s A B C D E) (it_kB exactly s A B C D E).
      rewrite EA, EB.
      unfold it_kA, it_kB, im_ccost in *.
      set (nb := it_nb s A B C D E) in *.
      change (newB (ix (inds (im_ct s)) A) (ix (inds (im_ct s)) B) (ix (inds (im_ct s)) C) (ix (inds (im_ct s)) D)
        (ix (inds (im_ct s)) E)) with nb in *.
      set (ks' := upd (upd (ccost (im_cc s)) B _) A _).
      assert (Hks : ks' = upd (upd (ccost (im_cc s)) B (ccost_of (im_cm s) nb (ix (inds (im_ct s)) D) (ix (inds (im_ct s)) C) (dims (im_ct s)))) A
        (ccost_of (im_cm s) (ix (inds (im_ct s)) A) nb (ix (inds (im_ct s)) E) (dims (im_ct s)))) by reflexivity.
      rewrite <- Hks in HK'.
      destruct (@step_bound (im_cm s) (dims (im_ct s)) n _ _ ks' (pcost (im_cc s)) _ _ _ _ _ _ _ _ _ _ _ Hcm Hd Hpr
        (eq_ind_r (fun k => Z.of_nat k * _ <= Bd) HB LR) H' HC' HK') as (G1 & G2 & G3).
      { rewrite LR. auto. }
      { apply (pcost_step H' (co_wf HC')); try (rewrite rot_length; auto).
        - unfold ks'. rewrite !upd_length. auto.
        - intros v a b K vA vB. apply (rot_kids2 a b H vA vB) in K.
          unfold ks'. rewrite !zx_upd_neq by auto. apply HPk; auto.
        - intros v Hv. apply (rot_leaf _ H) in Hv. auto. }
      cbv zeta in G2. rewrite G1, G2.
      assert (Esum : sumZ ks' = fadd exactly total (it_delta exactly s A B C D E)).
      { destruct (nbh_lt H) as (LA & _ & LC & LD & LE). destruct (nbh_neq H) as (n1&_).
        subst total. clear - n1 LA LB LK. unfold ks'. rewrite zx_sum_upd by (rewrite upd_length; lia).
        rewrite zx_upd_neq by auto. rewrite zx_sum_upd by lia.
        change (fadd exactly) with Z.add. unfold it_delta. change (fadd exactly) with Z.add. change (fsub exactly) with Z.sub.
        unfold it_kA, it_kB. change (fccost_of exactly) with ccost_of. unfold nb. lia. }
      assert (Et : fadd ar total (it_delta exactly s A B C D E) = fadd exactly total (it_delta exactly s A B C D E)).
      { rewrite <- Esum. rewrite (fadd_exact Hex); auto; change (fadd exactly) with Z.add in Esum; rewrite <- Esum; auto. }
      rewrite Et. reflexivity.
    - unfold it_rej, it_p2.
      destruct (@step_bound (im_cm s) (dims (im_ct s)) n _ _ (ccost (im_cc s)) (pcost (im_cc s)) _ _ _ _ _ _ _ _ _ _ _ Hcm Hd Hpr
        HB H HC HK) as (G1 & G2 & G3); auto.
      { apply (pcost_step H W); auto. }
      cbv zeta in G2. rewrite G1, G2. reflexivity.
  Qed.

  Lemma fim_loop_eq (R : Type) (rd : rand R) n fuel : forall (s : im_state R) total B,
    inv s n (fun v => parent (nodes (im_ct s)) B v) -> (B < length (nodes (im_ct s)))%nat ->
    total = sumZ (ccost (im_cc s)) -> fits (im_cm s) (im_ct s) n ->
    fim_loop ar rd fuel s total B = im_loop rd fuel s total B.
  Proof.
    induction fuel as [|fuel IH]; intros s total B HI LB Ht HF; [reflexivity|]. cbn [fim_loop im_loop].
    rewrite (fim_iter_eq rd HI LB Ht HF).
    destruct (im_iter_spec rd HI LB Ht) as [(r & E & _)|(s' & total' & A & E & Hp & Hp' & HI' & Hen & Ht' & Hcl & Hm)].
    - rewrite E. cbn [bind]. reflexivity.
    - rewrite E. cbn [bind]. apply IH; [exact HI'| |exact Ht'|].
      + apply (parent_lt (co_wf (iv_core HI')) Hp').
      + destruct Hen as (_ & _ & -> & _). destruct Hm as [(-> & _)|(Hm & _)]; auto.
        eapply fits_moves; [apply (iv_core HI)| |exact HF]. econstructor; [exact Hm|constructor].
  Qed.

  Lemma fim_update_eq (R : Type) (rd : rand R) n (s : im_state R) :
    inv s n none -> fits (im_cm s) (im_ct s) n -> fim_update ar rd s = im_update rd s.
  Proof.
    intros HI HF. unfold fim_update, im_update. destruct (draw rd (im_rng s)) as (x & r0).
    pose proof (iv_core HI) as HC. pose proof (co_wf HC) as W.
    destruct (get (nodes (im_ct s)) (x mod n_leaves (nodes (im_ct s)))) as [nd|] eqn:En; cbn [bind]; [|reflexivity].
    destruct (par nd) as [B|] eqn:Ep; [|reflexivity].
    rewrite (im_total_ok (inv_rng r0 HI)). cbn [bind].
    apply get_ok in En. assert (PB : parent (nodes (im_ct s)) (x mod n_leaves (nodes (im_ct s))) B) by (exists nd; auto).
    pose proof (parent_lt W PB) as LB.
    rewrite (@fim_loop_eq R rd n (length (nodes (im_ct s))) (with_rng s r0) (tot (with_rng s r0)) B); [reflexivity| |exact LB|reflexivity|exact HF].
    apply (inv_weaken (inv_rng r0 HI)). intros v [].
  Qed.

  Lemma fim_run_eq (R : Type) n : forall (rds : list (rand R)) (s : im_state R),
    inv s n none -> fits (im_cm s) (im_ct s) n -> fim_run ar rds s = im_run rds s.
  Proof.
    induction rds as [|rd rds IH]; intros s HI HF; [reflexivity|]. cbn [fim_run im_run].
    rewrite (fim_update_eq rd HI HF). destruct (im_update_spec rd HI) as (s' & E & HI' & _ & Em & P & _).
    rewrite E. cbn [bind]. apply IH; [exact HI'|]. rewrite Em. apply (fits_moves (iv_core HI) (path_moves P) HF).
  Qed.

  Lemma c45_exact (R : Type) c m (r : R) ds mc :
    let c' := match mc with Some x => x | None => c end in
    well_formed (nodes c) -> well_formed (nodes c') -> cmodel_ok m (n_inds c) -> cmodel_ok m (n_inds c') -> projs_upto Bd m ->
    Z.of_nat (length (nodes c)) * all_dims (dims c) (n_inds c) <= Bd ->
    Z.of_nat (length (nodes c')) * all_dims (dims c') (n_inds c') <= Bd ->
    fim_make ar c m r ds mc = im_make c m r ds mc /\
    forall s0, im_make c m r ds mc = Ok s0 -> forall rds, fim_run ar rds s0 = im_run rds s0.
  Proof.
    intros c' W W' Hm Hm' Hp HB HB'. destruct (base_is_valid c c' ds) eqn:Hb.
    - pose proof Hb as Hb'. unfold base_is_valid in Hb'. apply andb_true_iff in Hb'. destruct Hb' as (V1 & V2).
      assert (F : fits m c (n_inds c)) by (split; [auto|split; [apply (valid_dims V1)|auto]]).
      assert (F' : fits m c' (n_inds c')) by (split; [auto|split; [apply (valid_dims V2)|auto]]).
      split; [apply fim_make_eq; auto|]. intros s0 H0 rds. apply wf_iff in W.
      destruct (im_make_inv W H0) as (HI & _ & Ec & _ & Em & _). apply (fim_run_eq _ HI). rewrite Ec, Em. exact F.
    - unfold fim_make, im_make. fold c'. rewrite Hb. simpl. split; [reflexivity|discriminate].
  Qed.
End Same.
