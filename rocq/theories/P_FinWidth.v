(** Widths and get_slices. *)
From Coq Require Import Permutation.
From Verif Require Import M_Base M_Bitset M_Tree M_CTree M_Cost M_Opt M_InfMem M_FinWidth S_Tree S_Opt S_FinWidth
  P_Base P_Bitset P_Tree P_Shape P_TreeProps P_Opt.
Set Implicit Arguments.
Unset Strict Implicit.
Local Open Scope Z_scope.

(** ** Sums *)
Lemma sum_over_ext p q f g n : (forall i, (i < n)%nat -> p i = q i /\ (p i = true -> f i = g i)) ->
  sum_over p f n = sum_over q g n.
Proof.
  induction n as [|n IH]; simpl; intros H; auto.
  rewrite IH by (intros i Hi; apply H; lia). destruct (H n) as (E & Ed); [lia|].
  rewrite <- E. destruct (p n); auto. rewrite Ed; auto.
Qed.

Lemma sum_over_nonneg p f n : (forall i, (i < n)%nat -> 0 <= f i) -> 0 <= sum_over p f n.
Proof.
  induction n as [|n IH]; simpl; intros H; [lia|].
  assert (0 <= sum_over p f n) by (apply IH; intros; apply H; lia).
  assert (0 <= f n) by (apply H; lia). destruct (p n); lia.
Qed.

Lemma sum_over_mono p q f n : (forall i, (i < n)%nat -> 0 <= f i) ->
  (forall i, (i < n)%nat -> p i = true -> q i = true) -> sum_over p f n <= sum_over q f n.
Proof.
  induction n as [|n IH]; simpl; intros Hd Hp; [lia|].
  assert (sum_over p f n <= sum_over q f n) by (apply IH; intros; [apply Hd; lia|apply Hp; auto; lia]).
  assert (0 <= f n) by (apply Hd; lia). assert (Hpq := Hp n ltac:(lia)).
  destruct (p n), (q n); try lia.
Qed.

(** One position more. *)
Lemma sum_over_add p f n x : (x < n)%nat -> p x = false ->
  sum_over (fun i => (x =? i)%nat || p i) f n = sum_over p f n + f x.
Proof.
  induction n as [|n IH]; [lia|]. intros Hx Hp. simpl.
  destruct (Nat.eq_dec x n) as [->|Hn].
  - rewrite Nat.eqb_refl. simpl. rewrite Hp.
    rewrite (@sum_over_ext (fun i => (n =? i)%nat || p i) p f f n); [lia|].
    intros i Hi. destruct (Nat.eqb_spec n i); [lia|]. auto.
  - destruct (Nat.eqb_spec x n); [lia|]. simpl. rewrite IH by (auto; lia). lia.
Qed.

Lemma fold_sum_acc (f : nat -> Z) l a : fold_left (fun c i => c + f i) l a = a + fold_left (fun c i => c + f i) l 0.
Proof.
  revert a. induction l as [|x l IH]; intros a; cbn [fold_left]; [lia|].
  rewrite (IH (a + f x)), (IH (0 + f x)). lia.
Qed.

Lemma sum_filter (p : nat -> bool) f n :
  fold_left (fun c i => c + f i) (filter p (seq 0 n)) 0 = sum_over p f n.
Proof.
  induction n as [|n IH]; auto. rewrite seq_S, filter_app, fold_left_app, IH. simpl.
  destruct (p n); simpl; lia.
Qed.

Lemma sum_const (p : nat -> bool) x n :
  sum_over p (fun _ => x) n = x * Z.of_nat (length (filter p (seq 0 n))).
Proof.
  induction n as [|n IH]; [simpl; lia|]. rewrite seq_S, filter_app, app_length. cbn [sum_over]. rewrite IH.
  simpl. destruct (p n); simpl; lia.
Qed.

(** ** Widths of the code are widths of the specification *)
Lemma w_simple_sum lg b d : w_simple lg b d = sum_over (btest b) (log_dim lg d) (length b).
Proof.
  destruct d as [x|l]; simpl.
  - rewrite (sum_const (btest b) (lg x)). rewrite bcount_spec. auto.
  - unfold bpositions. apply (sum_filter (btest b) (fun i => lg (nth i l 1%N))).
Qed.

Lemma wmin_min x y : wmin x y = Z.min x y.
Proof. unfold wmin. destruct (Z.ltb_spec x y); lia. Qed.

Lemma width_spec lg m b d n : cmodel_ok (fm_cm m) n -> length b = n ->
  width_of lg m b d = set_width lg (fm_cm m) d n (mem b).
Proof.
  intros Hm Hb. unfold width_of, set_width. destruct (fm_cm m) as [|sp np].
  - rewrite w_simple_sum, Hb. auto.
  - destruct Hm as (Hs & _). unfold w_sparse. rewrite wmin_min, !w_simple_sum.
    rewrite bdiff_len, band_len by congruence. rewrite Hb.
    f_equal; [|f_equal]; apply sum_over_ext; intros i _; [rewrite bdiff_test by congruence|rewrite band_test by congruence]; auto.
Qed.

Lemma set_width_ext lg m d n p q : (forall i, (i < n)%nat -> p i = q i) -> set_width lg m d n p = set_width lg m d n q.
Proof.
  intros H. unfold set_width. destruct m as [|sp np]; [|f_equal; [|f_equal]]; apply sum_over_ext; intros i Hi; rewrite H; auto.
Qed.

Lemma log_dim_nonneg lg d : log_like lg -> dims_positive d -> forall i, 0 <= log_dim lg d i.
Proof.
  intros Hl Hd i. specialize (Hd i). unfold log_dim, dimension in *. destruct d as [k|l]; apply Hl; lia.
Qed.

Lemma set_width_mono lg m d n p q : log_like lg -> dims_positive d ->
  (forall i, (i < n)%nat -> p i = true -> q i = true) -> set_width lg m d n p <= set_width lg m d n q.
Proof.
  intros Hl Hd H. pose proof (log_dim_nonneg Hl Hd) as Hp. unfold set_width. destruct m as [|sp np].
  - apply sum_over_mono; auto.
  - apply Z.add_le_mono; [|apply Z.min_le_compat_r]; apply sum_over_mono; auto;
      intros i Hi Hb; apply andb_true_iff in Hb; destruct Hb as (Hb & ->); rewrite (H i Hi Hb); auto.
Qed.

Lemma sum_over_false p f n : (forall i, (i < n)%nat -> p i = false) -> sum_over p f n = 0.
Proof.
  induction n as [|n IH]; simpl; auto. intros H. rewrite IH by (intros; apply H; lia). rewrite H by lia. auto.
Qed.

Lemma set_width_empty lg m d n p : log_like lg -> cmodel_ok m n -> (forall i, (i < n)%nat -> p i = false) ->
  set_width lg m d n p = 0.
Proof.
  intros Hl Hm H. unfold set_width. destruct m as [|sp np].
  - apply sum_over_false; auto.
  - rewrite !sum_over_false by (intros i Hi; rewrite H; auto). destruct Hm as (_ & Hn).
    assert (0 <= lg (Z.to_N np)) by (apply Hl; lia). lia.
Qed.

(** Adding one index. *)
Lemma set_width_add lg m d n p x : log_like lg -> dims_positive d -> (x < n)%nat -> p x = false ->
  set_width lg m d n (fun i => (x =? i)%nat || p i) =
  set_width lg m d n p +
  (match m with
   | Simple => log_dim lg d x
   | Sparse sp np =>
       if nth x sp false then
         Z.min (sum_over (fun i => p i && nth i sp false) (log_dim lg d) n + log_dim lg d x) (lg (Z.to_N np)) -
         Z.min (sum_over (fun i => p i && nth i sp false) (log_dim lg d) n) (lg (Z.to_N np))
       else log_dim lg d x
   end).
Proof.
  intros Hl Hd Hx Hp. unfold set_width. destruct m as [|sp np].
  - rewrite sum_over_add by auto. lia.
  - assert (E : forall g : nat -> bool, sum_over (fun i => ((x =? i)%nat || p i) && g i) (log_dim lg d) n =
      sum_over (fun i => p i && g i) (log_dim lg d) n + (if g x then log_dim lg d x else 0)).
    { intros g. destruct (g x) eqn:Hg.
      - rewrite <- (@sum_over_add (fun i => p i && g i) (log_dim lg d) n x) by (auto; rewrite Hp; auto).
        apply sum_over_ext. intros i Hi. destruct (Nat.eqb_spec x i) as [<-|]; simpl; auto.
      - rewrite Z.add_0_r. apply sum_over_ext. intros i Hi. destruct (Nat.eqb_spec x i) as [<-|]; simpl; auto.
        rewrite Hg, Hp. auto. }
    rewrite (E (fun i => negb (nth i sp false))), (E (fun i => nth i sp false)).
    destruct (nth x sp false); simpl; lia.
Qed.

(** An added index never adds more than its own logarithm. *)
Lemma set_width_add_le lg m d n p x : log_like lg -> dims_positive d -> (x < n)%nat -> p x = false ->
  set_width lg m d n (fun i => (x =? i)%nat || p i) <= set_width lg m d n p + log_dim lg d x.
Proof.
  intros Hl Hd Hx Hp. rewrite set_width_add by auto. pose proof (@log_dim_nonneg lg d Hl Hd x).
  destruct m as [|sp np]; [lia|]. destruct (nth x sp false); lia.
Qed.

Lemma lg_at_log_dim lg d x : lg_at lg d x = log_dim lg d x.
Proof. auto. Qed.

Lemma bflip_len b x : length (bflip b x) = length b.
Proof. apply upd_length. Qed.
Lemma bflip_test b x i : (x < length b)%nat -> btest (bflip b x) i = xorb (x =? i)%nat (btest b i).
Proof.
  intros H. unfold bflip. rewrite upd_test. apply Nat.ltb_lt in H. rewrite H, andb_true_r.
  destruct (Nat.eqb_spec x i) as [->|]; destruct (btest b i); auto.
Qed.

(** ** C19: delta_width is exact *)
Lemma dw_exact lg m b d n x : cmodel_ok (fm_cm m) n -> log_like lg -> dims_positive d -> length b = n -> (x < n)%nat ->
  width_of lg m (bflip b x) d = width_of lg m b d + delta_width_of lg m b d x.
Proof.
  intros Hm Hl Hd Hb Hx.
  rewrite !(@width_spec _ _ _ _ n) by (rewrite ?bflip_len; auto).
  unfold delta_width_of.
  assert (Hf : forall i, (i < n)%nat -> mem (bflip b x) i = xorb (x =? i)%nat (mem b i)) by (intros; apply bflip_test; lia).
  rewrite (set_width_ext lg (fm_cm m) d Hf).
  set (r := fun i => if (x =? i)%nat then false else mem b i).
  assert (Hr : r x = false) by (unfold r; rewrite Nat.eqb_refl; auto).
  pose proof (@set_width_add lg (fm_cm m) d n r x Hl Hd Hx Hr) as HA.
  destruct (btest b x) eqn:Hbx.
  - (* removed *)
    assert (E1 : set_width lg (fm_cm m) d n (fun i => xorb (x =? i)%nat (mem b i)) = set_width lg (fm_cm m) d n r).
    { apply set_width_ext. intros i Hi. unfold r. destruct (Nat.eqb_spec x i) as [<-|].
      - change (mem b x) with (btest b x). rewrite Hbx. auto.
      - destruct (mem b i); auto. }
    assert (E2 : set_width lg (fm_cm m) d n (mem b) = set_width lg (fm_cm m) d n (fun i => (x =? i)%nat || r i)).
    { apply set_width_ext. intros i Hi. unfold r. destruct (Nat.eqb_spec x i) as [<-|]; auto. }
    rewrite E1, E2, HA. destruct (fm_cm m) as [|sp np].
    + unfold dw_simple. rewrite Hbx. change (lg_at lg d x) with (log_dim lg d x). cbn [Z.b2z]. lia.
    + destruct Hm as (Hs & _). unfold dw_sparse, dw_simple, btest at 1. destruct (nth x sp false) eqn:Hsx.
      2:{ rewrite Hbx. change (lg_at lg d x) with (log_dim lg d x). cbn [Z.b2z]. lia. }
      rewrite !wmin_min, !w_simple_sum, !band_len by (rewrite ?bflip_len; congruence). rewrite bflip_len, Hb.
      rewrite (@sum_over_ext (btest (band (bflip b x) sp)) (fun i => r i && nth i sp false) _ (log_dim lg d)).
      2:{ intros i Hi. split; auto. rewrite band_test by (rewrite bflip_len; congruence). rewrite bflip_test by lia.
          unfold r. change (mem b i) with (btest b i). destruct (Nat.eqb_spec x i) as [<-|]; simpl; [rewrite Hbx; auto|destruct (btest b i); auto]. }
      rewrite (@sum_over_ext (btest (band b sp)) (fun i => (x =? i)%nat || (r i && nth i sp false)) _ (log_dim lg d)).
      2:{ intros i Hi. split; auto. rewrite band_test by congruence. unfold r. change (mem b i) with (btest b i).
          destruct (Nat.eqb_spec x i) as [<-|]; simpl; auto. rewrite Hbx. simpl. auto. }
      rewrite (@sum_over_add (fun i => r i && nth i sp false)) by (auto; rewrite Hr; auto). lia.
  - assert (E1 : set_width lg (fm_cm m) d n (fun i => xorb (x =? i)%nat (mem b i)) = set_width lg (fm_cm m) d n (fun i => (x =? i)%nat || r i)).
    { apply set_width_ext. intros i Hi. unfold r. destruct (Nat.eqb_spec x i) as [<-|].
      - change (mem b x) with (btest b x). rewrite Hbx. auto.
      - destruct (mem b i); auto. }
    assert (E2 : set_width lg (fm_cm m) d n (mem b) = set_width lg (fm_cm m) d n r).
    { apply set_width_ext. intros i Hi. unfold r. destruct (Nat.eqb_spec x i) as [<-|]; auto. }
    rewrite E1, E2, HA. destruct (fm_cm m) as [|sp np].
    + unfold dw_simple. rewrite Hbx. change (lg_at lg d x) with (log_dim lg d x). cbn [Z.b2z]. lia.
    + destruct Hm as (Hs & _). unfold dw_sparse, dw_simple, btest at 1. destruct (nth x sp false) eqn:Hsx.
      2:{ rewrite Hbx. change (lg_at lg d x) with (log_dim lg d x). cbn [Z.b2z]. lia. }
      rewrite !wmin_min, !w_simple_sum, !band_len by (rewrite ?bflip_len; congruence). rewrite bflip_len, Hb.
      rewrite (@sum_over_ext (btest (band (bflip b x) sp)) (fun i => (x =? i)%nat || (r i && nth i sp false)) _ (log_dim lg d)).
      2:{ intros i Hi. split; auto. rewrite band_test by (rewrite bflip_len; congruence). rewrite bflip_test by lia.
          unfold r. change (mem b i) with (btest b i). destruct (Nat.eqb_spec x i) as [<-|]; simpl; [rewrite Hbx; auto|destruct (btest b i); auto]. }
      rewrite (@sum_over_ext (btest (band b sp)) (fun i => r i && nth i sp false) _ (log_dim lg d)).
      2:{ intros i Hi. split; auto. rewrite band_test by congruence. unfold r. change (mem b i) with (btest b i).
          destruct (Nat.eqb_spec x i) as [<-|]; simpl; auto. rewrite Hbx. simpl. auto. }
      rewrite (@sum_over_add (fun i => r i && nth i sp false)) by (auto; rewrite Hr; auto). lia.
Qed.

Lemma width_mono lg m a b d n : cmodel_ok (fm_cm m) n -> log_like lg -> dims_positive d -> length a = n -> length b = n ->
  (forall i, btest a i = true -> btest b i = true) -> width_of lg m a d <= width_of lg m b d.
Proof.
  intros Hm Hl Hd La Lb H. rewrite !(@width_spec _ _ _ _ n) by auto. apply set_width_mono; auto.
Qed.

(** ** Sorting and shuffling keep the candidates *)
Lemma ins_sorted_perm gt x l : Permutation (ins_sorted gt x l) (x :: l).
Proof.
  induction l as [|y l IH]; simpl; auto. destruct (gt y x); auto.
  eapply perm_trans; [apply perm_skip; exact IH|]. apply perm_swap.
Qed.
Lemma stable_sort_perm gt l : Permutation (stable_sort gt l) l.
Proof.
  induction l as [|x l IH]; simpl; auto. eapply perm_trans; [apply ins_sorted_perm|]. apply perm_skip. auto.
Qed.


Section Slices.
  Variables (lg : N -> Z) (m : fmodel) (d : dims_t) (n : nat).
  Hypotheses (Hm : cmodel_ok (fm_cm m) n) (Hl : log_like lg) (Hd : dims_positive d).

  Lemma breset_flip xs x : btest xs x = true -> breset xs x = bflip xs x.
  Proof. intros H. unfold breset, bflip. rewrite H. auto. Qed.

  Lemma slice_loop_ok : forall pos slices xs w, NoDup pos ->
    (forall x, In x pos -> (x < n)%nat /\ btest xs x = true) ->
    length slices = n -> length xs = n -> w = width_of lg m xs d ->
    let sl := slice_loop lg m d pos slices xs w in
    length sl = n /\
    (forall i, btest sl i = true -> btest slices i = true \/ In i pos) /\
    (forall i, btest slices i = true -> btest sl i = true) /\
    ((forall x, In x pos -> btest sl x = true) \/
     forall ys, length ys = n -> (forall i, btest ys i = true -> btest xs i = true /\ btest sl i = false) ->
       width_of lg m ys d <= fm_max m).
  Proof.
    induction pos as [|x pos IH]; intros slices xs w Hnd Hpos Ls Lx Hw; cbn [slice_loop]; cbv zeta.
    - repeat split; auto.
    - inversion Hnd as [|? ? Hni Hnd']; subst x0 l.
      destruct (Hpos x (or_introl eq_refl)) as (Hx & Hxs).
      assert (Lb : length (bset slices x) = n) by (unfold bset; rewrite upd_length; auto).
      assert (Lr : length (breset xs x) = n) by (unfold breset; rewrite upd_length; auto).
      assert (E : w + delta_width_of lg m xs d x = width_of lg m (breset xs x) d).
      { rewrite (breset_flip Hxs), (dw_exact Hm Hl Hd Lx Hx). lia. }
      rewrite E. destruct (Z.leb_spec (width_of lg m (breset xs x) d) (fm_max m)) as [Hle|Hgt].
      + split; auto. split; [|split].
        * intros i. rewrite bset_test by lia. rewrite orb_true_iff, Nat.eqb_eq. simpl. tauto.
        * intros i Hi. rewrite bset_test by lia. rewrite Hi. apply orb_true_r.
        * right. intros ys Ly Hy. eapply Z.le_trans; [|exact Hle]. apply (width_mono Hm Hl Hd Ly Lr).
          intros i Hi. destruct (Hy i Hi) as (H1 & H2). rewrite bset_test in H2 by lia. apply orb_false_iff in H2.
          rewrite breset_test, H1. destruct H2 as (-> & _). auto.
      + destruct (IH (bset slices x) (breset xs x) (width_of lg m (breset xs x) d) Hnd') with (3 := Lr) as (H1 & H2 & H3 & H4); auto.
        { intros y Hy. destruct (Hpos y (or_intror Hy)) as (Hy1 & Hy2). split; auto.
          rewrite breset_test, Hy2. destruct (Nat.eqb_spec x y) as [->|]; auto; contradiction. }
        assert (Hset : forall i, btest slices i = true \/ i = x -> btest (bset slices x) i = true).
        { intros i Hi. rewrite bset_test by lia. rewrite orb_true_iff, Nat.eqb_eq. intuition. }
        split; auto. split; [|split].
        * intros i Hi. destruct (H2 i Hi) as [Hb|Hb]; [|simpl; auto]. rewrite bset_test in Hb by lia.
          rewrite orb_true_iff, Nat.eqb_eq in Hb. simpl. tauto.
        * intros i Hi. apply H3. auto.
        * destruct H4 as [H4|H4].
          -- left. intros y [->|Hy]; auto.
          -- right. intros ys Ly Hy. apply H4; auto. intros i Hi. destruct (Hy i Hi) as (G1 & G2). split; auto.
             rewrite breset_test, G1. destruct (Nat.eqb_spec x i) as [->|]; auto. rewrite H3 in G2 by auto. discriminate.
  Qed.
End Slices.

Lemma carries_test c v x : carries c v x = btest (ix (inds c) v) x.
Proof. auto. Qed.

Section GetSlices.
  Variables (R : Type) (lg : N -> Z) (m : fmodel) (fr : frand R) (c : ctree) (n : nat).
  Variables (skip : option bitset).
  Hypotheses (Hm : cmodel_ok (fm_cm m) n) (Hmax : 0 <= fm_max m) (Hl : log_like lg) (Hd : dims_positive (dims c)) (Hsh : shuffles fr).
  Hypotheses (W : well_formed (nodes c)) (Hs : shaped c n) (Hsk : match skip with Some k => length k = n | None => True end).
  Let wc := width_cache_make lg m c.

  Lemma wc_len : length wc = length (inds c).
  Proof. apply map_length. Qed.
  Lemma wc_nth v : (v < length (inds c))%nat -> nth v wc 0 = width_of lg m (ix (inds c) v) (dims c).
  Proof.
    intros Hv. unfold wc, width_cache_make. rewrite (nth_indep _ 0 (width_of lg m [] (dims c))) by (rewrite map_length; auto).
    rewrite (map_nth (fun xs => width_of lg m xs (dims c))). auto.
  Qed.
  Lemma ix_len v : (v < length (inds c))%nat -> length (ix (inds c) v) = n.
  Proof. intros Hv. apply Hs. apply nth_In. auto. Qed.

  (** Too wide before slicing. *)
  Definition too_wide (v : nat) : Prop := (v < length (inds c))%nat /\ fm_max m < width_of lg m (ix (inds c) v) (dims c).
  Definition good (sl : bitset) : Prop :=
    length sl = n /\ (forall x, btest sl x = true -> omem skip x = false) /\
    (forall x, btest sl x = true -> exists v, too_wide v /\ btest (ix (inds c) v) x = true).
  Definition skip_fit (v : nat) : Prop :=
    set_width lg (fm_cm m) (dims c) n (fun x => carries c v x && omem skip x) <= fm_max m.

  Lemma minus_skip_test xs x : length xs = n -> btest (minus_skip xs skip) x = btest xs x && negb (omem skip x).
  Proof.
    intros Lx. unfold minus_skip, omem. destruct skip as [k|].
    - rewrite bdiff_test by congruence. auto.
    - rewrite andb_true_r. auto.
  Qed.

  Lemma visit_ok sl r v : good sl -> (v < length (inds c))%nat ->
    exists sl' r', slice_visit lg m fr c skip wc (sl, r) v = Ok (sl', r') /\ good sl' /\
      (forall i, btest sl i = true -> btest sl' i = true) /\
      (skip_fit v -> width_of lg m (bdiff (ix (inds c) v) sl') (dims c) <= fm_max m).
  Proof.
    intros (Lsl & Gsk & Gw) Hv. unfold slice_visit.
    pose proof (ix_len Hv) as Lx.
    rewrite (@get_nth _ wc v 0) by (rewrite wc_len; auto). cbn [bind]. rewrite (wc_nth Hv).
    destruct (Z.ltb_spec (fm_max m) (width_of lg m (ix (inds c) v) (dims c))) as [Hbig|Hsmall].
    2:{ exists sl, r. split; auto. split; [split; auto|]. split; auto. intros _. eapply Z.le_trans; [|exact Hsmall].
        apply (width_mono Hm Hl Hd); auto. rewrite bdiff_len; congruence.
        intros i. rewrite bdiff_test by congruence. intros Hi. apply andb_true_iff in Hi. tauto. }
    rewrite (@get_nth _ (inds c) v []) by auto. cbn [bind]. change (nth v (inds c) []) with (ix (inds c) v).
    set (xs := bdiff (ix (inds c) v) sl).
    assert (Lxs : length xs = n) by (unfold xs; rewrite bdiff_len; congruence).
    destruct (Z.ltb_spec (fm_max m) (width_of lg m xs (dims c))) as [Hbig2|Hsmall2].
    2:{ exists sl, r. split; auto. split; [split; auto|]. split; auto. }
    pose proof (Hsh r (bpositions (minus_skip xs skip))) as Hp.
    destruct (shuffle fr r (bpositions (minus_skip xs skip))) as (p & r'). simpl in Hp.
    set (q := stable_sort (slice_greater lg c wc (fm_max m)) p).
    assert (Hq : Permutation q (bpositions (minus_skip xs skip))).
    { eapply perm_trans; [apply stable_sort_perm|exact Hp]. }
    assert (Hin : forall x, In x q <-> btest xs x = true /\ omem skip x = false).
    { intros x. split.
      - intros Hx. apply (Permutation_in x Hq) in Hx. apply bpositions_in in Hx. rewrite (minus_skip_test x Lxs) in Hx.
        apply andb_true_iff in Hx. rewrite negb_true_iff in Hx. auto.
      - intros (H1 & H2). apply (Permutation_in x (Permutation_sym Hq)). apply bpositions_in.
        rewrite (minus_skip_test x Lxs), H1, H2. auto. }
    destruct (slice_loop_ok Hm Hl Hd (pos := q) (slices := sl) (xs := xs) (w := width_of lg m xs (dims c))) as (H1 & H2 & H3 & H4); auto.
    { eapply Permutation_NoDup; [apply Permutation_sym; exact Hq|apply bpositions_nodup]. }
    { intros x Hx. apply Hin in Hx. destruct Hx as (Hx & _). split; auto. rewrite <- Lxs. apply btest_lt. auto. }
    eexists _, r'. split; [reflexivity|].
    set (sl' := slice_loop lg m (dims c) q sl xs (width_of lg m xs (dims c))) in *.
    split; [|split; [exact H3|]].
    - split; auto. split.
      + intros x Hx. destruct (H2 x Hx) as [Hb|Hb]; auto. apply Hin in Hb. tauto.
      + intros x Hx. destruct (H2 x Hx) as [Hb|Hb]; auto. apply Hin in Hb. destruct Hb as (Hb & _).
        unfold xs in Hb. rewrite bdiff_test in Hb by congruence. apply andb_true_iff in Hb.
        exists v. split; [split; auto|tauto].
    - intros Hfit. destruct H4 as [H4|H4].
      + eapply Z.le_trans; [|exact Hfit]. rewrite (@width_spec _ _ _ _ n) by (auto; rewrite bdiff_len; congruence).
        apply set_width_mono; auto. intros i _ Hi. change (mem (bdiff (ix (inds c) v) sl') i) with (btest (bdiff (ix (inds c) v) sl') i) in Hi.
        rewrite bdiff_test in Hi by congruence. apply andb_true_iff in Hi. destruct Hi as (Hi1 & Hi2).
        rewrite carries_test, Hi1. simpl. destruct (omem skip i) eqn:Hk; auto.
        rewrite H4 in Hi2; [discriminate|]. apply Hin. split; auto. unfold xs.
        rewrite bdiff_test by congruence. rewrite Hi1. simpl. destruct (btest sl i) eqn:Hb; auto.
        rewrite H3 in Hi2 by auto. discriminate.
      + apply H4; [rewrite bdiff_len; congruence|]. intros i Hi. rewrite bdiff_test in Hi by congruence.
        apply andb_true_iff in Hi. destruct Hi as (Hi1 & Hi2). apply negb_true_iff in Hi2. split; auto.
        unfold xs. rewrite bdiff_test by congruence. rewrite Hi1. simpl. destruct (btest sl i) eqn:Hb; auto.
        rewrite H3 in Hi2 by auto. discriminate.
  Qed.

  Lemma fold_slices order : forall sl r, good sl -> (forall v, In v order -> (v < length (inds c))%nat) ->
    exists sl' r', fold_res (slice_visit lg m fr c skip wc) order (sl, r) = Ok (sl', r') /\ good sl' /\
      (forall i, btest sl i = true -> btest sl' i = true) /\
      (forall v, In v order -> skip_fit v -> width_of lg m (bdiff (ix (inds c) v) sl') (dims c) <= fm_max m).
  Proof.
    induction order as [|v order IH]; intros sl r Hg Hv; cbn [fold_res].
    - exists sl, r. split; auto. split; auto. split; auto. intros v [].
    - destruct (visit_ok r Hg (Hv v (or_introl eq_refl))) as (sl1 & r1 & E1 & G1 & M1 & F1). rewrite E1. cbn [bind].
      destruct (IH sl1 r1 G1) as (sl2 & r2 & E2 & G2 & M2 & F2); [intros; apply Hv; right; auto|].
      exists sl2, r2. split; auto. split; auto. split; [auto|].
      intros u [->|Hu] Hf; [|auto]. specialize (F1 Hf). eapply Z.le_trans; [|exact F1].
      pose proof (ix_len (Hv u (or_introl eq_refl))) as Lx. destruct G1 as (L1 & _). destruct G2 as (L2 & _).
      apply (width_mono Hm Hl Hd); try (rewrite bdiff_len; congruence).
      intros i. rewrite !bdiff_test by congruence. rewrite !andb_true_iff, !negb_true_iff. intros (A & B). split; auto.
      destruct (btest sl1 i) eqn:Hb; auto. rewrite M2 in B by auto. discriminate.
  Qed.

  Lemma get_slices_ok r : exists sl r', get_slices lg m fr c skip r wc = Ok (sl, r') /\ good sl /\
    (forall v, (v < length (inds c))%nat -> skip_fit v -> width_of lg m (bdiff (ix (inds c) v) sl) (dims c) <= fm_max m).
  Proof.
    destruct W as (T & HT). unfold get_slices. rewrite (traverse_ok HT). cbn [bind].
    destruct (tree_of_in HT) as (Hnd & Hin). pose proof Hs as (HL & Hsz).
    assert (Hpos : (0 < length (nodes c))%nat).
    { destruct (nodes c) as [|x t] eqn:E; [|simpl; lia]. exfalso.
      assert (In (top T) (positions T)) by apply top_in. apply Hin in H. simpl in H. lia. }
    assert (En : n_inds c = n).
    { unfold n_inds. apply (ix_len (v := 0%nat)). lia. }
    assert (Hord : forall v, In v (postorder T) <-> (v < length (inds c))%nat).
    { intros v. rewrite HL, <- Hin. split; intros Hv; [apply (Permutation_in v (postorder_perm T))|
        apply (Permutation_in v (Permutation_sym (postorder_perm T)))]; auto. }
    destruct (@fold_slices (postorder T) (bempty (n_inds c)) r) as (sl & r' & E & G & _ & F).
    - split; [rewrite bempty_len; auto|]. split; intros x Hx; rewrite bempty_test in Hx; discriminate.
    - intros v Hv. apply Hord. auto.
    - exists sl, r'. split; auto. split; auto. intros v Hv. apply F. apply Hord. auto.
  Qed.
End GetSlices.
