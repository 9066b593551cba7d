(** Sweeps of the optimizer: scripted dice drive it along every sweep. *)
From Coq Require Import Permutation QArith Reals Qreals.
From Verif Require Import M_Base M_Bitset M_Tree M_CTree M_Cost M_Opt M_InfMem M_Prob S_Tree S_Opt S_Reach
  P_Base P_Bitset P_Tree P_Shape P_TreeProps P_Opt P_OptCost P_InfMem P_Canon P_InfMemMain P_InfMemFinal P_Reach.
Set Implicit Arguments.
Unset Strict Implicit.
Local Open Scope nat_scope.

(** ** The exchange is a function of its position *)
Lemma nd_node p l r : NoDup (positions (Nd p l r)) ->
  ~ In p (positions l) /\ ~ In p (positions r) /\ NoDup (positions l) /\ NoDup (positions r) /\
  (forall v, In v (positions l) -> In v (positions r) -> False).
Proof. intros H. apply (slot_nodup true p l r). exact H. Qed.

Lemma exchange_in d p l r T : NoDup (positions (Nd p l r)) -> exchange d (Nd p l r) T ->
  (In d (positions l) /\ d <> top l) \/ (In d (positions r) /\ d <> top r).
Proof.
  assert (G : forall S T, exchange d S T -> NoDup (positions S) -> In d (positions S) /\ d <> top S).
  { clear. induction 1 as [a b D E C H|a b D E C H|a b D E C H|a b D E C H|a l l' r H IH|a l r r' H IH]; intros ND;
      apply nd_node in ND; destruct ND as (N1 & N2 & N3 & N4 & N5); pose proof (top_in D) as tD || idtac;
      simpl in *; rewrite ?in_app_iff in *; simpl in *; rewrite ?in_app_iff in *; subst.
    - split; [tauto|]. intros <-. tauto.
    - split; [tauto|]. intros <-. tauto.
    - split; [tauto|]. intros <-. tauto.
    - split; [tauto|]. intros <-. tauto.
    - destruct (IH N3). split; auto. intros <-. auto.
    - destruct (IH N4). split; auto. intros <-. auto. }
  intros ND H. pose proof (nd_node ND) as (N1 & N2 & N3 & N4 & N5).
  inversion H; subst.
  - left. apply nd_node in N3. pose proof (top_in D). split; [simpl; rewrite in_app_iff; auto|].
    simpl. intros <-. tauto.
  - left. apply nd_node in N3. pose proof (top_in D). split; [simpl; rewrite in_app_iff; auto|].
    simpl. intros <-. tauto.
  - right. apply nd_node in N4. pose proof (top_in D). split; [simpl; rewrite in_app_iff; auto|].
    simpl. intros <-. tauto.
  - right. apply nd_node in N4. pose proof (top_in D). split; [simpl; rewrite in_app_iff; auto|].
    simpl. intros <-. tauto.
  - left. eapply G; eauto.
  - right. eapply G; eauto.
Qed.

Lemma exchange_pos d S T : exchange d S T -> In d (positions S).
Proof.
  induction 1; subst; try (pose proof (top_in D)); simpl; rewrite ?in_app_iff; simpl; rewrite ?in_app_iff; auto 6.
Qed.

Lemma exchange_det d T : NoDup (positions T) -> forall T1 T2, exchange d T T1 -> exchange d T T2 -> T1 = T2.
Proof.
  induction T as [p|p l IHl r IHr]; intros ND T1 T2 H1 H2; [inversion H1|].
  pose proof (nd_node ND) as (N1 & N2 & N3 & N4 & N5).
  assert (KL : forall b D E T, l = Nd b D E -> exchange d l T -> top D = d \/ top E = d -> False).
  { intros b D E T -> HX HD. pose proof (nd_node N3) as (M1 & M2 & M3 & M4 & M5).
    destruct (exchange_in N3 HX) as [(I1 & I2)|(I1 & I2)], HD as [<-|<-]; auto.
    - eapply M5; [exact I1|apply top_in].
    - eapply M5; [apply top_in|exact I1]. }
  assert (KR : forall b D E T, r = Nd b D E -> exchange d r T -> top D = d \/ top E = d -> False).
  { intros b D E T -> HX HD. pose proof (nd_node N4) as (M1 & M2 & M3 & M4 & M5).
    destruct (exchange_in N4 HX) as [(I1 & I2)|(I1 & I2)], HD as [<-|<-]; auto.
    - eapply M5; [exact I1|apply top_in].
    - eapply M5; [apply top_in|exact I1]. }
  assert (DL : forall b D E, l = Nd b D E -> top D = d -> top E = d -> False).
  { intros b D E -> E1 E2. pose proof (nd_node N3) as (M1 & M2 & M3 & M4 & M5).
    apply (M5 d); [rewrite <- E1|rewrite <- E2]; apply top_in. }
  assert (DR : forall b D E, r = Nd b D E -> top D = d -> top E = d -> False).
  { intros b D E -> E1 E2. pose proof (nd_node N4) as (M1 & M2 & M3 & M4 & M5).
    apply (M5 d); [rewrite <- E1|rewrite <- E2]; apply top_in. }
  assert (IL : forall b D E, l = Nd b D E -> top D = d \/ top E = d -> In d (positions l)).
  { intros b D E -> [<-|<-]; simpl; rewrite in_app_iff; pose proof (top_in D); pose proof (top_in E); auto. }
  assert (IR : forall b D E, r = Nd b D E -> top D = d \/ top E = d -> In d (positions r)).
  { intros b D E -> [<-|<-]; simpl; rewrite in_app_iff; pose proof (top_in D); pose proof (top_in E); auto. }
  inversion H1; subst; inversion H2; subst; auto;
    try (match goal with H : exchange _ _ _ |- _ => exfalso; eapply KL; [reflexivity|exact H|auto] end; fail);
    try (match goal with H : exchange _ _ _ |- _ => exfalso; eapply KR; [reflexivity|exact H|auto] end; fail);
    try (exfalso; eapply DL; [reflexivity| |]; eauto; fail);
    try (exfalso; eapply DR; [reflexivity| |]; eauto; fail);
    try (exfalso; eapply N5; [eapply IL; eauto|eapply IR; eauto]; fail);
    try (exfalso; eapply N5; [eapply IL; eauto|eapply exchange_pos; eauto]; fail);
    try (exfalso; eapply N5; [eapply exchange_pos; eauto|eapply IR; eauto]; fail);
    try (exfalso; eapply N5; eapply exchange_pos; eauto; fail).
  - f_equal. eapply IHl; eauto.
  - f_equal. eapply IHr; eauto.
Qed.

Lemma exchange_deep d T T' : NoDup (positions T) -> exchange d T T' -> ~ shallow d T.
Proof.
  intros ND H [Hn|[->|(p & l & r & -> & Hd)]].
  - apply Hn. eapply exchange_pos; eauto.
  - destruct T as [p|p l r]; [inversion H|]. pose proof (nd_node ND) as (N1 & N2 & _).
    destruct (exchange_in ND H) as [(I & _)|(I & _)]; simpl in I; tauto.
  - pose proof (nd_node ND) as (N1 & N2 & N3 & N4 & N5). pose proof (top_in l). pose proof (top_in r).
    destruct (exchange_in ND H) as [(I & J)|(I & J)], Hd as [-> | ->]; eauto.
Qed.

Lemma swap_to t T d T' : tree_of t T -> exchange d T T' -> exists t', swap_nn t d = Ok t' /\ tree_of t' T'.
Proof.
  intros HT HX. destruct (tree_of_in HT) as (ND & _).
  destruct (swap_deep HT (exchange_deep ND HX)) as (t' & T2 & E & HT2 & HX2).
  exists t'. split; auto. rewrite (exchange_det ND HX HX2). auto.
Qed.

(** ** A tree seen from one of its nodes *)
Definition ctx := list (bool * nat * bt).
Fixpoint plug (k : ctx) (T : bt) : bt :=
  match k with [] => T | (s, a, C) :: k => plug k (slot s a T C) end.
Definition sibs (k : ctx) : list bt := map snd k.

Lemma plug_app a b T : plug (a ++ b) T = plug b (plug a T).
Proof. revert T. induction a as [|((s & p) & C) a IH]; simpl; auto. Qed.

Lemma plug_exchange k d T T' : exchange d T T' -> exchange d (plug k T) (plug k T').
Proof.
  revert T T'. induction k as [|((s & p) & C) k IH]; simpl; auto. intros T T' H. apply IH.
  destruct s; simpl; [apply ex_left|apply ex_right]; auto.
Qed.

Lemma plug_subtree k T : subtree T (plug k T).
Proof.
  assert (G : forall k S T, subtree S T -> subtree S (plug k T)).
  { clear. induction k as [|((s & p) & C) k IH]; simpl; auto. intros S T H. apply IH.
    destruct s; simpl; [apply sub_left|apply sub_right]; auto. }
  apply G. constructor.
Qed.
Lemma subtree_trans A B : subtree A B -> forall C, subtree B C -> subtree A C.
Proof. intros H C H2. induction H2; auto; [apply sub_left|apply sub_right]; auto. Qed.
Lemma slot_sub1 s p x y : subtree x (slot s p x y).
Proof. destruct s; simpl; [apply sub_left|apply sub_right]; constructor. Qed.
Lemma slot_sub2 s p x y : subtree y (slot s p x y).
Proof. destruct s; simpl; [apply sub_right|apply sub_left]; constructor. Qed.

Lemma plug_unfolds t q k : forall T, unfolds t q (plug k T) ->
  exists q', unfolds t q' T /\ q' = match k with [] => q | (_, a, _) :: _ => Some a end.
Proof.
  intros T H. assert (HS := H). destruct k as [|((s & a) & C) k]; simpl in *; [eauto|].
  assert (Hs : subtree (slot s a T C) (plug k (slot s a T C))) by apply plug_subtree.
  destruct (subtree_unfolds Hs H) as (q' & U). apply slot_unfolds in U. destruct U as (_ & U & _). eauto.
Qed.

Lemma slot_len s p x y : length (positions (slot s p x y)) = S (length (positions x) + length (positions y)).
Proof. destruct s; simpl; rewrite app_length; lia. Qed.
Lemma pos_pos T : 0 < length (positions T). Proof. destruct T; simpl; lia. Qed.
Lemma plug_len k : forall T, length k + length (positions T) <= length (positions (plug k T)).
Proof.
  induction k as [|((s & a) & C) k IH]; simpl; intros T; auto.
  specialize (IH (slot s a T C)). rewrite slot_len in IH. lia.
Qed.

Lemma leaf_plug T w : In w (leaves T) -> exists k, T = plug k (Lf w).
Proof.
  induction T as [p|p l IHl r IHr]; simpl.
  - intros [->|[]]. exists []. auto.
  - rewrite in_app_iff. intros [H|H].
    + destruct (IHl H) as (k & E). exists (k ++ [(true, p, r)]). rewrite plug_app. simpl. congruence.
    + destruct (IHr H) as (k & E). exists (k ++ [(false, p, l)]). rewrite plug_app. simpl. congruence.
Qed.

(** ** Forgetting positions *)
Fixpoint er (T : bt) : ut := match T with Lf p => L p | Nd _ l r => N (er l) (er r) end.
Lemma er_lv T : lv (er T) = leaves T.
Proof. induction T; simpl; congruence. Qed.
Lemma er_slot s p x y : like (er (slot s p x y)) (N (er x) (er y)).
Proof. destruct s; simpl; [apply like_refl|apply like_comm]. Qed.
Lemma er_plug k : forall T, like (er (plug k T)) (cat (er T) (map er (sibs k))).
Proof.
  induction k as [|((s & a) & C) k IH]; simpl; intros T; [apply like_refl|].
  eapply like_trans; [apply IH|]. apply like_cat. apply er_slot.
Qed.
Lemma er_like T : forall T', like (er T) (er T') -> same_order T T'.
Proof.
  induction T as [p|p l IHl r IHr]; intros [q|q l' r'] H; simpl in H; inversion H; subst.
  - constructor.
  - apply so_node; auto.
  - apply so_flip; auto.
Qed.

(** The spine of a leaf is unique. *)
Lemma spine_unique w : forall ss ss', like (cat (L w) ss) (cat (L w) ss') -> NoDup (lv (cat (L w) ss)) ->
  Forall2 like ss ss'.
Proof.
  intros ss. induction ss as [|c ss IH] using rev_ind; intros ss' H ND.
  - destruct ss' as [|c' ss' _] using rev_ind; auto. rewrite cat_app in H. simpl in H. inversion H.
  - rewrite cat_app in H, ND. cbn [cat] in H, ND. destruct ss' as [|c' ss' _] using rev_ind; [simpl in H; inversion H|].
    rewrite cat_app in H. cbn [cat] in H. pose proof (like_lv H) as HP.
    cbn [lv] in ND. apply nodup_app in ND. destruct ND as (N1 & N2 & N3).
    inversion H as [|? ? ? ? Ha Hb|? ? ? ? Ha Hb]; subst.
    + apply Forall2_app; auto.
    + exfalso. apply (N3 w).
      * rewrite lv_cat. simpl. auto.
      * eapply Permutation_in; [apply Permutation_sym, like_lv; exact Hb|]. rewrite lv_cat. simpl. auto.
Qed.

(** ** Sharing, from the leaves *)
Lemma leaves_sub S T p : subtree S T -> In p (leaves S) -> In p (leaves T).
Proof. intros H. induction H; simpl; auto; intros; rewrite in_app_iff; auto. Qed.
Lemma bint_comm a : forall b, bintersects a b = bintersects b a.
Proof.
  unfold bintersects, band, bany. induction a as [|x a IH]; intros [|y b]; simpl; auto.
  rewrite IH, andb_comm. auto.
Qed.
Section Link.
Variables (c : ctree) (n : nat) (out : nat -> Prop) (T : bt) (ds : bool).
Hypothesis HC : core (nodes c) (inds c) n.
Hypothesis HT : tree_of (nodes c) T.
Hypothesis HX : exact_inds c out.

Definition adj (p q : nat) : bool := ds || bintersects (ix (inds c) p) (ix (inds c) q).

Lemma sub_lt S : subtree S T -> top S < length (nodes c).
Proof.
  intros H. destruct (tree_of_in HT) as (_ & Hin). apply Hin. eapply subtree_in; eauto. apply top_in.
Qed.
Lemma leaf_lt S p : subtree S T -> In p (leaves S) -> p < length (nodes c).
Proof.
  intros H Hp. destruct (tree_of_in HT) as (_ & Hin). apply Hin. eapply subtree_in; eauto.
  apply leaves_in. auto.
Qed.

Lemma exact_at S x : subtree S T -> has c (top S) x <-> below c S x /\ (outside c T S x \/ out x).
Proof.
  destruct HX as (T' & HT' & H). assert (T' = T).
  { destruct HT as (U & _ & E & _), HT' as (U' & _ & E' & _). eapply unfolds_unique; eauto. congruence. }
  subst. auto.
Qed.

Lemma meet p q : p < length (nodes c) -> q < length (nodes c) ->
  (bintersects (ix (inds c) p) (ix (inds c) q) = true <-> share c p q).
Proof.
  intros Lp Lq. rewrite bintersects_spec by (rewrite !(co_sz HC) by auto; auto). unfold share.
  pose proof (co_len HC). split; intros (i & H1 & H2); exists i; rewrite !has_ix in *.
  - split; split; auto; lia.
  - tauto.
Qed.

Lemma link X Y : subtree X T -> subtree Y T -> (forall p, In p (leaves X) -> In p (leaves Y) -> False) ->
  (sh adj (er X) (er Y) = true <-> ds = true \/ bintersects (ix (inds c) (top X)) (ix (inds c) (top Y)) = true).
Proof.
  intros SX SY Hd. rewrite sh_iff. unfold adj. split.
  - intros (p & q & Hp & Hq & H). rewrite er_lv in Hp, Hq. apply orb_true_iff in H. destruct H as [H|H]; auto.
    right. apply (meet (leaf_lt SX Hp) (leaf_lt SY Hq)) in H.
    apply (meet (sub_lt SX) (sub_lt SY)). destruct H as (i & H1 & H2). exists i.
    rewrite (exact_at i SX), (exact_at i SY). split; (split; [eexists; eauto|left; eexists]).
    + split; [apply (leaves_sub SY Hq)|]. split; eauto.
    + split; [apply (leaves_sub SX Hp)|]. split; eauto.
  - intros [->|H].
    + pose proof (lv_pos (er X)). pose proof (lv_pos (er Y)). destruct (lv (er X)) as [|p l]; [simpl in *; lia|].
      destruct (lv (er Y)) as [|q l']; [simpl in *; lia|]. exists p, q. simpl. auto.
    + apply (meet (sub_lt SX) (sub_lt SY)) in H. destruct H as (i & H1 & H2).
      rewrite (exact_at i SX) in H1. rewrite (exact_at i SY) in H2.
      destruct H1 as ((p & Hp & Ip) & _), H2 as ((q & Hq & Iq) & _).
      exists p, q. rewrite !er_lv. split; auto. split; auto. apply orb_true_iff. right.
      apply (meet (leaf_lt SX Hp) (leaf_lt SY Hq)). exists i. auto.
Qed.

Lemma adj_sym p q : adj p q = adj q p.
Proof. unfold adj. f_equal. apply bint_comm. Qed.

Lemma er_valid : (ds = false -> all_share c) -> valid adj (er T).
Proof.
  intros HS. assert (G : forall S, subtree S T -> valid adj (er S)).
  { induction S as [p|p l IHl r IHr]; simpl; auto. intros SS.
    assert (Sl : subtree l T) by (eapply subtree_trans; [|exact SS]; apply sub_left; constructor).
    assert (Sr : subtree r T) by (eapply subtree_trans; [|exact SS]; apply sub_right; constructor).
    split; auto. split; auto. apply (link Sl Sr).
    - destruct (tree_of_in HT) as (ND & _).
      assert (NS : NoDup (positions (Nd p l r))).
      { clear - SS ND. induction SS; auto; apply nd_node in ND; tauto. }
      apply nd_node in NS. intros v H1 H2. apply (proj2 (proj2 (proj2 (proj2 NS))) v); apply leaves_in; auto.
    - destruct ds; auto. right. apply (meet (sub_lt Sl) (sub_lt Sr)).
      destruct HT as (HU & _). destruct (subtree_unfolds SS HU) as (q & U). destruct U as (Hn & _).
      eapply HS; eauto. }
  apply G. constructor.
Qed.
End Link.

(** ** One iteration, scripted *)
Section Iter.
Variables (R : Type) (s : im_state R) (A B C D E : nat).
Let xs := inds (im_ct s).
Let newb := bor (bor (bxor (nth D xs []) (nth C xs [])) (nth A (im_hyper s) [])) (nth B (im_hyper s) []).
Let kA := ccost_of (im_cm s) (nth A xs []) newb (nth E xs []) (dims (im_ct s)).
Let kB := ccost_of (im_cm s) newb (nth D xs []) (nth C xs []) (dims (im_ct s)).
Definition it_delta : Z := ((kB - nth B (ccost (im_cc s)) 0) + (kA - nth A (ccost (im_cc s)) 0))%Z.
Let k2 := upd (upd (ccost (im_cc s)) B kB) A kA.
Let p1 := upd (pcost (im_cc s)) B (nth D (pcost (im_cc s)) 0 + nth C (pcost (im_cc s)) 0 + nth B k2 0)%Z.
Definition it_next (t' : tree) : im_state R :=
  mkIM (mkCT t' (upd xs B newb) (dims (im_ct s))) (im_ds s) (im_rng s) (im_min_ct s) (im_cm s)
    (mkCC (upd p1 A (nth B p1 0 + nth E p1 0 + nth A k2 0)%Z) k2)
    (upd (upd (im_hyper s) A (band (band (nth A xs []) newb) (nth E xs [])))
         B (band (band newb (nth D xs [])) (nth C xs []))) (im_min s).

Lemma iter_script n w (rd : rand R) total r r1 r2 t' :
  inv s n w -> A < length (nodes (im_ct s)) -> B < length (nodes (im_ct s)) -> C < length (nodes (im_ct s)) ->
  D < length (nodes (im_ct s)) -> E < length (nodes (im_ct s)) ->
  get_ctree_nn rd (im_ct s) (im_ds s) r (Some B) = Ok (Some (A, C, D, E), r1) ->
  accept rd r1 it_delta total = (true, r2) ->
  swap_nn (nodes (im_ct s)) E = Ok t' ->
  im_iter rd (with_rng s r) total B = Ok (with_rng (it_next t') r2, Some ((total + it_delta)%Z, A)).
Proof.
  intros [HC (LH & _) (LK & _) (LP & _)] LA LB LC LD LE Hnn Hacc Hsw.
  pose proof (co_len HC) as LX.
  unfold im_iter. cbn [with_rng im_ct im_ds im_rng im_hyper im_cc im_cm im_min_ct im_min].
  rewrite Hnn. cbv beta iota zeta. unfold bind at 1.
  rewrite (@get_nth _ (inds (im_ct s)) A []), (@get_nth _ (inds (im_ct s)) B []), (@get_nth _ (inds (im_ct s)) C []),
    (@get_nth _ (inds (im_ct s)) D []), (@get_nth _ (inds (im_ct s)) E []) by lia.
  rewrite (@get_nth _ (im_hyper s) A []), (@get_nth _ (im_hyper s) B []) by lia.
  rewrite (@get_nth _ (ccost (im_cc s)) A 0%Z), (@get_nth _ (ccost (im_cc s)) B 0%Z) by lia. cbn [bind].
  fold xs. fold newb. fold kA kB. fold it_delta. rewrite Hacc, Hsw. cbn [bind].
  rewrite (@set_ok _ xs), (@set_ok _ (im_hyper s)) by (unfold xs; lia). cbn [bind].
  rewrite set_ok by (rewrite upd_length; lia). cbn [bind].
  rewrite (@set_ok _ (ccost (im_cc s))) by lia. cbn [bind].
  rewrite set_ok by (rewrite upd_length; lia). cbn [bind]. fold k2.
  rewrite (@get_nth _ (pcost (im_cc s)) D 0%Z), (@get_nth _ (pcost (im_cc s)) C 0%Z) by lia. cbn [bind].
  assert (Lk2 : length k2 = length (nodes (im_ct s))) by (unfold k2; rewrite !upd_length; auto).
  rewrite (@get_nth _ k2 B 0%Z) by lia. cbn [bind]. rewrite set_ok by lia. cbn [bind]. fold p1.
  assert (Lp1 : length p1 = length (nodes (im_ct s))) by (unfold p1; rewrite !upd_length; auto).
  rewrite (@get_nth _ p1 B 0%Z), (@get_nth _ p1 E 0%Z), (@get_nth _ k2 A 0%Z) by lia. cbn [bind].
  rewrite set_ok by lia. reflexivity.
Qed.
End Iter.

Lemma slot_negb s p x y : slot (negb s) p x y = slot s p y x.
Proof. destruct s; auto. Qed.

Lemma nn_script c n out ds prob sA A C k sb B x y :
  core (nodes c) (inds c) n -> exact_inds c out ->
  tree_of (nodes c) (plug ((sA, A, C) :: k) (slot sb B x y)) ->
  sh (adj c ds) (er x) (er C) = true ->
  exists pre, forall ir ur, get_ctree_nn (dice_rand prob) c ds (pre ++ ir, ur) (Some B) =
    Ok (Some (A, top C, top x, top y), (ir, ur)).
Proof.
  intros HC HX HT Hs. cbn [plug] in HT. set (T := plug k (slot sA A (slot sb B x y) C)) in *.
  assert (S0 : subtree (slot sA A (slot sb B x y) C) T) by apply plug_subtree.
  assert (S1 : subtree (slot sb B x y) T) by (eapply subtree_trans; [apply slot_sub1|exact S0]).
  assert (S2 : subtree C T) by (eapply subtree_trans; [apply slot_sub2|exact S0]).
  assert (S3 : subtree x T) by (eapply subtree_trans; [apply slot_sub1|exact S1]).
  assert (S4 : subtree y T) by (eapply subtree_trans; [apply slot_sub2|exact S1]).
  pose proof HT as (HU & _). destruct (tree_of_in HT) as (ND & _).
  destruct (subtree_unfolds S0 HU) as (pA & U0). apply slot_unfolds in U0. destruct U0 as (NA & U1 & UC).
  rewrite slot_top in NA. apply slot_unfolds in U1. destruct U1 as (NB & Ux & Uy).
  assert (N0 : NoDup (positions (slot sA A (slot sb B x y) C))).
  { clear - S0 ND. induction S0; auto; apply nd_node in ND; tauto. }
  apply slot_nodup in N0. destruct N0 as (M1 & M2 & M3 & M4 & M5).
  assert (HBC : top C <> B).
  { intros <-. apply (M5 (top C)); [apply slot_positions; auto|apply top_in]. }
  assert (Hxc : ds = true \/ bintersects (ix (inds c) (top x)) (ix (inds c) (top C)) = true).
  { apply (@link c n out T ds HC HT HX x C); auto. intros p H1 H2. apply (M5 p); [|apply leaves_in; auto].
    apply slot_positions. right. left. apply leaves_in. auto. }
  assert (HCp : (if oeqb (pick sA B (top C)) (Some B) then pick sA (top C) B else pick sA B (top C)) = Some (top C)).
  { destruct sA; simpl; [rewrite Nat.eqb_refl; auto|]. rewrite (proj2 (Nat.eqb_neq (top C) B)) by auto. auto. }
  pose proof (sub_lt HT S2) as LC. pose proof (sub_lt HT S3) as Lx. pose proof (sub_lt HT S4) as Ly.
  pose proof (co_len HC) as LX.
  set (b := ds || (bintersects (ix (inds c) (top x)) (ix (inds c) (top C)) && bintersects (ix (inds c) (top y)) (ix (inds c) (top C)))).
  exists (if b then [if sb then 1 else 0] else []). intros ir ur.
  unfold get_ctree_nn. rewrite (get_some NB). cbn [bind is_root is_leaf par c0 c1].
  destruct sb; cbn [pick orb andb]; cbv beta iota zeta; unfold is_root, is_leaf; cbn [par c0 c1];
    rewrite (get_some NA); cbn [bind c0 c1]; rewrite HCp; 
    rewrite (@get_nth _ (inds c) (top C) []), (@get_nth _ (inds c) (top x) []), (@get_nth _ (inds c) (top y) []) by lia;
    cbn [bind]; rewrite !ix_nth.
  - fold b. destruct b eqn:Eb; simpl; [reflexivity|].
    unfold b in Eb. apply orb_false_iff in Eb. destruct Eb as (-> & Eb).
    destruct Hxc as [|Hxc]; [discriminate|]. rewrite Hxc. reflexivity.
  - rewrite (andb_comm (bintersects (ix (inds c) (top y)) _)). fold b. destruct b eqn:Eb; simpl; [reflexivity|].
    unfold b in Eb. apply orb_false_iff in Eb. destruct Eb as (-> & Eb).
    destruct Hxc as [|Hxc]; [discriminate|]. rewrite Hxc in Eb. simpl in Eb. rewrite Eb. reflexivity.
Qed.

(** ** Loops, scripted *)
Lemma sh_ext a1 a2 u v : (forall p q, In p (lv u) -> In q (lv v) -> a1 p q = a2 p q) -> sh a1 u v = sh a2 u v.
Proof.
  intros H. destruct (sh a1 u v) eqn:E1, (sh a2 u v) eqn:E2; auto.
  - apply sh_iff in E1. destruct E1 as (p & q & Hp & Hq & E). assert (sh a2 u v = true); [|congruence].
    apply sh_iff. exists p, q. rewrite <- H; auto.
  - apply sh_iff in E2. destruct E2 as (p & q & Hp & Hq & E). assert (sh a1 u v = true); [|congruence].
    apply sh_iff. exists p, q. rewrite H; auto.
Qed.
Lemma sh_like a u u' v v' : like u u' -> like v v' -> sh a u v = true -> sh a u' v' = true.
Proof. intros H1 H2. apply sh_incl; apply perm_incl; apply like_lv; auto. Qed.

Lemma inv_env (R : Type) (s : im_state R) n w r : inv (with_rng s r) n w -> inv s n w.
Proof. intros [H1 H2 H3 H4]. constructor; auto. Qed.

Section Run.
Variables (c0 : ctree) (n : nat) (out : nat -> Prop) (ds : bool).
Hypothesis HC0 : core (nodes c0) (inds c0) n.
Hypothesis HX0 : exact_inds c0 out.
Let ad := adj c0 ds.

Definition good (s : im_state dice) (w : nat -> Prop) : Prop :=
  inv s n w /\ im_ds s = ds /\ moves ds c0 (im_ct s).

Lemma good_exact s w : good s w -> exact_inds (im_ct s) out.
Proof. intros (_ & _ & H). eapply moves_exact; eauto. Qed.

Lemma moves_adj c T p q : moves ds c0 c -> tree_of (nodes c) T -> In p (leaves T) -> In q (leaves T) ->
  adj c ds p q = ad p q.
Proof.
  intros Hm HT Hp Hq. destruct (moves_keep HC0 Hm) as (EL & Hk & _).
  pose proof HT as (_ & _ & _ & Hlv). rewrite Hlv in Hp, Hq. rewrite EL in Hp, Hq.
  assert (G : forall v, v < (length (nodes c0) + 1) / 2 -> ix (inds c) v = ix (inds c0) v).
  { intros v Hv. apply Hk. destruct HX0 as (T0 & HT0 & _). pose proof HT0 as (HU0 & _ & _ & Hlv0).
    apply Hlv0 in Hv. clear - HU0 Hv. revert HU0 Hv. generalize (@None nat).
    induction T0 as [a|a l IHl r IHr]; simpl; intros o U H.
    - destruct H as [<-|[]]. exists o. auto.
    - destruct U as (_ & U1 & U2). rewrite in_app_iff in H. destruct H; eauto. }
  unfold ad, adj. rewrite !G; auto.
Qed.

Definition small (eps : R) (us : list Q) : Prop := Forall (fun u => (Q2R u <= eps)%R) us.

Lemma small_weaken e e' us : (e <= e')%R -> small e us -> small e' us.
Proof. intros H. apply Forall_impl. intros u Hu. eapply Rle_trans; eauto. Qed.

Lemma iter_step prob sA A C k sb B x y s total :
  (forall d t, (0 < prob d t)%R) ->
  good s (fun v => parent (nodes (im_ct s)) B v) -> total = sumZ (ccost (im_cc s)) ->
  tree_of (nodes (im_ct s)) (plug ((sA, A, C) :: k) (slot sb B x y)) ->
  sh ad (er x) (er C) = true ->
  exists pre eps (s1 : im_state dice) total1, (0 < eps)%R /\
    (forall ir u ur, (Q2R u <= eps)%R ->
       im_iter (dice_rand prob) (with_rng s (pre ++ ir, u :: ur)) total B =
         Ok (with_rng s1 (ir, ur), Some (total1, A))) /\
    good s1 (fun v => parent (nodes (im_ct s1)) A v) /\ total1 = sumZ (ccost (im_cc s1)) /\ same_env s s1 /\
    tree_of (nodes (im_ct s1)) (plug k (slot sA A (slot sb B x C) y)).
Proof.
  intros Hp HG Ht HT Hs. pose proof (good_exact HG) as HX. destruct HG as (HI & Eds & Hmv).
  pose proof (iv_core HI) as HC.
  assert (Hs' : sh (adj (im_ct s) ds) (er x) (er C) = true).
  { rewrite <- Hs. apply sh_ext. intros p q Hi Hj. rewrite er_lv in Hi, Hj. eapply moves_adj; eauto; cbn [plug].
    - eapply leaves_sub; [|exact Hi]. eapply subtree_trans; [|apply plug_subtree].
      eapply subtree_trans; [|apply slot_sub1]. apply slot_sub1.
    - eapply leaves_sub; [|exact Hj]. eapply subtree_trans; [|apply plug_subtree]. apply slot_sub2. }
  destruct (@nn_script _ _ _ _ prob _ _ _ _ _ _ _ _ HC HX HT Hs') as (pre & Hnn).
  assert (Hex : exchange (top y) (plug ((sA, A, C) :: k) (slot sb B x y)) (plug k (slot sA A (slot sb B x C) y))).
  { cbn [plug]. apply plug_exchange. pose proof (exchange_slot sA (negb sb) A B x y C) as H.
    rewrite !slot_negb in H. exact H. }
  destruct (swap_to HT Hex) as (t' & Hsw & HT').
  set (T := plug ((sA, A, C) :: k) (slot sb B x y)) in *.
  assert (S0 : subtree (slot sA A (slot sb B x y) C) T) by (unfold T; cbn [plug]; apply plug_subtree).
  assert (S1 : subtree (slot sb B x y) T) by (eapply subtree_trans; [apply slot_sub1|exact S0]).
  assert (LA : A < length (nodes (im_ct s))) by (pose proof (sub_lt HT S0) as H; rewrite slot_top in H; auto).
  assert (LB : B < length (nodes (im_ct s))) by (pose proof (sub_lt HT S1) as H; rewrite slot_top in H; auto).
  assert (LC : top C < length (nodes (im_ct s))) by (apply (sub_lt HT); eapply subtree_trans; [apply slot_sub2|exact S0]).
  assert (Lx : top x < length (nodes (im_ct s))) by (apply (sub_lt HT); eapply subtree_trans; [apply slot_sub1|exact S1]).
  assert (Ly : top y < length (nodes (im_ct s))) by (apply (sub_lt HT); eapply subtree_trans; [apply slot_sub2|exact S1]).
  set (dl := it_delta s A B (top C) (top x) (top y)).
  set (s1 := it_next s A B (top C) (top x) (top y) t').
  assert (Hrun : forall ir u ur, (Q2R u <= prob dl total)%R ->
       im_iter (dice_rand prob) (with_rng s (pre ++ ir, u :: ur)) total B =
         Ok (with_rng s1 (ir, ur), Some ((total + dl)%Z, A))).
  { intros ir u ur Hu. apply (@iter_script _ s A B (top C) (top x) (top y) n _ (dice_rand prob) total _ (ir, u :: ur) (ir, ur) t' HI); auto.
    - rewrite Eds. apply Hnn.
    - fold dl. simpl. destruct (Rle_dec (Q2R u) (prob dl total)); [reflexivity|contradiction]. }
  exists pre, (prob dl total), s1, (total + dl)%Z. split; auto. split; auto.
  assert (Hz : (Q2R 0 <= prob dl total)%R).
  { unfold Q2R. simpl. rewrite Rmult_0_l. apply Rlt_le. auto. }
  pose proof (Hrun [] 0%Q [] Hz) as E1.
  destruct (@im_iter_spec _ (dice_rand prob) (with_rng s (pre ++ [], 0%Q :: [])) n total B) as
    [(r & E & _)|(s' & tot' & A' & E & PB & PB' & HI' & (F1 & F2 & F3 & F4) & Ht' & Hcl & Hm)]; auto.
  - apply inv_rng; auto.
  - rewrite E1 in E. discriminate.
  - rewrite E1 in E. inversion E as [[G1 G2 G3]]. clear E. subst s' A'. rewrite <- G2 in Ht', Hm. clear G2. simpl in F1, F2, F3, F4, Ht', Hm.
    split; [|split; [exact Ht'|split]].
    + split; [apply (inv_env HI')|]. split; [rewrite <- Eds; exact F1|].
      destruct Hm as [(Ec & _)|(Hm & _)].
      * assert (Ec' : im_ct s1 = im_ct s) by exact Ec. rewrite Ec'. exact Hmv.
      * eapply moves_trans; [exact Hmv|]. rewrite <- Eds. econstructor; [exact Hm|constructor].
    + split; auto.
    + exact HT'.
Qed.

Lemma sweep_loop prob : (forall d t, (0 < prob d t)%R) ->
  forall ux uy us a b, sweep ad ux uy us a b ->
  forall k sb B x y s total fuel,
  like (er x) ux -> like (er y) uy -> Forall2 like (map er (sibs k)) us ->
  tree_of (nodes (im_ct s)) (plug k (slot sb B x y)) ->
  good s (fun v => parent (nodes (im_ct s)) B v) -> total = sumZ (ccost (im_cc s)) -> length k < fuel ->
  exists pre eps m (s' : im_state dice), (0 < eps)%R /\
    (forall ir us ur, length us = m -> small eps us ->
       im_loop (dice_rand prob) fuel (with_rng s (pre ++ ir, us ++ ur)) total B = Ok (with_rng s' (ir, ur))) /\
    good s' none /\ same_env s s' /\
    exists T', tree_of (nodes (im_ct s')) T' /\ like (er T') (N a b).
Proof.
  intros Hp ux uy us a b Hsw.
  induction Hsw as [ux uy|ux uy Cu us a b Hs Hsw IH|ux uy Cu us a b Hs Hsw IH];
    intros k sb B x y s total fuel Lx Ly HF HT HG Ht Hf.
  - destruct k as [|? k]; [|inversion HF]. destruct fuel as [|f]; [lia|].
    exists [], 1%R, 0, s. split; [apply Rlt_0_1|].
    cbn [plug] in HT. pose proof HT as (HU & _). apply slot_unfolds in HU. destruct HU as (HB & _).
    split.
    { intros ir us ur Lu _. destruct us; [|discriminate]. simpl. unfold im_iter, get_ctree_nn. simpl.
      rewrite (get_some HB). simpl. reflexivity. }
    split.
    { destruct HG as (HI & HG). split; auto. destruct HI as [H1 H2 H3 (L4 & H4 & H5)]. constructor; auto.
      split; auto. split; [|auto]. intros v a b K _. apply H4; auto.
      intros (m & Hm & Hpm). rewrite HB in Hm. inversion Hm; subst. simpl in Hpm. discriminate. }
    split; [repeat split; auto|].
    exists (slot sb B x y). split; auto. eapply like_trans; [apply er_slot|]. apply lk_node; auto.
  - destruct k as [|((sA & A) & C) k]; [inversion HF|]. simpl in HF. inversion HF as [|? ? ? ? HC1 HF']; subst.
    assert (Hs1 : sh ad (er x) (er C) = true) by (eapply sh_like; [| |exact Hs]; apply like_sym; auto).
    destruct (@iter_step prob sA A C k sb B x y s _ Hp HG eq_refl HT Hs1)
      as (pre & eps & s1 & tot1 & He & Hrun & HG1 & Ht1 & Henv & HT1).
    destruct fuel as [|f]; [lia|]. simpl in Hf.
    destruct (IH k sA A (slot sb B x C) y s1 tot1 f) as (pre2 & eps2 & m2 & s2 & He2 & Hrun2 & HG2 & Henv2 & HT2); auto; try lia.
    { eapply like_trans; [apply er_slot|]. apply lk_node; auto. }
    exists (pre ++ pre2), (Rmin eps eps2), (S m2), s2. split; [apply Rmin_pos; auto|]. split.
    { intros ir us0 ur Lu Hu. destruct us0 as [|u us0]; [discriminate|]. inversion Hu as [|? ? Hu1 Hu2]; subst.
      cbn [im_loop]. rewrite <- app_assoc. cbn [app]. rewrite Hrun.
      - cbn [bind]. apply Hrun2; [simpl in Lu; lia|]. eapply small_weaken; [|exact Hu2]. apply Rmin_r.
      - eapply Rle_trans; [exact Hu1|]. apply Rmin_l. }
    split; auto. split; auto.
    destruct Henv as (D1 & D2 & D3 & D4). destruct Henv2 as (F1 & F2 & F3 & F4). repeat split; congruence.
  - destruct k as [|((sA & A) & C) k]; [inversion HF|]. simpl in HF. inversion HF as [|? ? ? ? HC1 HF']; subst.
    assert (Hs1 : sh ad (er y) (er C) = true) by (eapply sh_like; [| |exact Hs]; apply like_sym; auto).
    rewrite <- (negb_involutive sb), slot_negb in HT.
    destruct (@iter_step prob sA A C k (negb sb) B y x s _ Hp HG eq_refl HT Hs1)
      as (pre & eps & s1 & tot1 & He & Hrun & HG1 & Ht1 & Henv & HT1).
    destruct fuel as [|f]; [lia|]. simpl in Hf.
    rewrite <- (slot_negb sA A x) in HT1.
    destruct (IH k (negb sA) A x (slot (negb sb) B y C) s1 tot1 f) as (pre2 & eps2 & m2 & s2 & He2 & Hrun2 & HG2 & Henv2 & HT2); auto; try lia.
    { eapply like_trans; [apply er_slot|]. apply lk_node; auto. }
    exists (pre ++ pre2), (Rmin eps eps2), (S m2), s2. split; [apply Rmin_pos; auto|]. split.
    { intros ir us0 ur Lu Hu. destruct us0 as [|u us0]; [discriminate|]. inversion Hu as [|? ? Hu1 Hu2]; subst.
      cbn [im_loop]. rewrite <- app_assoc. cbn [app]. rewrite Hrun.
      - cbn [bind]. apply Hrun2; [simpl in Lu; lia|]. eapply small_weaken; [|exact Hu2]. apply Rmin_r.
      - eapply Rle_trans; [exact Hu1|]. apply Rmin_l. }
    split; auto. split; auto.
    destruct Henv as (D1 & D2 & D3 & D4). destruct Henv2 as (F1 & F2 & F3 & F4). repeat split; congruence.
Qed.

(** ** One update, scripted *)
Lemma update_step prob s T v : (forall d t, (0 < prob d t)%R) -> good s none -> tree_of (nodes (im_ct s)) T ->
  step ad (er T) v ->
  exists pre eps m (s' : im_state dice), (0 < eps)%R /\
    (forall ir us ur, length us = m -> small eps us ->
       im_update (dice_rand prob) (with_rng s (pre ++ ir, us ++ ur)) = Ok (with_rng s' (ir, ur))) /\
    good s' none /\ im_cm s' = im_cm s /\
    exists T', tree_of (nodes (im_ct s')) T' /\ like (er T') v.
Proof.
  intros Hp HG HT (w & u1 & us & a & b & H1 & H2 & H3).
  assert (Hw : In w (leaves T)).
  { rewrite <- er_lv. eapply Permutation_in; [apply Permutation_sym, like_lv; exact H1|]. rewrite lv_cat. simpl. auto. }
  destruct (leaf_plug Hw) as (k & ->).
  destruct (tree_of_in HT) as (ND & Hin).
  assert (NDl : NoDup (leaves (plug k (Lf w)))).
  { clear - ND. induction (plug k (Lf w)) as [p|p l IHl r IHr]; simpl in *; [constructor; auto; constructor|].
    apply (@nd_node p) in ND. destruct ND as (N1 & N2 & N3 & N4 & N5). apply nodup_app. split; auto. split; auto.
    intros z Hz Hz'. apply (N5 z); apply leaves_in; auto. }
  assert (HF : Forall2 like (map er (sibs k)) (u1 :: us)).
  { apply (@spine_unique w).
    - eapply like_trans; [|exact H1]. apply like_sym. apply (er_plug k (Lf w)).
    - eapply Permutation_NoDup; [|exact NDl]. rewrite <- er_lv. apply like_lv. apply (er_plug k (Lf w)). }
  destruct k as [|((sb & B) & y) k]; [inversion HF|]. simpl in HF. inversion HF as [|? ? ? ? Hy HF']; subst.
  cbn [plug] in HT, ND, NDl, Hin. pose proof HG as (HI & Eds & Hmv).
  pose proof HT as (HU & _ & _ & Hlv).
  assert (S0 : subtree (slot sb B (Lf w) y) (plug k (slot sb B (Lf w) y))) by apply plug_subtree.
  destruct (subtree_unfolds S0 HU) as (q & U0). apply slot_unfolds in U0. destruct U0 as (NB & Uw & _). simpl in Uw.
  assert (Lw : w < n_leaves (nodes (im_ct s))) by (apply Hlv; exact Hw).
  assert (HGB : good s (fun v => parent (nodes (im_ct s)) B v)).
  { split; [|auto]. apply (inv_weaken HI). intros z []. }
  assert (Hfuel : length k < length (nodes (im_ct s))).
  { pose proof (plug_len k (slot sb B (Lf w) y)) as H. pose proof (pos_pos (slot sb B (Lf w) y)).
    destruct HT as (_ & HP & _). apply Permutation_length in HP. rewrite seq_length in HP. lia. }
  destruct (@sweep_loop prob Hp _ _ _ _ _ H2 k sb B (Lf w) y s _ (length (nodes (im_ct s))) (like_refl _) Hy HF' HT HGB eq_refl Hfuel)
    as (pre & eps & m & s1 & He & Hrun & HG1 & (F1 & F2 & F3 & F4) & T' & HT' & Hl).
  set (s2 := if (tot s1 <? im_min s1)%Z
             then mkIM (im_ct s1) (im_ds s1) (im_rng s1) (im_ct s1) (im_cm s1) (im_cc s1) (im_hyper s1) (tot s1) else s1).
  exists (w :: pre), eps, m, s2. split; auto. split; [|split; [|split]].
  - intros ir us0 ur Lu Hu. unfold im_update. cbn [draw dice_rand r_rand next_int fst snd with_rng im_rng im_ct app].
    rewrite Nat.mod_small by auto. rewrite (get_some Uw). cbn [bind par].
    change (with_rng (with_rng s (w :: pre ++ ir, us0 ++ ur)) (pre ++ ir, us0 ++ ur)) with (with_rng s (pre ++ ir, us0 ++ ur)).
    rewrite (im_total_ok (inv_rng _ HI)). cbn [bind].
    change (tot (with_rng s (pre ++ ir, us0 ++ ur))) with (sumZ (ccost (im_cc s))).
    rewrite (Hrun ir us0 ur Lu Hu). cbn [bind]. unfold im_update_min. rewrite (im_total_ok (inv_rng _ (proj1 HG1))). cbn [bind].
    unfold s2. change (tot (with_rng s1 (ir, ur))) with (tot s1). simpl.
    destruct (tot s1 <? im_min s1)%Z; reflexivity.
  - destruct HG1 as (HI1 & E1 & M1). unfold s2, good. destruct (tot s1 <? im_min s1)%Z; [|auto].
    split; [|auto]. destruct HI1. constructor; auto.
  - unfold s2. destruct (tot s1 <? im_min s1)%Z; simpl; auto.
  - exists T'. split; [unfold s2; destruct (tot s1 <? im_min s1)%Z; auto|]. eapply like_trans; eauto.
Qed.

Lemma step_left u u' v : like u' u -> step ad u v -> step ad u' v.
Proof. intros E (w & x & us & a & b & H1 & H2 & H3). exists w, x, us, a, b. split; auto. eapply like_trans; eauto. Qed.

(** ** A run, scripted *)
Lemma reach_run : forall u v, reach ad u v -> forall (prob : nat -> Z -> Z -> R) s T,
  (forall i d t, (0 < prob i d t)%R) -> good s none -> tree_of (nodes (im_ct s)) T -> like (er T) u ->
  forall i0,
  exists K ints eps m (s' : im_state dice), (0 < eps)%R /\
    (forall ir us ur, length us = m -> small eps us ->
       im_run (map (fun i => dice_rand (prob i)) (seq i0 K)) (with_rng s (ints ++ ir, us ++ ur)) = Ok (with_rng s' (ir, ur))) /\
    good s' none /\ im_cm s' = im_cm s /\
    exists T', tree_of (nodes (im_ct s')) T' /\ like (er T') v.
Proof.
  induction 1 as [u v H|u v x H1 H2 IH]; intros prob s T Hp HG HT HL i0.
  - exists 0, [], 1%R, 0, s. split; [apply Rlt_0_1|]. split.
    { intros ir us ur Lu _. destruct us; [|discriminate]. reflexivity. }
    split; auto. split; auto. exists T. split; auto. eapply like_trans; eauto.
  - destruct (@update_step (prob i0) s T v (Hp i0) HG HT (step_left HL H1))
      as (pre & eps & m & s1 & He & Hrun & HG1 & Ecm & T1 & HT1 & HL1).
    destruct (IH prob s1 T1 Hp HG1 HT1 HL1 (S i0)) as (K & ints & eps2 & m2 & s2 & He2 & Hrun2 & HG2 & Ecm2 & T2 & HT2 & HL2).
    exists (S K), (pre ++ ints), (Rmin eps eps2), (m + m2), s2. split; [apply Rmin_pos; auto|]. split.
    { intros ir us ur Lu Hu. cbn [seq map im_run].
      rewrite <- (firstn_skipn m us) in Hu |- *. apply Forall_app in Hu. destruct Hu as (Hu1 & Hu2).
      rewrite <- !app_assoc. rewrite Hrun; [|rewrite firstn_length; lia|].
      - cbn [bind]. apply Hrun2; [rewrite skipn_length; lia|]. eapply small_weaken; [|exact Hu2]. apply Rmin_r.
      - eapply small_weaken; [|exact Hu1]. apply Rmin_l. }
    split; auto. split; [rewrite Ecm2; exact Ecm|]. exists T2. auto.
Qed.
End Run.
