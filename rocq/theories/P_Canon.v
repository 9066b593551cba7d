(** Moves keep the index sets exact, and with exact sets they keep "every
    contraction shares an index". *)
From Coq Require Import Permutation Relations.
From Verif Require Import M_Base M_Bitset M_Tree M_CTree M_Cost M_Opt M_InfMem S_Tree S_Opt
  P_Base P_Bitset P_Tree P_Shape P_TreeProps P_TreeValid P_Opt P_OptCost P_InfMem.
Set Implicit Arguments.
Unset Strict Implicit.

Definition leq (S S' : bt) : Prop := forall l, In l (leaves S) <-> In l (leaves S').

(** The five subtrees around an exchange. *)
Record five (T SA SB SC SD SE : bt) (a b : nat) : Prop := {
  fv_A : subtree SA T; fv_B : subtree SB T; fv_C : subtree SC T; fv_D : subtree SD T; fv_E : subtree SE T;
  fv_ta : top SA = a; fv_tb : top SB = b;
  fv_lA : forall l, In l (leaves SA) <-> In l (leaves SB) \/ In l (leaves SC);
  fv_lB : forall l, In l (leaves SB) <-> In l (leaves SD) \/ In l (leaves SE);
  fv_BC : forall l, In l (leaves SB) -> In l (leaves SC) -> False;
  fv_DE : forall l, In l (leaves SD) -> In l (leaves SE) -> False;
  fv_kA : forall t q, unfolds t q T -> kids2 t a b (top SC);
  fv_kB : forall t q, unfolds t q T -> kids2 t b (top SD) (top SE)
}.

Lemma sub_trans_l S p l r : subtree S l -> subtree S (Nd p l r). Proof. apply sub_left. Qed.

Lemma subtree_top_in S T : subtree S T -> In (top S) (positions T).
Proof. intros H. apply (subtree_in H). apply top_in. Qed.

Lemma subtree_trans R S T : subtree R S -> subtree S T -> subtree R T.
Proof. intros H1 H2. induction H2; [auto|apply sub_left; auto|apply sub_right; auto]. Qed.

Lemma five_up T SA SB SC SD SE a b p r : five T SA SB SC SD SE a b ->
  five (Nd p T r) SA SB SC SD SE a b /\ five (Nd p r T) SA SB SC SD SE a b.
Proof.
  intros [? ? ? ? ? ? ? ? ? ? ? KA KB]. split; constructor; auto; try (constructor; assumption); simpl;
    intros t q (H1 & H2 & H3); eauto.
Qed.

Lemma sub_leaves S T l : subtree S T -> In l (leaves S) -> In l (leaves T).
Proof. intros H. induction H; auto; intros Hi; simpl; apply in_or_app; auto. Qed.

Lemma exch_five E T T' : exchange E T T' -> NoDup (positions T) ->
  exists SA SB SC SD SE a b, five T SA SB SC SD SE a b /\ top SE = E /\
    (forall S', subtree S' T' ->
      (top S' <> b /\ exists S, subtree S T /\ top S = top S' /\ leq S S') \/
      (top S' = b /\ forall l, In l (leaves S') <-> In l (leaves SD) \/ In l (leaves SC))).
Proof.
  assert (Lin : forall T l, In l (leaves T) -> In l (positions T)) by (intros; apply leaves_in; auto).
  assert (Base : forall p x y a (Q : Prop), NoDup (p :: positions x ++ positions y) -> In a (positions x) -> a = p -> Q).
  { intros p x y a Q Hnd Hi ->. inversion Hnd; subst. exfalso. apply H1. apply in_or_app; auto. }
  intros H. induction H as [a b D E0 C HE|a b D E0 C HE|a b D E0 C HE|a b D E0 C HE|p l l' r H IH|p l r r' H IH];
    intros Hnd; simpl in Hnd.
  1,2: inversion Hnd as [|? ? Na Nx]; subst;
    inversion Nx as [|? ? Nb Nr]; subst.
  1:{ simpl in Na; rewrite !in_app_iff in Na, Nb.
    apply nodup_app in Nr. destruct Nr as (N1 & N2 & N3). apply nodup_app in N1. destruct N1 as (N4 & N5 & N6).
    exists (Nd a (Nd b D E0) C), (Nd b D E0), C, E0, D, a, b. split; [constructor; simpl; auto|split; auto].
    - constructor. - apply sub_left; constructor. - apply sub_right; constructor. - apply sub_left, sub_right; constructor. - apply sub_left, sub_left; constructor.
    - intros x. rewrite !in_app_iff. tauto.
    - intros x. rewrite !in_app_iff. tauto.
    - intros x Hx Hy. apply (N3 x); auto. apply in_or_app. apply in_app_or in Hx. destruct Hx; auto.
    - intros x Hx Hy. apply (N6 x); auto.
    - intros t q (H1 & H2 & H3). exists q. auto.
    - intros t q (H1 & (H2 & H3 & H4) & H5). exists (Some a). auto.
    - intros S' HS. inversion HS; subst; clear HS.
      + left. simpl. split; [intros ->; tauto|]. eexists. split; [apply sub_here|]. split; auto.
        intros x. simpl. rewrite !in_app_iff. tauto.
      + inversion H0; subst; clear H0.
        * right. simpl. split; auto. intros x. rewrite in_app_iff. tauto.
        * left. pose proof (subtree_top_in H1). split; [intros Eb; rewrite Eb in *; tauto|].
          exists S'. split; [apply sub_right; auto|]. split; auto. intros x; tauto.
        * left. pose proof (subtree_top_in H1). split; [intros Eb; rewrite Eb in *; tauto|].
          exists S'. split; [apply sub_left, sub_right; auto|]. split; auto. intros x; tauto.
      + left. pose proof (subtree_top_in H0). split; [intros Eb; rewrite Eb in *; tauto|].
        exists S'. split; [apply sub_left, sub_left; auto|]. split; auto. intros x; tauto. }
  1:{ simpl in Na; rewrite !in_app_iff in Na, Nb.
    apply nodup_app in Nr. destruct Nr as (N1 & N2 & N3). apply nodup_app in N1. destruct N1 as (N4 & N5 & N6).
    exists (Nd a (Nd b E0 D) C), (Nd b E0 D), C, E0, D, a, b. split; [constructor; simpl; auto|split; auto].
    - constructor. - apply sub_left; constructor. - apply sub_right; constructor. - apply sub_left, sub_left; constructor. - apply sub_left, sub_right; constructor.
    - intros x. rewrite !in_app_iff. tauto.
    - intros x. rewrite !in_app_iff. tauto.
    - intros x Hx Hy. apply (N3 x); auto. apply in_or_app. apply in_app_or in Hx. destruct Hx; auto.
    - intros x Hx Hy. apply (N6 x); auto.
    - intros t q (H1 & H2 & H3). exists q. auto.
    - intros t q (H1 & (H2 & H3 & H4) & H5). exists (Some a). auto.
    - intros S' HS. inversion HS; subst; clear HS.
      + left. simpl. split; [intros ->; tauto|]. eexists. split; [apply sub_here|]. split; auto.
        intros x. simpl. rewrite !in_app_iff. tauto.
      + inversion H0; subst; clear H0.
        * right. simpl. split; auto. intros x. rewrite in_app_iff. tauto.
        * left. pose proof (subtree_top_in H1). split; [intros Eb; rewrite Eb in *; tauto|].
          exists S'. split; [apply sub_left, sub_left; auto|]. split; auto. intros x; tauto.
        * left. pose proof (subtree_top_in H1). split; [intros Eb; rewrite Eb in *; tauto|].
          exists S'. split; [apply sub_right; auto|]. split; auto. intros x; tauto.
      + left. pose proof (subtree_top_in H0). split; [intros Eb; rewrite Eb in *; tauto|].
        exists S'. split; [apply sub_left, sub_right; auto|]. split; auto. intros x; tauto. }
  1,2: inversion Hnd as [|? ? Na Nx]; subst;
    apply nodup_app in Nx; destruct Nx as (NC & Nx & N3);
    inversion Nx as [|? ? Nb Nr]; subst;
    assert (NbC : ~ In b (positions C)) by (intros Hi; apply (N3 b); simpl; auto);
    rewrite !in_app_iff in Na, Nb; simpl in Na; rewrite !in_app_iff in Na;
    apply nodup_app in Nr; destruct Nr as (N4 & N5 & N6).
  1:{ exists (Nd a C (Nd b D E0)), (Nd b D E0), C, E0, D, a, b. split; [constructor; simpl; auto|split; auto].
    - constructor. - apply sub_right; constructor. - apply sub_left; constructor.
    - apply sub_right, sub_right; constructor. - apply sub_right, sub_left; constructor.
    - intros x. rewrite !in_app_iff. tauto.
    - intros x. rewrite !in_app_iff. tauto.
    - intros x Hx Hy. apply (N3 x); auto. right. apply in_or_app. apply in_app_or in Hx. destruct Hx; auto.
    - intros x Hx Hy. apply (N6 x); auto.
    - intros t q (H1 & H2 & H3). exists q. auto.
    - intros t q (H1 & H5 & (H2 & H3 & H4)). exists (Some a). auto.
    - intros S' HS. inversion HS; subst; clear HS.
      + left. simpl. split; [intros ->; tauto|]. eexists. split; [apply sub_here|]. split; auto.
        intros x. simpl. rewrite !in_app_iff. tauto.
      + left. pose proof (subtree_top_in H0). split; [intros Eb; rewrite Eb in *; tauto|].
        exists S'. split; [apply sub_right, sub_left; auto|]. split; auto. intros x; tauto.
      + inversion H0; subst; clear H0.
        * right. simpl. split; auto. intros x. rewrite in_app_iff. tauto.
        * left. pose proof (subtree_top_in H1). split; [intros Eb; rewrite Eb in *; tauto|].
          exists S'. split; [apply sub_left; auto|]. split; auto. intros x; tauto.
        * left. pose proof (subtree_top_in H1). split; [intros Eb; rewrite Eb in *; tauto|].
          exists S'. split; [apply sub_right, sub_right; auto|]. split; auto. intros x; tauto. }
  1:{ exists (Nd a C (Nd b E0 D)), (Nd b E0 D), C, E0, D, a, b. split; [constructor; simpl; auto|split; auto].
    - constructor. - apply sub_right; constructor. - apply sub_left; constructor.
    - apply sub_right, sub_left; constructor. - apply sub_right, sub_right; constructor.
    - intros x. rewrite !in_app_iff. tauto.
    - intros x. rewrite !in_app_iff. tauto.
    - intros x Hx Hy. apply (N3 x); auto. right. apply in_or_app. apply in_app_or in Hx. destruct Hx; auto.
    - intros x Hx Hy. apply (N6 x); auto.
    - intros t q (H1 & H2 & H3). exists q. auto.
    - intros t q (H1 & H5 & (H2 & H3 & H4)). exists (Some a). auto.
    - intros S' HS. inversion HS; subst; clear HS.
      + left. simpl. split; [intros ->; tauto|]. eexists. split; [apply sub_here|]. split; auto.
        intros x. simpl. rewrite !in_app_iff. tauto.
      + left. pose proof (subtree_top_in H0). split; [intros Eb; rewrite Eb in *; tauto|].
        exists S'. split; [apply sub_right, sub_right; auto|]. split; auto. intros x; tauto.
      + inversion H0; subst; clear H0.
        * right. simpl. split; auto. intros x. rewrite in_app_iff. tauto.
        * left. pose proof (subtree_top_in H1). split; [intros Eb; rewrite Eb in *; tauto|].
          exists S'. split; [apply sub_right, sub_left; auto|]. split; auto. intros x; tauto.
        * left. pose proof (subtree_top_in H1). split; [intros Eb; rewrite Eb in *; tauto|].
          exists S'. split; [apply sub_left; auto|]. split; auto. intros x; tauto. }
  - inversion Hnd as [|? ? Na Nx]; subst. apply nodup_app in Nx. destruct Nx as (N1 & N2 & N3).
    destruct (IH N1) as (SA & SB & SC & SD & SE & a & b & F & HE & HS).
    exists SA, SB, SC, SD, SE, a, b. split; [apply (five_up p r F)|]. split; auto.
    assert (Hb : In b (positions l)) by (rewrite <- (fv_tb F); apply subtree_top_in; apply F).
    intros S' HS'. inversion HS' as [|? ? ? H0|? ? ? H0]; subst.
    + left. simpl. split; [intros ->; apply Na; apply in_or_app; auto|].
      exists (Nd p l r). split; [constructor|]. split; auto. intros x. simpl. rewrite !in_app_iff.
      assert (In x (leaves l) <-> In x (leaves l')).
      { pose proof (exchange_leaves H) as P. split; apply Permutation_in; auto. apply Permutation_sym; auto. }
      tauto.
    + destruct (HS _ H0) as [(H1 & S & H2 & H3)|H1]; auto. left. split; auto. exists S. split; auto. constructor; auto.
    + left. pose proof (subtree_top_in H0). split; [intros Eb; rewrite Eb in *; apply (N3 b); auto|].
      exists S'. split; [apply sub_right; auto|]. split; auto. intros x; tauto.
  - inversion Hnd as [|? ? Na Nx]; subst. apply nodup_app in Nx. destruct Nx as (N1 & N2 & N3).
    destruct (IH N2) as (SA & SB & SC & SD & SE & a & b & F & HE & HS).
    exists SA, SB, SC, SD, SE, a, b. split; [apply (five_up p l F)|]. split; auto.
    assert (Hb : In b (positions r)) by (rewrite <- (fv_tb F); apply subtree_top_in; apply F).
    intros S' HS'. inversion HS' as [|? ? ? H0|? ? ? H0]; subst.
    + left. simpl. split; [intros ->; apply Na; apply in_or_app; auto|].
      exists (Nd p l r). split; [constructor|]. split; auto. intros x. simpl. rewrite !in_app_iff.
      assert (In x (leaves r) <-> In x (leaves r')).
      { pose proof (exchange_leaves H) as P. split; apply Permutation_in; auto. apply Permutation_sym; auto. }
      tauto.
    + left. pose proof (subtree_top_in H0). split; [intros Eb; rewrite Eb in *; apply (N3 b); auto|].
      exists S'. split; [apply sub_left; auto|]. split; auto. intros x; tauto.
    + destruct (HS _ H0) as [(H1 & S & H2 & H3)|H1]; auto. left. split; auto. exists S. split; auto. apply sub_right; auto.
Qed.

(** ** Index sets as propositions *)
Lemma has_ix c v x : has c v x <-> v < length (inds c) /\ btest (ix (inds c) v) x = true.
Proof.
  unfold has. split.
  - intros (b & Hb & Hx). split; [eapply nth_error_lt; eauto|].
    assert (E : ix (inds c) v = b) by (apply nth_error_nth; auto). rewrite E.
    unfold btest. apply nth_error_nth. auto.
  - intros (Hv & Hx). exists (ix (inds c) v). split; [apply nth_error_nth'; auto|].
    unfold btest in Hx. destruct (nth_error (ix (inds c) v) x) as [y|] eqn:Ey.
    + rewrite (nth_error_nth _ _ false Ey) in Hx. congruence.
    + apply nth_error_None in Ey. rewrite nth_overflow in Hx by auto. discriminate.
Qed.

Lemma iff_bool (b : bool) (P : Prop) : (b = true <-> P) -> {P} + {~ P}.
Proof. intros H. destruct b; [left; apply H; auto|right]. intros HP. apply H in HP. discriminate. Qed.

(** The heart: one bit, with d, e, c, o the occurrences below D, E, C and
    elsewhere. *)
Lemma newB_bits (A B C D E : bool) (d e c o : Prop) :
  (D = true <-> d /\ ((c \/ e) \/ o)) -> (E = true <-> e /\ ((c \/ d) \/ o)) ->
  (C = true <-> c /\ ((d \/ e) \/ o)) -> (B = true <-> (d \/ e) /\ (c \/ o)) ->
  (A = true <-> ((d \/ e) \/ c) /\ o) ->
  (xorb D C || (A && B && C) || (B && D && E) = true <-> (d \/ c) /\ (e \/ o)).
Proof.
  intros HD HE HC HB HA. destruct D, C; simpl.
  - destruct HD as (HD & _). destruct HC as (HC & _). specialize (HD eq_refl). specialize (HC eq_refl).
    destruct HD as (Hd & _). destruct HC as (Hc & _).
    assert (B = true) by (apply HB; clear - Hd Hc; tauto). subst B. rewrite andb_true_r.
    rewrite orb_true_iff, andb_true_iff. destruct HA as (HA1 & HA2). destruct HE as (HE1 & HE2). split.
    + intros [(Ha & _)|Hb]; [apply HA1 in Ha; clear - Ha Hd|apply HE1 in Hb; clear - Hb Hd]; tauto.
    + intros (_ & [He|Ho]); [right; apply HE2; clear - He Hc; tauto|left; split; auto; apply HA2; clear - Ho Hc; tauto].
  - split; auto. intros _. destruct HD as (HD & _). specialize (HD eq_refl). destruct HD as (Hd & Hr).
    assert (~ c).
    { intros Hc. assert (false = true) by (apply HC; clear - Hc Hd; tauto). discriminate. }
    clear - Hd Hr H. tauto.
  - split; auto. intros _. destruct HC as (HC & _). specialize (HC eq_refl). destruct HC as (Hc & Hr).
    assert (~ d).
    { intros Hd. assert (false = true) by (apply HD; clear - Hc Hd; tauto). discriminate. }
    clear - Hc Hr H. tauto.
  - rewrite !andb_false_r. simpl. split; [discriminate|]. intros ([Hd|Hc] & Heo).
    + assert (false = true) by (apply HD; clear - Hd Heo; tauto). discriminate.
    + assert (false = true) by (apply HC; clear - Hc Heo; tauto). discriminate.
Qed.

(** ** Preservation by a move *)
Section Move.
  Variables (c c' : ctree) (n : nat) (out : nat -> Prop) (T : bt).
  Hypothesis HC : core (nodes c) (inds c) n.
  Variables (sA sE : bool) (A B C D E : nat) (pA : option nat) (nC nD nE : node).
  Hypothesis H : nbh (nodes c) sA sE A B C D E pA nC nD nE.
  Hypothesis Ec' : c' = mkCT (rot (nodes c) sA sE A B C D E pA nC nE)
    (upd (inds c) B (newB (ix (inds c) A) (ix (inds c) B) (ix (inds c) C) (ix (inds c) D) (ix (inds c) E)))
    (dims c).
  Hypothesis HT : tree_of (nodes c) T.
  Hypothesis HX : forall S, subtree S T -> forall x,
      has c (top S) x <-> below c S x /\ (outside c T S x \/ out x).

  Lemma has_other v x : v <> B -> (has c' v x <-> has c v x).
  Proof.
    intros Hv. rewrite !has_ix. subst c'. simpl. rewrite upd_length. unfold ix at 1.
    rewrite upd_nth_neq by auto. reflexivity.
  Qed.

  Lemma five_ids SA SB SC SD SE a b : five T SA SB SC SD SE a b -> top SE = E ->
    a = A /\ b = B /\ top SC = C /\ top SD = D.
  Proof.
    intros F HE. pose proof HT as (HU & _). pose proof (fv_kA F HU) as KA. pose proof (fv_kB F HU) as KB.
    pose proof (co_wf HC) as W. rewrite HE in KB.
    assert (b = B).
    { eapply (kid_uniq_parent W); [apply (kids2_kid KB)|]. apply (kids2_kid (nbh_kids2B H)). }
    subst b. assert (a = A).
    { eapply (kid_uniq_parent W); [exact (proj1 (kids2_kid KA))|]. exact (proj1 (kids2_kid (nbh_kids2A H))). }
    subst a. destruct (nbh_neq H) as (n1&n2&n3&n4&n5&n6&n7&n8&n9&n10).
    destruct (kids2_fun (nbh_kids2A H) KA) as [(_ & ->)|(E1 & E2)]; [|congruence].
    destruct (kids2_fun (nbh_kids2B H) KB) as [(-> & _)|(E1 & E2)]; [auto|congruence].
  Qed.

  Lemma leaf_not_B l : In l (leaves T) -> l <> B.
  Proof.
    intros Hl ->. pose proof HT as (HU & _ & _ & Hlv).
    apply Hlv in Hl. pose proof H as (_ & HB & _).
    apply (wl_leaf (co_wf HC) HB) in Hl. simpl in Hl. destruct sE; discriminate.
  Qed.

  (** Occurrences of index [x]. *)
  Lemma occ_bits SA SB SC SD SE x : five T SA SB SC SD SE A B -> top SC = C -> top SD = D -> top SE = E ->
    let o := outside c T SA x \/ out x in
    (has c D x <-> below c SD x /\ ((below c SC x \/ below c SE x) \/ o)) /\
    (has c E x <-> below c SE x /\ ((below c SC x \/ below c SD x) \/ o)) /\
    (has c C x <-> below c SC x /\ ((below c SD x \/ below c SE x) \/ o)) /\
    (has c B x <-> (below c SD x \/ below c SE x) /\ (below c SC x \/ o)) /\
    (has c A x <-> ((below c SD x \/ below c SE x) \/ below c SC x) /\ o).
  Proof.
    intros F EC ED EE o. destruct F as [FA FB FC FD FE ta tb lA lB BC DE _ _].
    assert (oD : outside c T SD x <-> (below c SC x \/ below c SE x) \/ outside c T SA x).
    { unfold outside, below. split.
      - intros (l & H1 & H2 & H3). destruct (in_dec Nat.eq_dec l (leaves SA)) as [Hi|Hi]; [|right; eauto].
        apply lA in Hi. rewrite lB in Hi. destruct Hi as [[Hi|Hi]|Hi]; [contradiction| |]; left; eauto.
      - intros [[(l & H1 & H2)|(l & H1 & H2)]|(l & H1 & H2 & H3)]; exists l.
        + split; [apply (sub_leaves FC H1)|]. split; auto. intros Hd. apply (BC l); auto. apply lB; auto.
        + split; [apply (sub_leaves FE H1)|]. split; auto. intros Hd. apply (DE l); auto.
        + split; auto. split; auto. intros Hd. apply H2. apply lA. left. apply lB. auto. }
    assert (oE : outside c T SE x <-> (below c SC x \/ below c SD x) \/ outside c T SA x).
    { unfold outside, below. split.
      - intros (l & H1 & H2 & H3). destruct (in_dec Nat.eq_dec l (leaves SA)) as [Hi|Hi]; [|right; eauto].
        apply lA in Hi. rewrite lB in Hi. destruct Hi as [[Hi|Hi]|Hi]; [|contradiction|]; left; eauto.
      - intros [[(l & H1 & H2)|(l & H1 & H2)]|(l & H1 & H2 & H3)]; exists l.
        + split; [apply (sub_leaves FC H1)|]. split; auto. intros Hd. apply (BC l); auto. apply lB; auto.
        + split; [apply (sub_leaves FD H1)|]. split; auto. intros Hd. apply (DE l); auto.
        + split; auto. split; auto. intros Hd. apply H2. apply lA. left. apply lB. auto. }
    assert (oC : outside c T SC x <-> (below c SD x \/ below c SE x) \/ outside c T SA x).
    { unfold outside, below. split.
      - intros (l & H1 & H2 & H3). destruct (in_dec Nat.eq_dec l (leaves SA)) as [Hi|Hi]; [|right; eauto].
        apply lA in Hi. rewrite lB in Hi. destruct Hi as [[Hi|Hi]|Hi]; [| |contradiction]; left; eauto.
      - intros [[(l & H1 & H2)|(l & H1 & H2)]|(l & H1 & H2 & H3)]; exists l.
        + split; [apply (sub_leaves FD H1)|]. split; auto. intros Hd. apply (BC l); auto. apply lB; auto.
        + split; [apply (sub_leaves FE H1)|]. split; auto. intros Hd. apply (BC l); auto. apply lB; auto.
        + split; auto. split; auto. intros Hd. apply H2. apply lA. auto. }
    assert (oB : outside c T SB x <-> below c SC x \/ outside c T SA x).
    { unfold outside, below. split.
      - intros (l & H1 & H2 & H3). destruct (in_dec Nat.eq_dec l (leaves SA)) as [Hi|Hi]; [|right; eauto].
        apply lA in Hi. destruct Hi as [Hi|Hi]; [contradiction|]; left; eauto.
      - intros [(l & H1 & H2)|(l & H1 & H2 & H3)]; exists l.
        + split; [apply (sub_leaves FC H1)|]. split; auto. intros Hd. apply (BC l); auto.
        + split; auto. split; auto. intros Hd. apply H2. apply lA. auto. }
    assert (bB : below c SB x <-> below c SD x \/ below c SE x).
    { unfold below. split.
      - intros (l & H1 & H2). apply lB in H1. destruct H1; [left|right]; eauto.
      - intros [(l & H1 & H2)|(l & H1 & H2)]; exists l; split; auto; apply lB; auto. }
    assert (bA : below c SA x <-> (below c SD x \/ below c SE x) \/ below c SC x).
    { rewrite <- bB. unfold below. split.
      - intros (l & H1 & H2). apply lA in H1. destruct H1; [left|right]; eauto.
      - intros [(l & H1 & H2)|(l & H1 & H2)]; exists l; split; auto; apply lA; auto. }
    pose proof (HX FA x) as XA. pose proof (HX FB x) as XB. pose proof (HX FC x) as XC.
    pose proof (HX FD x) as XD. pose proof (HX FE x) as XE.
    rewrite ta in XA. rewrite tb in XB. rewrite EC in XC. rewrite ED in XD. rewrite EE in XE.
    unfold o. split; [rewrite XD, oD; clear; tauto|]. split; [rewrite XE, oE; clear; tauto|].
    split; [rewrite XC, oC; clear; tauto|]. split; [rewrite XB, oB, bB; clear; tauto|].
    rewrite XA, bA. clear; tauto.
  Qed.

  Lemma newB_has x : has c' B x <->
    btest (newB (ix (inds c) A) (ix (inds c) B) (ix (inds c) C) (ix (inds c) D) (ix (inds c) E)) x = true.
  Proof.
    destruct (nbh_lt H) as (_ & LB & _). pose proof (co_len HC) as HL.
    rewrite has_ix. subst c'. simpl. rewrite upd_length. unfold ix at 1. rewrite upd_nth_eq by lia.
    split; [tauto|]. intros; split; auto; lia.
  Qed.

  Lemma has_bit v x : v < length (nodes c) -> (btest (ix (inds c) v) x = true <-> has c v x).
  Proof. intros Hv. rewrite has_ix, (co_len HC). tauto. Qed.

  Lemma move_exact : exact_inds c' out.
  Proof.
    destruct (rot_tree_of H HT) as (T' & Hx & HT').
    destruct (tree_of_in HT) as (Hnd & Hin).
    destruct (exch_five Hx Hnd) as (SA & SB & SC & SD & SE & a & b & F & HE & HS).
    destruct (five_ids F HE) as (-> & -> & EC & ED).
    assert (Ht' : tree_of (nodes c') T') by (subst c'; auto).
    exists T'. split; auto. intros S' HS' x.
    assert (LT : forall l, In l (leaves T') <-> In l (leaves T)).
    { intros l. pose proof (exchange_leaves Hx) as P. split; apply Permutation_in; auto. apply Permutation_sym; auto. }
    assert (Hb : forall S0, (forall l, In l (leaves S0) -> In l (leaves T)) ->
      (below c' S0 x <-> below c S0 x) /\ (outside c' T' S0 x <-> outside c T S0 x)).
    { intros S0 Hs. unfold below, outside. split; split.
      - intros (l & H1 & H2). exists l. split; auto. apply has_other in H2; auto. apply leaf_not_B; auto.
      - intros (l & H1 & H2). exists l. split; auto. apply has_other; auto. apply leaf_not_B; auto.
      - intros (l & H1 & H2 & H3). apply LT in H1. exists l. split; auto. split; auto. apply has_other in H3; auto. apply leaf_not_B; auto.
      - intros (l & H1 & H2 & H3). exists l. split; [apply LT; auto|]. split; auto. apply has_other; auto. apply leaf_not_B; auto. }
    assert (HlS' : forall l, In l (leaves S') -> In l (leaves T)).
    { intros l Hl. apply LT. apply (sub_leaves HS' Hl). }
    destruct (Hb S' HlS') as (-> & ->).
    destruct (HS S' HS') as [(Hnb & S & HSu & Htop & Hl)|(Hnb & Hl)].
    - rewrite has_other by auto. rewrite <- Htop, (HX HSu x).
      assert (below c S x <-> below c S' x).
      { unfold below. split; intros (l & H1 & H2); exists l; split; auto; apply Hl; auto. }
      assert (outside c T S x <-> outside c T S' x).
      { unfold outside. split; intros (l & H1 & H2 & H3); exists l; split; auto; split; auto; intros Hi; apply H2; apply Hl; auto. }
      rewrite H0, H1. clear; tauto.
    - rewrite Hnb, newB_has. destruct (occ_bits x F EC ED HE) as (OD & OE & OC & OB & OA).
      destruct (nbh_lt H) as (LA & LB & LC & LD & LE).
      rewrite (newB_test x (co_sz HC LA) (co_sz HC LB) (co_sz HC LC) (co_sz HC LD) (co_sz HC LE)).
      rewrite <- (has_bit x LD) in OD. rewrite <- (has_bit x LE) in OE. rewrite <- (has_bit x LC) in OC.
      rewrite <- (has_bit x LB) in OB. rewrite <- (has_bit x LA) in OA.
      rewrite (newB_bits OD OE OC OB OA).
      assert (below c S' x <-> below c SD x \/ below c SC x).
      { unfold below. split.
        - intros (l & H1 & H2). apply Hl in H1. destruct H1; [left|right]; eauto.
        - intros [(l & H1 & H2)|(l & H1 & H2)]; exists l; split; auto; apply Hl; auto. }
      rewrite H0.
      assert (outside c T S' x <-> below c SE x \/ outside c T SA x).
      { unfold outside, below. split.
        - intros (l & H1 & H2 & H3). destruct (in_dec Nat.eq_dec l (leaves SA)) as [Hi|Hi]; [|right; eauto].
          apply (fv_lA F) in Hi. rewrite (fv_lB F) in Hi. rewrite Hl in H2. left. exists l. split; [clear - Hi H2; tauto|auto].
        - intros [(l & H1 & H2)|(l & H1 & H2 & H3)]; exists l.
          + split; [apply (sub_leaves (fv_E F) H1)|]. split; auto. rewrite Hl.
            intros [Hd|Hd]; [apply (fv_DE F Hd H1)|]. apply (fv_BC F (l := l)); auto. apply (fv_lB F); auto.
          + split; auto. split; auto. rewrite Hl. rewrite (fv_lA F), (fv_lB F) in H2. clear - H2; tauto. }
      rewrite H1. clear; tauto.
  Qed.

  Lemma move_shared : shared_ok c -> bintersects (ix (inds c) D) (ix (inds c) C) = true -> shared_ok c'.
  Proof.
    intros Hs HDC. destruct (rot_tree_of H HT) as (T' & Hx & HT').
    destruct (tree_of_in HT) as (Hnd & Hin).
    destruct (exch_five Hx Hnd) as (SA & SB & SC & SD & SE & a & b & F & HE & HS).
    destruct (five_ids F HE) as (-> & -> & EC & ED).
    destruct (nbh_lt H) as (LA & LB & LC & LD & LE). pose proof (co_len HC) as HL.
    destruct (nbh_neq H) as (n1&n2&n3&n4&n5&n6&n7&n8&n9&n10).
    pose proof (rot_core' H HC) as HC'.
    unfold shared_ok. subst c'. simpl.
    set (nb := newB (ix (inds c) A) (ix (inds c) B) (ix (inds c) C) (ix (inds c) D) (ix (inds c) E)) in *.
    set (P := fun v a b => (v < length (nodes c) /\ a < length (nodes c) /\ b < length (nodes c)) /\
       bintersects (ix (upd (inds c) B nb) a) (ix (upd (inds c) B nb) b) = true).
    cut (forall v a b, kids2 (rot (nodes c) sA sE A B C D E pA nC nE) v a b -> P v a b).
    { intros G v a b K. apply (G v a b K). }
    apply (rot_family H (co_wf HC)); unfold P.
    - intros v a b ((H1 & H2 & H3) & H4). split; auto. rewrite (bintersects_sym (n := n)); auto;
      apply (co_sz HC'); rewrite rot_length; auto.
    - split; auto. unfold ix. rewrite upd_nth_eq by lia. rewrite upd_nth_neq by auto.
      fold (ix (inds c) E).
      pose proof (Hs _ _ _ (nbh_kids2B H)) as HDE.
      apply bintersects_spec in HDE; [|rewrite !(co_sz HC); auto]. destruct HDE as (x & XD & XE).
      apply bintersects_spec; [unfold nb; rewrite (newB_len (n := n)); rewrite ?(co_sz HC); auto|].
      exists x. split; auto. unfold nb.
      destruct (occ_bits x F EC ED HE) as (OD & OE & OC & OB & OA).
      rewrite (newB_test x (co_sz HC LA) (co_sz HC LB) (co_sz HC LC) (co_sz HC LD) (co_sz HC LE)).
      rewrite <- (has_bit x LD) in OD. rewrite <- (has_bit x LE) in OE. rewrite <- (has_bit x LC) in OC.
      rewrite <- (has_bit x LB) in OB. rewrite <- (has_bit x LA) in OA.
      rewrite (newB_bits OD OE OC OB OA). apply OD in XD. apply OE in XE. clear - XD XE; tauto.
    - split; auto. unfold ix. rewrite !upd_nth_neq by auto. exact HDC.
    - intros v a b K vA vB aB bB. split; [apply (kids2_lt (co_wf HC) K)|].
      unfold ix. rewrite !upd_nth_neq by auto. apply (Hs _ _ _ K).
  Qed.
End Move.

Lemma move_exact' ds c c' n out : core (nodes c) (inds c) n -> move ds c c' -> exact_inds c out -> exact_inds c' out.
Proof.
  intros HC (sA & sE & A & B & C & D & E & pA & nC & nD & nE & H & Ec & _) (T & HT & HX).
  eapply move_exact; eauto.
Qed.

Lemma move_shared' c c' n out : core (nodes c) (inds c) n -> move false c c' -> exact_inds c out ->
  shared_ok c -> shared_ok c'.
Proof.
  intros HC (sA & sE & A & B & C & D & E & pA & nC & nD & nE & H & Ec & Hs) (T & HT & HX) Hsh.
  eapply move_shared; eauto. apply Hs; auto. apply (Hsh _ _ _ (nbh_kids2A H)).
Qed.

Lemma moves_exact ds c c' n out : core (nodes c) (inds c) n -> moves ds c c' -> exact_inds c out -> exact_inds c' out.
Proof.
  intros HC Hm. revert HC. induction Hm as [|c c1 c2 Hm _ IH]; auto. intros HC Hx. apply IH.
  - eapply move_core; eauto. - eapply move_exact'; eauto.
Qed.

Lemma moves_shared c c' n out : core (nodes c) (inds c) n -> moves false c c' -> exact_inds c out ->
  shared_ok c -> shared_ok c'.
Proof.
  intros HC Hm. revert HC. induction Hm as [|c c1 c2 Hm _ IH]; auto. intros HC Hx Hs. apply IH.
  - eapply move_core; eauto. - eapply move_exact'; eauto. - eapply move_shared'; eauto.
Qed.

(** ** What moves leave alone *)
Lemma move_keeps ds c c' n : core (nodes c) (inds c) n -> move ds c c' ->
  length (nodes c') = length (nodes c) /\
  (forall v, leaf_at (nodes c) v -> leaf_at (nodes c') v /\ ix (inds c') v = ix (inds c) v) /\
  ix (inds c') (length (nodes c) - 1) = ix (inds c) (length (nodes c) - 1).
Proof.
  intros HC (sA & sE & A & B & C & D & E & pA & nC & nD & nE & H & -> & _). simpl.
  split; [apply rot_length|]. split.
  - intros v Hv. split; [apply (rot_leaf _ H); auto|]. unfold ix. apply upd_nth_neq.
    intros ->. eapply leaf_not_kids; [exact Hv|]. eapply nbh_kids2B; eauto.
  - unfold ix. apply upd_nth_neq. intros EB.
    assert (PB : parent (nodes c) B A) by (exists (mkNode (pick sE E D) (pick sE D E) (Some A)); split; auto; apply H).
    destruct (nbh_lt H) as (_ & LB & _).
    apply (proj2 (wl_root (co_wf HC) LB) EB _ PB).
Qed.

Lemma moves_keep ds c c' n : core (nodes c) (inds c) n -> moves ds c c' ->
  length (nodes c') = length (nodes c) /\
  (forall v, leaf_at (nodes c) v -> leaf_at (nodes c') v /\ ix (inds c') v = ix (inds c) v) /\
  ix (inds c') (length (nodes c) - 1) = ix (inds c) (length (nodes c) - 1).
Proof.
  intros HC Hm. revert HC. induction Hm as [|c c1 c2 Hm _ IH]; auto. intros HC.
  pose proof (move_core Hm HC) as HC1.
  destruct (move_keeps HC Hm) as (L1 & H1 & R1). destruct (IH HC1) as (L2 & H2 & R2).
  split; [congruence|]. split.
  - intros v Hv. destruct (H1 v Hv) as (Hv1 & E1). destruct (H2 v Hv1) as (Hv2 & E2). split; auto; congruence.
  - rewrite L1 in R2. congruence.
Qed.
