(** Every contraction order can be reached from every other one by sweeps from a
    leaf to the root: the argument on unordered trees. *)
From Coq Require Import List Arith Bool Lia Permutation.
Import ListNotations.
Set Implicit Arguments.
Unset Strict Implicit.

Inductive ut := L (p : nat) | N (l r : ut).
Fixpoint lv (u : ut) : list nat := match u with L p => [p] | N l r => lv l ++ lv r end.

Inductive like : ut -> ut -> Prop :=
| lk_leaf p : like (L p) (L p)
| lk_node l r l' r' : like l l' -> like r r' -> like (N l r) (N l' r')
| lk_flip l r l' r' : like l r' -> like r l' -> like (N l r) (N l' r').

Lemma like_refl u : like u u.
Proof. induction u; constructor; auto. Qed.
Lemma like_sym u v : like u v -> like v u.
Proof. induction 1; [constructor|apply lk_node; auto|apply lk_flip; auto]. Qed.
Lemma like_trans u v : like u v -> forall w, like v w -> like u w.
Proof.
  induction 1; intros w H2; inversion H2; subst;
    [constructor|apply lk_node|apply lk_flip|apply lk_flip|apply lk_node]; auto.
Qed.
Lemma like_comm l r : like (N l r) (N r l).
Proof. apply lk_flip; apply like_refl. Qed.
Lemma like_lv u v : like u v -> Permutation (lv u) (lv v).
Proof.
  induction 1; simpl; auto.
  - apply Permutation_app; auto.
  - eapply Permutation_trans; [apply Permutation_app_comm|]. apply Permutation_app; auto.
Qed.

Fixpoint cat (x : ut) (ss : list ut) : ut :=
  match ss with [] => x | s :: ss => cat (N x s) ss end.

Lemma cat_app x a b : cat x (a ++ b) = cat (cat x a) b.
Proof. revert x. induction a; simpl; auto. Qed.
Lemma like_cat ss : forall x y, like x y -> like (cat x ss) (cat y ss).
Proof. induction ss; simpl; auto. intros x y H. apply IHss. apply lk_node; auto. apply like_refl. Qed.
Lemma lv_cat ss : forall x, lv (cat x ss) = lv x ++ flat_map lv ss.
Proof.
  induction ss as [|s ss IH]; simpl; intros x; [rewrite app_nil_r; auto|].
  rewrite IH. simpl. rewrite app_assoc. auto.
Qed.
Lemma lv_pos u : 0 < length (lv u).
Proof. induction u; simpl; try lia. rewrite app_length. lia. Qed.

Lemma spine u w : In w (lv u) -> exists ss, like u (cat (L w) ss).
Proof.
  induction u as [p|l IHl r IHr]; simpl.
  - intros [->|[]]. exists []. apply like_refl.
  - rewrite in_app_iff. intros [H|H].
    + destruct (IHl H) as (ss & E). exists (ss ++ [r]). rewrite cat_app. simpl.
      apply lk_node; auto. apply like_refl.
    + destruct (IHr H) as (ss & E). exists (ss ++ [l]). rewrite cat_app. simpl.
      apply lk_flip; auto. apply like_refl.
Qed.

Section Adj.
Variable adj : nat -> nat -> bool.
Hypothesis adj_sym : forall p q, adj p q = adj q p.

Definition sh (u v : ut) : bool := existsb (fun p => existsb (adj p) (lv v)) (lv u).

Lemma sh_iff u v : sh u v = true <-> exists p q, In p (lv u) /\ In q (lv v) /\ adj p q = true.
Proof.
  unfold sh. rewrite existsb_exists. split.
  - intros (p & Hp & H). apply existsb_exists in H. destruct H as (q & Hq & H). eauto.
  - intros (p & q & Hp & Hq & H). exists p. split; auto. apply existsb_exists. eauto.
Qed.
Lemma sh_sym u v : sh u v = true -> sh v u = true.
Proof. rewrite !sh_iff. intros (p & q & H1 & H2 & H3). exists q, p. rewrite adj_sym. auto. Qed.
Lemma sh_incl u u' v v' : incl (lv u) (lv u') -> incl (lv v) (lv v') -> sh u v = true -> sh u' v' = true.
Proof. rewrite !sh_iff. intros H1 H2 (p & q & Hp & Hq & H). exists p, q. auto. Qed.
Lemma sh_or x y v : sh (N x y) v = true -> sh x v = true \/ sh y v = true.
Proof.
  rewrite !sh_iff. intros (p & q & Hp & Hq & H). simpl in Hp. rewrite in_app_iff in Hp.
  destruct Hp; [left|right]; exists p, q; auto.
Qed.
Lemma incl_l x y : incl (lv x) (lv (N x y)). Proof. simpl. intros p H. apply in_app_iff. auto. Qed.
Lemma incl_r x y : incl (lv y) (lv (N x y)). Proof. simpl. intros p H. apply in_app_iff. auto. Qed.
Hint Resolve incl_l incl_r incl_refl : core.
Lemma sh_l x y v : sh x v = true -> sh (N x y) v = true.
Proof. apply sh_incl; auto. Qed.
Lemma sh_r x y v : sh y v = true -> sh (N x y) v = true.
Proof. apply sh_incl; auto. Qed.

Lemma perm_incl (a b : list nat) : Permutation a b -> incl a b.
Proof. intros H p. apply Permutation_in; auto. Qed.

Fixpoint valid (u : ut) : Prop :=
  match u with L _ => True | N l r => valid l /\ valid r /\ sh l r = true end.

Lemma like_valid u v : like u v -> valid u -> valid v.
Proof.
  induction 1; simpl; auto; intros (V1 & V2 & V3).
  - split; auto. split; auto. eapply sh_incl; [| |exact V3]; apply perm_incl; apply like_lv; auto.
  - split; auto. split; auto. apply sh_sym.
    eapply sh_incl; [| |exact V3]; apply perm_incl; apply like_lv; auto.
Qed.

Lemma cat_head ss : forall x x', valid (cat x ss) -> valid x' -> incl (lv x) (lv x') -> valid (cat x' ss).
Proof.
  induction ss as [|s ss IH]; simpl; auto. intros x x' V V' Hi.
  assert (V0 : forall ss x, valid (cat x ss) -> valid x).
  { clear. induction ss; simpl; auto. intros x H. apply IHss in H. apply H. }
  pose proof (V0 _ _ V) as (V1 & V2 & V3).
  apply (IH (N x s)); auto.
  - simpl. split; auto. split; auto. eapply sh_incl; eauto.
  - simpl. intros p. rewrite !in_app_iff. intuition.
Qed.
Lemma cat_valid0 ss : forall x, valid (cat x ss) -> valid x.
Proof. induction ss; simpl; auto. intros x H. apply IHss in H. apply H. Qed.

(** ** Sweeps *)
Inductive sweep : ut -> ut -> list ut -> ut -> ut -> Prop :=
| sw_nil x y : sweep x y [] x y
| sw_x x y C ss a b : sh x C = true -> sweep (N x C) y ss a b -> sweep x y (C :: ss) a b
| sw_y x y C ss a b : sh y C = true -> sweep x (N y C) ss a b -> sweep x y (C :: ss) a b.

Definition step (u v : ut) : Prop :=
  exists w s ss a b, like u (cat (L w) (s :: ss)) /\ sweep (L w) s ss a b /\ like (N a b) v.

Inductive reach : ut -> ut -> Prop :=
| rc_like u v : like u v -> reach u v
| rc_step u v w : step u v -> reach v w -> reach u w.

Lemma reach_left u u' v : like u' u -> reach u v -> reach u' v.
Proof.
  intros E H. destruct H as [u v H|u v w (k & s & ss & a & b & H1 & H2 & H3) H4].
  - apply rc_like. eapply like_trans; eauto.
  - eapply rc_step; [|exact H4]. exists k, s, ss, a, b. split; auto. eapply like_trans; eauto.
Qed.
Lemma reach_trans u v : reach u v -> forall w, reach v w -> reach u w.
Proof.
  induction 1 as [u v H|u v x H1 H2 IH]; intros w Hw.
  - eapply reach_left; eauto.
  - eapply rc_step; eauto.
Qed.
Lemma reach_right u v v' : reach u v -> like v v' -> reach u v'.
Proof. intros H E. eapply reach_trans; eauto. apply rc_like; auto. Qed.
Lemma step_reach u v : step u v -> reach u v.
Proof. intros H. eapply rc_step; eauto. apply rc_like, like_refl. Qed.

Lemma sweep_lv x y ss a b : sweep x y ss a b -> Permutation (lv (cat (N x y) ss)) (lv (N a b)).
Proof.
  induction 1 as [|x y C ss a b Hs H IH|x y C ss a b Hs H IH]; simpl; auto.
  - eapply Permutation_trans; [|exact IH]. rewrite !lv_cat. apply Permutation_app_tail. simpl.
    rewrite <- !app_assoc. apply Permutation_app_head. apply Permutation_app_comm.
  - eapply Permutation_trans; [|exact IH]. rewrite !lv_cat. apply Permutation_app_tail. simpl.
    rewrite <- !app_assoc. auto.
Qed.
Lemma sweep_valid x y ss a b : sweep x y ss a b -> valid (cat (N x y) ss) -> valid (N a b).
Proof.
  induction 1 as [|x y C ss a b Hs H IH|x y C ss a b Hs H IH]; auto; intros V; apply IH; simpl in V.
  - pose proof (cat_valid0 V) as ((V1 & V2 & V3) & V4 & V5).
    eapply cat_head; [exact V| |].
    + simpl. repeat split; auto. apply sh_l; auto.
    + simpl. intros p. rewrite !in_app_iff. tauto.
  - pose proof (cat_valid0 V) as ((V1 & V2 & V3) & V4 & V5).
    eapply cat_head; [exact V| |].
    + simpl. repeat split; auto. apply sh_sym, sh_l, sh_sym; auto.
    + simpl. intros p. rewrite !in_app_iff. tauto.
Qed.

Lemma step_lv u v : step u v -> Permutation (lv u) (lv v).
Proof.
  intros (w & s & ss & a & b & H1 & H2 & H3).
  eapply Permutation_trans; [apply like_lv; exact H1|].
  eapply Permutation_trans; [|apply like_lv; exact H3]. apply sweep_lv. auto.
Qed.
Lemma step_valid u v : step u v -> valid u -> valid v.
Proof.
  intros (w & s & ss & a & b & H1 & H2 & H3) V. apply (like_valid H3).
  apply (sweep_valid H2). apply (like_valid H1). auto.
Qed.

(** ** A leaf next to the root *)
Definition conn (l : list nat) : Prop := forall P : nat -> bool,
  (exists p, In p l /\ P p = true) -> (exists q, In q l /\ P q = false) ->
  exists p q, In p l /\ In q l /\ P p = true /\ P q = false /\ adj p q = true.

Lemma valid_conn u : valid u -> conn (lv u).
Proof.
  induction u as [p|l IHl r IHr]; simpl.
  - intros _ P (a & [<-|[]] & Ha) (b & [<-|[]] & Hb). congruence.
  - intros (V1 & V2 & V3) P (a & Ha & Pa) (b & Hb & Pb).
    assert (Hx : forall u, conn (lv u) ->
       (exists p q, In p (lv u) /\ In q (lv u) /\ P p = true /\ P q = false /\ adj p q = true) \/
       (forall p, In p (lv u) -> P p = true) \/ (forall p, In p (lv u) -> P p = false)).
    { intros u Hc.
      destruct (existsb P (lv u)) eqn:E1.
      - destruct (forallb P (lv u)) eqn:E2.
        + right. left. rewrite forallb_forall in E2. auto.
        + left. apply Hc.
          * apply existsb_exists in E1. auto.
          * clear - E2. induction (lv u) as [|x l IH]; simpl in *; [discriminate|].
            destruct (P x) eqn:Ex; simpl in E2; [destruct (IH E2) as (q & Hq & E); exists q; auto|exists x; auto].
      - right. right. intros p Hp. destruct (P p) eqn:Ep; auto.
        assert (existsb P (lv u) = true) by (apply existsb_exists; eauto). congruence. }
    destruct (Hx l (IHl V1)) as [(p & q & Hp & Hq & H)|Hl].
    { exists p, q. rewrite !in_app_iff. auto. }
    destruct (Hx r (IHr V2)) as [(p & q & Hp & Hq & H)|Hr].
    { exists p, q. rewrite !in_app_iff. auto. }
    apply sh_iff in V3. destruct V3 as (p & q & Hp & Hq & Hpq).
    rewrite in_app_iff in Ha, Hb.
    destruct Hl as [Hl|Hl], Hr as [Hr|Hr].
    + exfalso. destruct Hb as [Hb|Hb]; [apply Hl in Hb|apply Hr in Hb]; congruence.
    + exists p, q. rewrite !in_app_iff. auto 10.
    + exists q, p. rewrite !in_app_iff, adj_sym. auto 10.
    + exfalso. destruct Ha as [Ha|Ha]; [apply Hl in Ha|apply Hr in Ha]; congruence.
Qed.

Lemma greedy ss : forall x y, valid (cat (N x y) ss) ->
  exists ss' y', sweep x y ss (cat x ss') y' /\
    (length ss' < length ss \/ (ss' = ss /\ forall C, In C ss -> sh y C = false)).
Proof.
  induction ss as [|C ss IH]; intros x y V.
  - exists [], y. split; [constructor|]. right. split; auto. intros C [].
  - simpl in V. pose proof (cat_valid0 V) as ((V1 & V2 & V3) & V4 & V5).
    destruct (sh y C) eqn:Ey.
    + destruct (IH x (N y C)) as (ss' & y' & H1 & H2).
      { eapply cat_head; [exact V| |].
        - simpl. repeat split; auto. apply sh_sym, sh_l, sh_sym; auto.
        - simpl. intros p. rewrite !in_app_iff. tauto. }
      exists ss', y'. split; [apply sw_y; auto|]. left. simpl.
      destruct H2 as [H2|(-> & _)]; lia.
    + assert (Ex : sh x C = true).
      { destruct (sh_or V5); auto. congruence. }
      destruct (IH (N x C) y) as (ss' & y' & H1 & H2).
      { eapply cat_head; [exact V| |].
        - simpl. repeat split; auto. apply sh_l; auto.
        - simpl. intros p. rewrite !in_app_iff. tauto. }
      exists (C :: ss'), y'. split; [simpl; apply sw_x; auto|]. simpl.
      destruct H2 as [H2|(-> & H2)]; [left; lia|]. right. split; auto. intros C' [<-|H]; auto.
Qed.

Lemma in_flat (ss : list ut) p : In p (flat_map lv ss) <-> exists C, In C ss /\ In p (lv C).
Proof. rewrite in_flat_map. tauto. Qed.

Lemma raise w : forall k u ss, length ss <= k -> like u (cat (L w) ss) -> ss <> [] ->
  valid u -> NoDup (lv u) ->
  conn (remove Nat.eq_dec w (lv u)) ->
  exists v, reach u (N v (L w)).
Proof.
  induction k as [|k IH]; intros u ss Hk E Hss V ND HC.
  { destruct ss; simpl in Hk; [congruence|lia]. }
  destruct ss as [|s ss]; [congruence|].
  destruct ss as [|s2 ss].
  { exists s. apply rc_like. eapply like_trans; [exact E|]. simpl. apply like_comm. }
  pose proof (like_valid E V) as V'.
  destruct (@greedy (s2 :: ss) (L w) s V') as (ss' & y' & Hsw & Hd).
  assert (Hst : step u (cat (L w) (ss' ++ [y']))).
  { exists w, s, (s2 :: ss), (cat (L w) ss'), y'. split; auto. split; auto.
    rewrite cat_app. simpl. apply like_refl. }
  destruct Hd as [Hd|(_ & Hd)].
  - destruct (IH (cat (L w) (ss' ++ [y'])) (ss' ++ [y'])) as (v & Hv).
    + rewrite app_length. simpl in *. lia.
    + apply like_refl.
    + destruct ss'; discriminate.
    + eapply step_valid; eauto.
    + eapply Permutation_NoDup; [apply (step_lv Hst)|auto].
    + intros P (p & Hp & Pp) (q & Hq & Pq).
      assert (Hin : forall z, In z (remove Nat.eq_dec w (lv (cat (L w) (ss' ++ [y'])))) <->
                              In z (remove Nat.eq_dec w (lv u))).
      { intros z. split; intros Hz; apply in_remove in Hz; destruct Hz as (Hz & Hn); apply in_in_remove; auto.
        - eapply Permutation_in; [apply Permutation_sym, (step_lv Hst)|auto].
        - eapply Permutation_in; [apply (step_lv Hst)|auto]. }
      rewrite Hin in Hp, Hq.
      destruct (HC P) as (p' & q' & Hp' & Hq' & H'); eauto.
      exists p', q'. rewrite !Hin. auto.
    + exists v. eapply rc_step; eauto.
  - exfalso.
    assert (Hl : Permutation (lv u) (w :: lv s ++ flat_map lv (s2 :: ss))).
    { eapply Permutation_trans; [apply like_lv; exact E|]. rewrite lv_cat. simpl. auto. }
    assert (ND' : NoDup (w :: lv s ++ flat_map lv (s2 :: ss))) by (eapply Permutation_NoDup; eauto).
    inversion ND' as [|? ? Hw ND2]; subst.
    assert (Hin : forall z, In z (lv s ++ flat_map lv (s2 :: ss)) -> In z (remove Nat.eq_dec w (lv u))).
    { intros z Hz. apply in_in_remove; [intros ->; auto|].
      eapply Permutation_in; [apply Permutation_sym; exact Hl|]. right. auto. }
    destruct (HC (fun z => existsb (Nat.eqb z) (lv s))) as (p & q & Hp & Hq & Pp & Pq & Hpq).
    + pose proof (lv_pos s) as Hpos. destruct (lv s) as [|z l] eqn:Es; [simpl in Hpos; lia|].
      exists z. split; [apply Hin; simpl; auto|]. simpl. rewrite Nat.eqb_refl. auto.
    + pose proof (lv_pos s2) as Hpos. destruct (lv s2) as [|z l] eqn:Es; [simpl in Hpos; lia|].
      exists z. assert (Hz : In z (flat_map lv (s2 :: ss))) by (simpl; rewrite Es; simpl; auto).
      split; [apply Hin; apply in_app_iff; auto|].
      destruct (existsb (Nat.eqb z) (lv s)) eqn:Ez; auto. exfalso.
      apply existsb_exists in Ez. destruct Ez as (z' & Hz' & Ez). apply Nat.eqb_eq in Ez. subst z'.
      clear - ND2 Hz Hz'. induction (lv s) as [|a l' IHl]; simpl in *; auto.
      inversion ND2; subst. destruct Hz' as [->|Hz']; auto. apply H1. apply in_app_iff. simpl. auto.
    + apply existsb_exists in Pp. destruct Pp as (z & Hz & Ez). apply Nat.eqb_eq in Ez. subst z.
      apply in_remove in Hq. destruct Hq as (Hq & Hqw).
      eapply Permutation_in in Hq; [|exact Hl]. destruct Hq as [->|Hq]; [congruence|].
      apply in_app_iff in Hq. destruct Hq as [Hq|Hq].
      * assert (existsb (Nat.eqb q) (lv s) = true) by (apply existsb_exists; exists q; rewrite Nat.eqb_refl; auto).
        congruence.
      * apply in_flat in Hq. destruct Hq as (C & HCs & Hq). specialize (Hd C HCs).
        assert (sh s C = true) by (apply sh_iff; eauto). congruence.
Qed.

(** ** Every tree is reached from one with a leaf next to the root *)
Lemma to_x p : forall x y q a b, valid (cat x p) -> sweep (cat x p) y q a b -> sweep x y (p ++ q) a b.
Proof.
  induction p as [|C p IH]; simpl; auto. intros x y q a b V H.
  apply sw_x; [|apply IH; auto]. apply cat_valid0 in V. apply V.
Qed.
Lemma to_y p : forall x y, valid (cat y p) -> sweep x y p x (cat y p).
Proof.
  induction p as [|C p IH]; simpl; [constructor|]. intros x y V.
  apply sw_y; [|apply IH; auto]. apply cat_valid0 in V. apply V.
Qed.

Lemma cat_two p : forall x y q, valid (cat x p) -> valid (cat y q) -> sh x y = true ->
  valid (cat (N x y) (p ++ q)).
Proof.
  intros x y q V1 V2 Hs. rewrite cat_app.
  apply cat_head with (x := y); auto.
  - apply cat_head with (x := x); auto. simpl. split; [eapply cat_valid0; eauto|].
    split; [eapply cat_valid0; eauto|auto].
  - rewrite lv_cat. intros z Hz. apply in_app_iff. left. simpl. apply in_app_iff. auto.
Qed.

Lemma backward : forall k X Y, length (lv Y) <= k -> valid (N X Y) ->
  exists T w, valid (N T (L w)) /\ reach (N T (L w)) (N X Y) /\ Permutation (lv T ++ [w]) (lv X ++ lv Y).
Proof.
  induction k as [|k IH]; intros X Y Hk V; [pose proof (lv_pos Y); lia|].
  destruct Y as [w|Y1 Y2].
  { exists X, w. split; auto. split; auto. apply rc_like, like_refl. }
  set (Y := N Y1 Y2) in *. pose proof V as (VX & VY & VS).
  apply sh_iff in VS. destruct VS as (m & s & Hm & Hs & Ha).
  destruct (spine Hm) as (p & Ep). destruct (spine Hs) as (q & Eq).
  destruct (exists_last (l := q)) as (q' & c & ->).
  { intros ->. inversion Eq. }
  assert (Vp : valid (cat (L m) p)) by (eapply like_valid; eauto).
  assert (Vq : valid (cat (L s) (q' ++ [c]))) by (eapply like_valid; eauto).
  assert (V1 : valid (cat (N (L m) (L s)) (p ++ q' ++ [c]))).
  { apply cat_two; auto. apply sh_iff. exists m, s. simpl. auto. }
  assert (Hst : step (cat (N (L m) (L s)) (p ++ q' ++ [c])) (N X Y)).
  { exists m, (L s), (p ++ q' ++ [c]), (cat (L m) p), (cat (L s) (q' ++ [c])).
    split; [apply like_refl|]. split.
    - apply to_x; auto. apply to_y. auto.
    - apply lk_node; apply like_sym; auto. }
  assert (Lc : length (lv c) <= k).
  { pose proof (Permutation_length (like_lv Eq)) as HL. rewrite lv_cat in HL.
    rewrite flat_map_app in HL. rewrite !app_length in HL. simpl in HL. rewrite app_nil_r in HL.
    simpl in Hk. rewrite app_length in *. lia. }
  rewrite app_assoc, cat_app in V1, Hst. simpl in Hst.
  destruct (IH _ c Lc V1) as (T & w & G1 & G2 & G3).
  exists T, w. split; auto. split.
  - eapply reach_trans; [exact G2|]. apply step_reach; auto.
  - eapply Permutation_trans; [exact G3|]. apply (step_lv Hst).
Qed.

(** ** A sweep below a leaf that stays next to the root *)
Lemma lift_step u v w : step u v -> valid (N u (L w)) -> reach (N u (L w)) (N v (L w)).
Proof.
  intros (l & s & ss & a & b & H1 & H2 & H3) V.
  assert (Eu : like (N u (L w)) (cat (L l) (s :: ss ++ [L w]))).
  { rewrite app_comm_cons, cat_app. cbn [cat]. apply lk_node; [exact H1|apply like_refl]. }
  pose proof (like_valid Eu V) as Vc.
  assert (V0 : valid (N a b)).
  { apply (sweep_valid H2). apply (like_valid H1). apply V. }
  assert (Hs : sh (N a b) (L w) = true).
  { destruct V as (_ & _ & V). eapply sh_incl; [| |exact V]; auto.
    apply perm_incl. eapply Permutation_trans; [apply like_lv; exact H1|]. apply (sweep_lv H2). }
  assert (Happ : forall x y ss a b a' b' t, sweep x y ss a b -> sweep a b t a' b' -> sweep x y (ss ++ t) a' b').
  { clear. induction 1; simpl; auto; intros; [apply sw_x|apply sw_y]; auto. }
  destruct V0 as (Va & Vb & Vab).
  assert (Hfin : forall a b, sh a b = true -> reach (N (N a (L w)) b) (N (N a b) (L w))).
  { clear - adj_sym. intros a b H. apply step_reach. exists w, a, [b], (L w), (N a b).
    split; [|split].
    - simpl. apply lk_node; [|apply like_refl]. apply like_comm.
    - apply sw_y; auto. constructor.
    - apply like_comm. }
  assert (H3' : like (N (N a b) (L w)) (N v (L w))) by (apply lk_node; [auto|apply like_refl]).
  destruct (sh_or Hs) as [Hx|Hy].
  - eapply rc_step.
    + exists l, s, (ss ++ [L w]), (N a (L w)), b. split; [exact Eu|]. split; [|apply like_refl].
      eapply Happ; [exact H2|]. apply sw_x; auto. constructor.
    + eapply reach_right; [apply Hfin; auto|auto].
  - eapply rc_step.
    + exists l, s, (ss ++ [L w]), a, (N b (L w)). split; [exact Eu|]. split; [|apply like_comm].
      eapply Happ; [exact H2|]. apply sw_y; auto. constructor.
    + eapply reach_right; [apply Hfin; apply sh_sym; auto|].
      eapply like_trans; [|exact H3']. apply lk_node; [apply like_comm|apply like_refl].
Qed.

Lemma lift_reach u v w : reach u v -> valid (N u (L w)) -> reach (N u (L w)) (N v (L w)).
Proof.
  induction 1 as [u v H|u v x H1 H2 IH]; intros V.
  - apply rc_like. apply lk_node; auto. apply like_refl.
  - eapply reach_trans; [apply (lift_step H1 V)|]. apply IH.
    destruct V as (V1 & V2 & V3). simpl. split; [eapply step_valid; eauto|]. split; auto.
    eapply sh_incl; [| |exact V3]; auto. apply perm_incl. apply (step_lv H1).
Qed.

Lemma reach_lv u v : reach u v -> Permutation (lv u) (lv v).
Proof.
  induction 1 as [u v H|u v x H1 H2 IH]; [apply like_lv; auto|].
  eapply Permutation_trans; [apply (step_lv H1)|auto].
Qed.
Lemma reach_valid u v : reach u v -> valid u -> valid v.
Proof.
  induction 1 as [u v H|u v x H1 H2 IH]; intros V; [eapply like_valid; eauto|].
  apply IH. eapply step_valid; eauto.
Qed.

(** ** Everything reaches everything *)
Theorem reach_all : forall k u v, length (lv u) <= k -> valid u -> valid v -> NoDup (lv u) ->
  Permutation (lv u) (lv v) -> reach u v.
Proof.
  induction k as [|k IH]; intros u v Hk Vu Vv ND HP; [pose proof (lv_pos u); lia|].
  destruct v as [p|X Y].
  { apply Permutation_sym, Permutation_length_1_inv in HP. destruct u as [q|l r].
    - simpl in HP. inversion HP. apply rc_like, like_refl.
    - exfalso. pose proof (lv_pos l). pose proof (lv_pos r).
      apply (f_equal (@length nat)) in HP. simpl in HP. rewrite app_length in HP. lia. }
  destruct (backward (le_n _) Vv) as (T & w & VT & RT & PT).
  assert (PuT : Permutation (lv u) (lv T ++ [w])).
  { eapply Permutation_trans; [exact HP|]. apply Permutation_sym. exact PT. }
  assert (NDT : NoDup (lv T ++ [w])) by (eapply Permutation_NoDup; eauto).
  assert (HwT : ~ In w (lv T)).
  { intros Hw. eapply Permutation_NoDup in NDT; [|apply Permutation_app_comm].
    simpl in NDT. inversion NDT; auto. }
  assert (Hw : In w (lv u)).
  { eapply Permutation_in; [apply Permutation_sym; exact PuT|]. apply in_app_iff. simpl. auto. }
  destruct (spine Hw) as (ss & Ess).
  destruct (@raise w (length ss) u ss) as (v0 & Hv0); auto.
  { intros ->. inversion Ess; subst. simpl in PuT.
    apply Permutation_length in PuT. rewrite app_length in PuT. simpl in PuT. pose proof (lv_pos T). lia. }
  { destruct VT as (VT & _). pose proof (valid_conn VT) as HC.
    assert (Hin : forall z, In z (remove Nat.eq_dec w (lv u)) <-> In z (lv T)).
    { intros z. split; intros Hz.
      - apply in_remove in Hz. destruct Hz as (Hz & Hn). eapply Permutation_in in Hz; [|exact PuT].
        apply in_app_iff in Hz. destruct Hz as [Hz|[<-|[]]]; auto. congruence.
      - apply in_in_remove; [intros ->; auto|].
        eapply Permutation_in; [apply Permutation_sym; exact PuT|]. apply in_app_iff. auto. }
    intros P (p & Hp & Pp) (q & Hq & Pq). rewrite Hin in Hp, Hq.
    destruct (HC P) as (p' & q' & Hp' & Hq' & H'); eauto.
    exists p', q'. rewrite !Hin. auto. }
  pose proof (reach_valid Hv0 Vu) as V0. pose proof (reach_lv Hv0) as P0.
  assert (PT0 : Permutation (lv v0) (lv T)).
  { apply (Permutation_app_inv_r [w]). eapply Permutation_trans; [|exact PuT].
    apply Permutation_sym. exact P0. }
  assert (R0 : reach v0 T).
  { apply IH; auto.
    - apply Permutation_length in P0. simpl in P0. rewrite app_length in P0. simpl in P0. lia.
    - apply V0.
    - apply VT.
    - eapply Permutation_NoDup in ND; [|exact P0]. simpl in ND.
      eapply Permutation_NoDup in ND; [|apply Permutation_app_comm]. simpl in ND. inversion ND; auto. }
  eapply reach_trans; [exact Hv0|]. eapply reach_trans; [|exact RT].
  apply lift_reach; auto.
Qed.

(** From every valid tree a sweep can be made. *)
Lemma can_step l r : valid (N l r) -> exists v, step (N l r) v.
Proof.
  intros V. pose proof (lv_pos l) as Hp. destruct (lv l) as [|w k] eqn:E; [simpl in Hp; lia|].
  assert (Hw : In w (lv (N l r))) by (simpl; rewrite E; simpl; auto).
  destruct (spine Hw) as (ss & Es).
  destruct ss as [|s ss]; [inversion Es|].
  destruct (@greedy ss (L w) s (like_valid Es V)) as (ss' & y' & H & _).
  exists (N (cat (L w) ss') y'), w, s, ss, (cat (L w) ss'), y'. split; auto. split; auto. apply like_refl.
Qed.
End Adj.
