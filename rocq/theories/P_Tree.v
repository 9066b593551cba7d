(** Local well-formedness of node lists, and its preservation by the rotation of
    [swap_nn]. *)
From Verif Require Import M_Base M_Tree P_Base.
Set Implicit Arguments.
Unset Strict Implicit.

Definition kid (t : tree) (v c : nat) : Prop :=
  exists n, nth_error t v = Some n /\ (c0 n = Some c \/ c1 n = Some c).
Definition parent (t : tree) (v p : nat) : Prop :=
  exists n, nth_error t v = Some n /\ par n = Some p.

Definition ranked (t : tree) (h : nat -> nat) : Prop := forall v c, kid t v c -> h c < h v.

(** Local well-formedness: links agree in both directions, one root (the last
    node), leaves first, and a rank that decreases along child links. *)
Record wfl (t : tree) : Prop := {
  wl_len  : 0 < length t;
  wl_two  : forall v n, nth_error t v = Some n ->
              (c0 n = None /\ c1 n = None) \/
              (exists a b, c0 n = Some a /\ c1 n = Some b /\ a <> b);
  wl_kp   : forall v c, kid t v c <-> parent t c v;
  wl_root : forall v, v < length t -> ((forall p, ~ parent t v p) <-> v = length t - 1);
  wl_leaf : forall v n, nth_error t v = Some n -> (c0 n = None <-> v < n_leaves t);
  wl_rank : exists h, ranked t h
}.

(** The neighbourhood of B: its parent A, sibling C, children D and E. [sA] says
    B is the first child of A, [sE] that E is the first child of B. *)
Definition pick (s : bool) (x y : nat) : option nat := if s then Some x else Some y.

Definition nbh (t : tree) (sA sE : bool) (A B C D E : nat) (pA : option nat)
  (nC nD nE : node) : Prop :=
  nth_error t A = Some (mkNode (pick sA B C) (pick sA C B) pA) /\
  nth_error t B = Some (mkNode (pick sE E D) (pick sE D E) (Some A)) /\
  nth_error t C = Some nC /\ par nC = Some A /\
  nth_error t D = Some nD /\ par nD = Some B /\
  nth_error t E = Some nE /\ par nE = Some B /\
  NoDup [A; B; C; D; E].

(** The result of exchanging E and C. *)
Definition rot (t : tree) (sA sE : bool) (A B C D E : nat) (pA : option nat) (nC nE : node) : tree :=
  upd (upd (upd (upd t A (mkNode (pick sA B E) (pick sA E B) pA))
                B (mkNode (pick sE C D) (pick sE D C) (Some A)))
           C (mkNode (c0 nC) (c1 nC) (Some B)))
      E (mkNode (c0 nE) (c1 nE) (Some A)).

Lemma nodup5 (a b c d e : nat) : NoDup [a; b; c; d; e] <->
  (a <> b /\ a <> c /\ a <> d /\ a <> e /\ b <> c /\ b <> d /\ b <> e /\ c <> d /\ c <> e /\ d <> e).
Proof.
  split.
  - intros H. inversion H as [|? ? H1 H2]; subst. inversion H2 as [|? ? H3 H4]; subst.
    inversion H4 as [|? ? H5 H6]; subst. inversion H6 as [|? ? H7 H8]; subst.
    simpl in *. intuition.
  - intros H. repeat constructor; simpl; intuition.
Qed.

Lemma oeqb_spec a b : oeqb a b = true <-> a = b.
Proof.
  destruct a, b; simpl; split; intros H; try congruence; try discriminate.
  - apply Nat.eqb_eq in H. congruence.
  - inversion H. apply Nat.eqb_refl.
Qed.
Lemma oeqb_refl a : oeqb a a = true.
Proof. apply oeqb_spec; auto. Qed.
Lemma oeqb_neq a b : a <> b -> oeqb a b = false.
Proof. intros H. destruct (oeqb a b) eqn:E; auto. apply oeqb_spec in E. contradiction. Qed.

Lemma swap_nbh t sA sE A B C D E pA nC nD nE :
  nbh t sA sE A B C D E pA nC nD nE ->
  swap_nn t E = Ok (rot t sA sE A B C D E pA nC nE).
Proof.
  intros (HA & HB & HC & HpC & HD & HpD & HE & HpE & Hnd).
  apply nodup5 in Hnd. destruct Hnd as (n1&n2&n3&n4&n5&n6&n7&n8&n9&n10).
  pose proof (nth_error_lt HA) as LA. pose proof (nth_error_lt HB) as LB.
  pose proof (nth_error_lt HC) as LC. pose proof (nth_error_lt HE) as LE.
  unfold swap_nn. replace (length t <=? E) with false by (symmetry; apply Nat.leb_gt; auto).
  rewrite (get_some HE). cbn [bind]. rewrite HpE.
  rewrite (get_some HB). cbn [bind par].
  rewrite (get_some HA). cbn [bind].
  assert (HpickC : (if oeqb (c0 (mkNode (pick sA B C) (pick sA C B) pA)) (Some B)
                    then c1 (mkNode (pick sA B C) (pick sA C B) pA)
                    else c0 (mkNode (pick sA B C) (pick sA C B) pA)) = Some C).
  { cbn [c0 c1]. destruct sA; cbn [pick].
    - rewrite oeqb_refl. auto.
    - rewrite oeqb_neq by congruence. auto. }
  rewrite HpickC. rewrite (get_some HC). cbn [bind].
  assert (E1 : set_child (mkNode (pick sA B C) (pick sA C B) pA)
            (negb (oeqb (c0 (mkNode (pick sA B C) (pick sA C B) pA)) (Some C))) E
          = mkNode (pick sA B E) (pick sA E B) pA).
  { cbn [c0]. destruct sA; cbn [pick].
    - rewrite oeqb_neq by congruence. reflexivity.
    - rewrite oeqb_refl. reflexivity. }
  rewrite E1. rewrite set_ok by auto. cbn [bind].
  set (t1 := upd t A _).
  assert (HB1 : nth_error t1 B = Some (mkNode (pick sE E D) (pick sE D E) (Some A))).
  { unfold t1. rewrite upd_neq by auto. auto. }
  rewrite (get_some HB1). cbn [bind].
  assert (E2 : set_child (mkNode (pick sE E D) (pick sE D E) (Some A))
            (negb (oeqb (c0 (mkNode (pick sE E D) (pick sE D E) (Some A))) (Some E))) C
          = mkNode (pick sE C D) (pick sE D C) (Some A)).
  { cbn [c0]. destruct sE; cbn [pick].
    - rewrite oeqb_refl. reflexivity.
    - rewrite oeqb_neq by congruence. reflexivity. }
  rewrite E2. rewrite set_ok by (unfold t1; rewrite upd_length; auto). cbn [bind].
  set (t2 := upd t1 B _).
  assert (HC2 : nth_error t2 C = Some nC).
  { unfold t2, t1. rewrite !upd_neq by auto. auto. }
  rewrite (get_some HC2). cbn [bind].
  rewrite set_ok by (unfold t2, t1; rewrite !upd_length; auto). cbn [bind].
  set (t3 := upd t2 C _).
  assert (HE3 : nth_error t3 E = Some nE).
  { unfold t3, t2, t1. rewrite !upd_neq by auto. auto. }
  rewrite (get_some HE3). cbn [bind].
  rewrite set_ok by (unfold t3, t2, t1; rewrite !upd_length; auto).
  reflexivity.
Qed.

Lemma rot_length t sA sE A B C D E pA nC nE :
  length (rot t sA sE A B C D E pA nC nE) = length t.
Proof. unfold rot. rewrite !upd_length. auto. Qed.

(** Lookup in the rotated list. *)
Lemma rot_nth t sA sE A B C D E pA nC nD nE v :
  nbh t sA sE A B C D E pA nC nD nE ->
  nth_error (rot t sA sE A B C D E pA nC nE) v =
    if v =? A then Some (mkNode (pick sA B E) (pick sA E B) pA)
    else if v =? B then Some (mkNode (pick sE C D) (pick sE D C) (Some A))
    else if v =? C then Some (mkNode (c0 nC) (c1 nC) (Some B))
    else if v =? E then Some (mkNode (c0 nE) (c1 nE) (Some A))
    else nth_error t v.
Proof.
  intros (HA & HB & HC & HpC & HD & HpD & HE & HpE & Hnd).
  apply nodup5 in Hnd. destruct Hnd as (n1&n2&n3&n4&n5&n6&n7&n8&n9&n10).
  pose proof (nth_error_lt HA) as LA. pose proof (nth_error_lt HB) as LB.
  pose proof (nth_error_lt HC) as LC. pose proof (nth_error_lt HE) as LE.
  unfold rot.
  destruct (Nat.eqb_spec v A) as [->|nA].
  { rewrite !upd_neq by auto. apply upd_eq; auto. }
  destruct (Nat.eqb_spec v B) as [->|nB].
  { rewrite 2!upd_neq by auto. apply upd_eq. rewrite !upd_length; auto. }
  destruct (Nat.eqb_spec v C) as [->|nC'].
  { rewrite upd_neq by auto. apply upd_eq. rewrite !upd_length; auto. }
  destruct (Nat.eqb_spec v E) as [->|nE'].
  { apply upd_eq. rewrite !upd_length; auto. }
  rewrite !upd_neq by auto. auto.
Qed.

(** After the rotation C and E have exchanged their roles. *)
Lemma rot_nbh t sA sE A B C D E pA nC nD nE :
  nbh t sA sE A B C D E pA nC nD nE ->
  nbh (rot t sA sE A B C D E pA nC nE) sA sE A B E D C pA
      (mkNode (c0 nE) (c1 nE) (Some A)) nD (mkNode (c0 nC) (c1 nC) (Some B)).
Proof.
  intros H. pose proof H as (HA & HB & HC & HpC & HD & HpD & HE & HpE & Hnd).
  apply nodup5 in Hnd. destruct Hnd as (n1&n2&n3&n4&n5&n6&n7&n8&n9&n10).
  unfold nbh. rewrite !(rot_nth _ H).
  rewrite Nat.eqb_refl.
  rewrite (proj2 (Nat.eqb_neq B A)) by auto. rewrite Nat.eqb_refl.
  rewrite (proj2 (Nat.eqb_neq C A)) by auto. rewrite (proj2 (Nat.eqb_neq C B)) by auto.
  rewrite Nat.eqb_refl.
  rewrite (proj2 (Nat.eqb_neq E A)) by auto. rewrite (proj2 (Nat.eqb_neq E B)) by auto.
  rewrite (proj2 (Nat.eqb_neq E C)) by auto. rewrite Nat.eqb_refl.
  rewrite (proj2 (Nat.eqb_neq D A)) by auto. rewrite (proj2 (Nat.eqb_neq D B)) by auto.
  rewrite (proj2 (Nat.eqb_neq D C)) by auto. rewrite (proj2 (Nat.eqb_neq D E)) by auto.
  repeat split; auto. apply nodup5. repeat split; auto.
Qed.

(** Rotating back restores the list exactly. *)
Lemma rot_rot t sA sE A B C D E pA nC nD nE :
  nbh t sA sE A B C D E pA nC nD nE ->
  swap_nn (rot t sA sE A B C D E pA nC nE) C = Ok t.
Proof.
  intros H. pose proof (rot_nbh H) as H'. rewrite (swap_nbh H'). f_equal.
  apply nth_error_ext. intros v. rewrite (rot_nth _ H'), (rot_nth _ H).
  pose proof H as (HA & HB & HC & HpC & HD & HpD & HE & HpE & Hnd).
  destruct (Nat.eqb_spec v A) as [->|?]; [symmetry; exact HA|].
  destruct (Nat.eqb_spec v B) as [->|?]; [symmetry; exact HB|].
  destruct (Nat.eqb_spec v E) as [->|?].
  { rewrite HE. f_equal. destruct nE as [e0 e1 ep]; cbn in *. congruence. }
  destruct (Nat.eqb_spec v C) as [->|?]; auto.
  rewrite HC. f_equal. destruct nC as [e0 e1 ep]; cbn in *. congruence.
Qed.

(** ** Relations in the rotated list *)
Lemma nbh_kidA t sA sE A B C D E pA nC nD nE :
  nbh t sA sE A B C D E pA nC nD nE -> forall c, kid t A c <-> c = B \/ c = C.
Proof.
  intros (HA & _) c. unfold kid. rewrite HA. split.
  - intros (n & Hn & Hk). inversion Hn; subst. cbn in Hk. destruct sA; cbn in Hk; intuition congruence.
  - intros Hc. eexists. split; [reflexivity|]. cbn. destruct sA; cbn; intuition congruence.
Qed.
Lemma nbh_kidB t sA sE A B C D E pA nC nD nE :
  nbh t sA sE A B C D E pA nC nD nE -> forall c, kid t B c <-> c = D \/ c = E.
Proof.
  intros (_ & HB & _) c. unfold kid. rewrite HB. split.
  - intros (n & Hn & Hk). inversion Hn; subst. cbn in Hk. destruct sE; cbn in Hk; intuition congruence.
  - intros Hc. eexists. split; [reflexivity|]. cbn. destruct sE; cbn; intuition congruence.
Qed.

Lemma rot_kid t sA sE A B C D E pA nC nD nE :
  nbh t sA sE A B C D E pA nC nD nE -> forall v c,
  kid (rot t sA sE A B C D E pA nC nE) v c <->
  (v = A /\ (c = B \/ c = E)) \/ (v = B /\ (c = D \/ c = C)) \/ (v <> A /\ v <> B /\ kid t v c).
Proof.
  intros H v c. pose proof (rot_nbh H) as H'.
  pose proof H as (HA & HB & HC & HpC & HD & HpD & HE & HpE & Hnd).
  apply nodup5 in Hnd. destruct Hnd as (n1&n2&n3&n4&n5&n6&n7&n8&n9&n10).
  destruct (Nat.eq_dec v A) as [->|nA].
  { rewrite (nbh_kidA H'). intuition congruence. }
  destruct (Nat.eq_dec v B) as [->|nB].
  { rewrite (nbh_kidB H'). intuition congruence. }
  transitivity (kid t v c); [|intuition congruence].
  unfold kid. rewrite (rot_nth _ H).
  rewrite (proj2 (Nat.eqb_neq v A)) by auto. rewrite (proj2 (Nat.eqb_neq v B)) by auto.
  destruct (Nat.eqb_spec v C) as [->|nC'].
  { rewrite HC. split; intros (n & Hn & Hk); inversion Hn; subst; cbn in Hk; eauto. }
  destruct (Nat.eqb_spec v E) as [->|nE'].
  { rewrite HE. split; intros (n & Hn & Hk); inversion Hn; subst; cbn in Hk; eauto. }
  reflexivity.
Qed.

Lemma rot_parent t sA sE A B C D E pA nC nD nE :
  nbh t sA sE A B C D E pA nC nD nE -> forall v p,
  parent (rot t sA sE A B C D E pA nC nE) v p <->
  (v = C /\ p = B) \/ (v = E /\ p = A) \/ (v <> C /\ v <> E /\ parent t v p).
Proof.
  intros H v p.
  pose proof H as (HA & HB & HC & HpC & HD & HpD & HE & HpE & Hnd).
  apply nodup5 in Hnd. destruct Hnd as (n1&n2&n3&n4&n5&n6&n7&n8&n9&n10).
  unfold parent. rewrite (rot_nth _ H).
  destruct (Nat.eqb_spec v A) as [->|nA].
  { rewrite HA. split.
    - intros (n & Hn & Hk). right; right. repeat split; auto. inversion Hn; subst. eauto.
    - intros [[? _]|[[? _]|(_ & _ & n & Hn & Hk)]]; try congruence. inversion Hn; subst. eauto. }
  destruct (Nat.eqb_spec v B) as [->|nB].
  { rewrite HB. split.
    - intros (n & Hn & Hk). right; right. repeat split; auto. inversion Hn; subst. eauto.
    - intros [[? _]|[[? _]|(_ & _ & n & Hn & Hk)]]; try congruence. inversion Hn; subst. eauto. }
  destruct (Nat.eqb_spec v C) as [->|nC'].
  { split.
    - intros (n & Hn & Hk). inversion Hn; subst. cbn in Hk. left. split; congruence.
    - intros [[_ ->]|[[? _]|(? & _)]]; try congruence. eauto. }
  destruct (Nat.eqb_spec v E) as [->|nE'].
  { split.
    - intros (n & Hn & Hk). inversion Hn; subst. cbn in Hk. right; left. split; congruence.
    - intros [[? _]|[[_ ->]|(_ & ? & _)]]; try congruence. eauto. }
  intuition congruence.
Qed.

Lemma nth_kids_rot t sA sE A B C D E pA nC nD nE v n :
  nbh t sA sE A B C D E pA nC nD nE ->
  nth_error (rot t sA sE A B C D E pA nC nE) v = Some n ->
  exists m, nth_error t v = Some m /\ (c0 m = None <-> c0 n = None) /\
    ((v <> A /\ v <> B /\ c0 m = c0 n /\ c1 m = c1 n) \/
     (exists a b, c0 n = Some a /\ c1 n = Some b /\ a <> b)).
Proof.
  intros H Hn. rewrite (rot_nth _ H) in Hn.
  pose proof H as (HA & HB & HC & HpC & HD & HpD & HE & HpE & Hnd).
  apply nodup5 in Hnd. destruct Hnd as (n1&n2&n3&n4&n5&n6&n7&n8&n9&n10).
  destruct (Nat.eqb_spec v A) as [->|nA].
  { inversion Hn; subst. eexists; split; [exact HA|]. cbn. destruct sA; cbn; split; try (intuition congruence);
    right; do 2 eexists; repeat split; congruence. }
  destruct (Nat.eqb_spec v B) as [->|nB].
  { inversion Hn; subst. eexists; split; [exact HB|]. cbn. destruct sE; cbn; split; try (intuition congruence);
    right; do 2 eexists; repeat split; congruence. }
  destruct (Nat.eqb_spec v C) as [->|nC'].
  { inversion Hn; subst. eexists; split; [exact HC|]. cbn. split; [reflexivity|]. left. auto. }
  destruct (Nat.eqb_spec v E) as [->|nE'].
  { inversion Hn; subst. eexists; split; [exact HE|]. cbn. split; [reflexivity|]. left. auto. }
  exists n. split; auto. split; [reflexivity|]. left. auto.
Qed.

(** Ranks survive: twice the old rank, except B just below A. *)
Lemma rot_rank t sA sE A B C D E pA nC nD nE h :
  nbh t sA sE A B C D E pA nC nD nE -> ranked t h ->
  (forall v c, kid t v c <-> parent t c v) ->
  ranked (rot t sA sE A B C D E pA nC nE)
         (fun v => if v =? B then 2 * h A - 1 else 2 * h v).
Proof.
  intros H Hr Hkp v c Hk.
  pose proof H as (HA & HB & HC & HpC & HD & HpD & HE & HpE & Hnd).
  apply nodup5 in Hnd. destruct Hnd as (n1&n2&n3&n4&n5&n6&n7&n8&n9&n10).
  assert (hB : h B < h A) by (apply Hr; apply (nbh_kidA H); auto).
  assert (hC : h C < h A) by (apply Hr; apply (nbh_kidA H); auto).
  assert (hD : h D < h B) by (apply Hr; apply (nbh_kidB H); auto).
  assert (hE : h E < h B) by (apply Hr; apply (nbh_kidB H); auto).
  apply (rot_kid H) in Hk.
  destruct Hk as [(-> & Hc)|[(-> & Hc)|(nA & nB & Hk)]].
  - rewrite (proj2 (Nat.eqb_neq A B)) by auto.
    destruct Hc as [-> | ->].
    + rewrite Nat.eqb_refl. lia.
    + rewrite (proj2 (Nat.eqb_neq E B)) by auto. lia.
  - rewrite Nat.eqb_refl. destruct Hc as [-> | ->].
    + rewrite (proj2 (Nat.eqb_neq D B)) by auto. lia.
    + rewrite (proj2 (Nat.eqb_neq C B)) by auto. lia.
  - pose proof (Hr _ _ Hk) as Hlt. rewrite (proj2 (Nat.eqb_neq v B)) by auto.
    destruct (Nat.eqb_spec c B) as [->|nc]; [|lia].
    (* B's only parent is A *)
    apply Hkp in Hk. destruct Hk as (n & Hn & Hp). rewrite HB in Hn. inversion Hn; subst.
    cbn in Hp. congruence.
Qed.

Lemma rot_wfl t sA sE A B C D E pA nC nD nE :
  nbh t sA sE A B C D E pA nC nD nE -> wfl t ->
  wfl (rot t sA sE A B C D E pA nC nE).
Proof.
  intros H W. pose proof H as (HA & HB & HC & HpC & HD & HpD & HE & HpE & Hnd).
  apply nodup5 in Hnd. destruct Hnd as (n1&n2&n3&n4&n5&n6&n7&n8&n9&n10).
  assert (PC : parent t C A) by (unfold parent; eauto).
  assert (PE : parent t E B) by (unfold parent; eauto).
  assert (PD : parent t D B) by (unfold parent; eauto).
  assert (PB : parent t B A) by (unfold parent; eauto).
  assert (Uniq : forall v p q, parent t v p -> parent t v q -> p = q).
  { intros v p q (n & Hn & Hp) (m & Hm & Hq). congruence. }
  constructor.
  - rewrite rot_length. apply W.
  - intros v n Hn. destruct (nth_kids_rot H Hn) as (m & Hm & _ & [(_ & _ & E0 & E1)|Hex]).
    + rewrite <- E0, <- E1. apply (wl_two W Hm).
    + right; auto.
  - intros v c. rewrite (rot_kid H), (rot_parent H). pose proof (wl_kp W v c) as Hkp.
    split.
    + intros [(-> & [-> | ->])|[(-> & [-> | ->])|(nA & nB & Hk)]].
      * right; right. repeat split; auto.
      * right; left. auto.
      * right; right. repeat split; auto.
      * left. auto.
      * apply Hkp in Hk. right; right. repeat split; auto; intros ->; [apply nA|apply nB];
          eapply Uniq; eauto.
    + intros [(-> & ->)|[(-> & ->)|(nc & ne & Hp)]]; auto.
      destruct (Nat.eq_dec v A) as [->|vA].
      { left. split; auto. left. apply Hkp in Hp. apply (nbh_kidA H) in Hp. tauto. }
      destruct (Nat.eq_dec v B) as [->|vB].
      { right; left. split; auto. left. apply Hkp in Hp. apply (nbh_kidB H) in Hp. tauto. }
      right; right. repeat split; auto. apply Hkp; auto.
  - intros v Hv. rewrite rot_length in *. rewrite <- (wl_root W Hv).
    split; intros Hnp p Hp.
    + apply (Hnp (if v =? C then B else if v =? E then A else p)).
      apply (rot_parent H).
      destruct (Nat.eqb_spec v C) as [->|nc]; auto.
      destruct (Nat.eqb_spec v E) as [->|ne]; auto.
    + apply (rot_parent H) in Hp. destruct Hp as [(-> & ->)|[(-> & ->)|(_ & _ & Hp)]];
        eapply Hnp; eauto.
  - intros v n Hn. destruct (nth_kids_rot H Hn) as (m & Hm & E0 & _).
    unfold n_leaves. rewrite rot_length. rewrite <- (wl_leaf W Hm). tauto.
  - destruct (wl_rank W) as (h & Hr). eexists. apply (rot_rank H Hr). apply (wl_kp W).
Qed.

(** ** Finding the neighbourhood of a node in a well-formed tree *)
Lemma kid_uniq_parent t v w c : wfl t -> kid t v c -> kid t w c -> v = w.
Proof.
  intros W H1 H2. apply (wl_kp W) in H1. apply (wl_kp W) in H2.
  destruct H1 as (n & Hn & Hp), H2 as (m & Hm & Hq). congruence.
Qed.

Lemma kid_node t v c : wfl t -> kid t v c -> exists n, nth_error t c = Some n /\ par n = Some v.
Proof. intros W H. apply (wl_kp W) in H. destruct H as (n & Hn & Hp). eauto. Qed.

Lemma find_nbh t A B D : wfl t -> parent t D B -> parent t B A ->
  exists sA sE C E pA nC nD nE, nbh t sA sE A B C E D pA nC nE nD.
Proof.
  intros W HD HB.
  pose proof (proj2 (wl_kp W B D) HD) as KD.
  pose proof (proj2 (wl_kp W A B) HB) as KB.
  destruct KB as (nA & HnA & KB). destruct KD as (nB & HnB & KD).
  destruct (wl_two W HnA) as [[Hx Hy]|(a & b & Ha & Hb & Hab)]; [intuition congruence|].
  destruct (wl_two W HnB) as [[Hx Hy]|(d & e & Hd & He & Hde)]; [intuition congruence|].
  destruct HB as (nB' & HnB' & HpB). assert (nB' = nB) by congruence. subst nB'.
  destruct HD as (nD & HnD & HpD).
  set (sA := a =? B). set (sE := d =? D).
  set (C := if sA then b else a). set (E := if sE then e else d).
  assert (KA_C : kid t A C).
  { exists nA. split; auto. unfold C. destruct sA; auto. }
  assert (KB_E : kid t B E).
  { exists nB. split; auto. unfold E. destruct sE; auto. }
  destruct (kid_node W KA_C) as (nC & HnC & HpC).
  destruct (kid_node W KB_E) as (nE & HnE & HpE).
  assert (KA_B : kid t A B) by (exists nA; auto).
  assert (KB_D : kid t B D) by (exists nB; auto).
  destruct (wl_rank W) as (h & Hr).
  pose proof (Hr _ _ KA_B). pose proof (Hr _ _ KB_D). pose proof (Hr _ _ KA_C). pose proof (Hr _ _ KB_E).
  assert (BC : B <> C).
  { unfold C, sA. destruct (Nat.eqb_spec a B); intros ->; intuition congruence. }
  assert (DE : D <> E).
  { unfold E, sE. destruct (Nat.eqb_spec d D); intros ->; intuition congruence. }
  exists sA, sE, C, E, (par nA), nC, nD, nE.
  assert (NA : nA = mkNode (pick sA B C) (pick sA C B) (par nA)).
  { destruct nA as [x y z]. cbn in *. unfold C, sA. subst. destruct (Nat.eqb_spec a B); cbn; f_equal; try congruence.
    destruct KB; congruence. }
  assert (NB : nB = mkNode (pick sE D E) (pick sE E D) (Some A)).
  { destruct nB as [x y z]. cbn in *. unfold E, sE. subst. destruct (Nat.eqb_spec d D); cbn; f_equal; try congruence.
    destruct KD; congruence. }
  unfold nbh. rewrite <- NA, <- NB. repeat split; auto.
  apply nodup5. repeat split; auto; try (intros ->; lia).
  - intros ->. assert (A = B) by (eapply kid_uniq_parent; [exact W|exact KA_C|exact KB_E]). subst. lia.
  - intros ->. assert (A = B) by (eapply kid_uniq_parent; [exact W|exact KA_C|exact KB_D]). subst. lia.
Qed.

Lemma swap_noop_range t D : length t <= D -> swap_nn t D = Ok t.
Proof. intros H. unfold swap_nn. apply Nat.leb_le in H. rewrite H. auto. Qed.

Lemma swap_noop_root t D n : nth_error t D = Some n -> par n = None -> swap_nn t D = Ok t.
Proof.
  intros H Hp. unfold swap_nn. rewrite (proj2 (Nat.leb_gt _ _) (nth_error_lt H)).
  rewrite (get_some H). cbn. rewrite Hp. auto.
Qed.

Lemma swap_noop_toproot t D n B nB : nth_error t D = Some n -> par n = Some B ->
  nth_error t B = Some nB -> par nB = None -> swap_nn t D = Ok t.
Proof.
  intros H Hp HB HpB. unfold swap_nn. rewrite (proj2 (Nat.leb_gt _ _) (nth_error_lt H)).
  rewrite (get_some H). cbn. rewrite Hp. rewrite (get_some HB). cbn. rewrite HpB. auto.
Qed.

(** Every call on a well-formed tree: nothing, or the rotation. *)
Lemma swap_cases t D : wfl t ->
  swap_nn t D = Ok t \/
  exists sA sE A B C E pA nC nD nE,
    nbh t sA sE A B C E D pA nC nE nD /\
    swap_nn t D = Ok (rot t sA sE A B C E D pA nC nD).
Proof.
  intros W. destruct (le_lt_dec (length t) D) as [Hge|Hlt].
  { left. apply swap_noop_range; auto. }
  destruct (nth_error t D) as [n|] eqn:Hn; [|apply nth_error_None in Hn; lia].
  destruct (par n) as [B|] eqn:Hp; [|left; eapply swap_noop_root; eauto].
  assert (PD : parent t D B) by (unfold parent; eauto).
  pose proof (proj2 (wl_kp W B D) PD) as (nB & HnB & _).
  destruct (par nB) as [A|] eqn:HpB; [|left; eapply swap_noop_toproot; eauto].
  assert (PB : parent t B A) by (unfold parent; eauto).
  destruct (find_nbh W PD PB) as (sA & sE & C & E & pA & nC & nD & nE & H).
  right. exists sA, sE, A, B, C, E, pA, nC, nD, nE. split; auto. apply (swap_nbh H).
Qed.

Lemma swap_wfl t D : wfl t -> exists t', swap_nn t D = Ok t' /\ wfl t' /\ length t' = length t.
Proof.
  intros W. destruct (swap_cases D W) as [E|(sA & sE & A & B & C & E & pA & nC & nD & nE & H & Es)].
  - exists t. auto.
  - eexists. split; [exact Es|]. split; [eapply rot_wfl; eauto|apply rot_length].
Qed.
