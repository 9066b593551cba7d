(** Invariants of a rotation on the data attached to the nodes: index sets, hyper
    indices and costs. Shared by all optimizers. *)
From Coq Require Import Permutation.
From Verif Require Import M_Base M_Bitset M_Tree M_CTree M_Opt S_Tree S_Opt P_Base P_Bitset P_Tree P_Shape.
Set Implicit Arguments.
Unset Strict Implicit.

(** [v] is internal with children [a] and [b], in either order. *)
Definition kids2 (t : tree) (v a b : nat) : Prop :=
  exists q, nth_error t v = Some (mkNode (Some a) (Some b) q) \/
            nth_error t v = Some (mkNode (Some b) (Some a) q).
Definition leaf_at (t : tree) (v : nat) : Prop := exists q, nth_error t v = Some (mkNode None None q).

Lemma kids2_sym t v a b : kids2 t v a b -> kids2 t v b a.
Proof. intros (q & H). exists q. tauto. Qed.

Lemma wfl_node t v : wfl t -> v < length t -> leaf_at t v \/ exists a b, kids2 t v a b.
Proof.
  intros W Hv. destruct (nth_error t v) as [n|] eqn:Hn; [|apply nth_error_None in Hn; lia].
  destruct (wl_two W Hn) as [(E0 & E1)|(a & b & E0 & E1 & _)]; destruct n as [x y q]; simpl in *; subst.
  - left. exists q. auto.
  - right. exists a, b, q. auto.
Qed.

Lemma kids2_kid t v a b : kids2 t v a b -> kid t v a /\ kid t v b.
Proof. intros (q & [H|H]); split; eexists; (split; [exact H|]); simpl; auto. Qed.

Lemma kids2_lt t v a b : wfl t -> kids2 t v a b -> v < length t /\ a < length t /\ b < length t.
Proof.
  intros W H. destruct (kids2_kid H) as (Ka & Kb). split.
  - destruct H as (q & [H|H]); eapply nth_error_lt; eauto.
  - destruct (kid_node W Ka) as (n & Hn & _). destruct (kid_node W Kb) as (m & Hm & _).
    split; eapply nth_error_lt; eauto.
Qed.

Lemma kids2_fun t v a b a' b' : kids2 t v a b -> kids2 t v a' b' -> (a' = a /\ b' = b) \/ (a' = b /\ b' = a).
Proof. intros (q & [H|H]) (q' & [H'|H']); rewrite H in H'; inversion H'; auto. Qed.

Lemma leaf_not_kids t v a b : leaf_at t v -> kids2 t v a b -> False.
Proof. intros (q & H) (q' & [H'|H']); congruence. Qed.

Lemma nbh_kids2A t sA sE A B C D E pA nC nD nE :
  nbh t sA sE A B C D E pA nC nD nE -> kids2 t A B C.
Proof. intros (HA & _). exists pA. destruct sA; auto. Qed.
Lemma nbh_kids2B t sA sE A B C D E pA nC nD nE :
  nbh t sA sE A B C D E pA nC nD nE -> kids2 t B D E.
Proof. intros (_ & HB & _). exists (Some A). destruct sE; auto. Qed.

Lemma rot_kids2 t sA sE A B C D E pA nC nD nE v a b :
  nbh t sA sE A B C D E pA nC nD nE -> v <> A -> v <> B ->
  (kids2 (rot t sA sE A B C D E pA nC nE) v a b <-> kids2 t v a b).
Proof.
  intros H vA vB. unfold kids2. rewrite (rot_nth _ H).
  rewrite (proj2 (Nat.eqb_neq v A)), (proj2 (Nat.eqb_neq v B)) by auto.
  pose proof H as (_ & _ & HC & _ & _ & _ & HE & _).
  destruct (Nat.eqb_spec v C) as [->|nC'].
  { rewrite HC. destruct nC as [x y z]. simpl.
    split; intros (q & [Hq|Hq]); inversion Hq; subst; eauto. }
  destruct (Nat.eqb_spec v E) as [->|nE'].
  { rewrite HE. destruct nE as [x y z]. simpl.
    split; intros (q & [Hq|Hq]); inversion Hq; subst; eauto. }
  reflexivity.
Qed.

Lemma rot_leaf t sA sE A B C D E pA nC nD nE v :
  nbh t sA sE A B C D E pA nC nD nE ->
  (leaf_at (rot t sA sE A B C D E pA nC nE) v <-> leaf_at t v).
Proof.
  intros H. unfold leaf_at. rewrite (rot_nth _ H).
  pose proof H as (HA & HB & HC & _ & _ & _ & HE & _).
  destruct (Nat.eqb_spec v A) as [->|vA].
  { rewrite HA. destruct sA; simpl; split; intros (q & Hq); discriminate. }
  destruct (Nat.eqb_spec v B) as [->|vB].
  { rewrite HB. destruct sE; simpl; split; intros (q & Hq); discriminate. }
  destruct (Nat.eqb_spec v C) as [->|nC'].
  { rewrite HC. destruct nC as [x y z]. simpl. split; intros (q & Hq); inversion Hq; subst; eauto. }
  destruct (Nat.eqb_spec v E) as [->|nE'].
  { rewrite HE. destruct nE as [x y z]. simpl. split; intros (q & Hq); inversion Hq; subst; eauto. }
  reflexivity.
Qed.

(** ** Index sets *)
Definition ix (xs : list bitset) (v : nat) : bitset := nth v xs [].

(** xor of the children inside the node, node inside the union. *)
Definition loc (x x0 x1 : bitset) : Prop := forall i,
  (xorb (btest x0 i) (btest x1 i) = true -> btest x i = true) /\
  (btest x i = true -> btest x0 i || btest x1 i = true).

Lemma loc_sym x a b : loc x a b -> loc x b a.
Proof. intros H i. specialize (H i). rewrite xorb_comm, orb_comm. auto. Qed.

Record core (t : tree) (xs : list bitset) (n : nat) : Prop := {
  co_wf  : wfl t;
  co_len : length xs = length t;
  co_sz  : forall v, v < length t -> length (ix xs v) = n;
  co_loc : forall v a b, kids2 t v a b -> loc (ix xs v) (ix xs a) (ix xs b)
}.

Lemma get_nth (A : Type) (l : list A) i d : i < length l -> get l i = Ok (nth i l d).
Proof. intros H. apply get_some. apply nth_error_nth'. auto. Qed.

Lemma upd_nth_d (A : Type) (l : list A) i x j d : i < length l ->
  nth j (upd l i x) d = if i =? j then x else nth j l d.
Proof.
  revert i j. induction l as [|y l IH]; intros [|i] [|j]; simpl; intros; try lia; auto.
  apply IH. lia.
Qed.
Lemma upd_nth_eq (A : Type) (l : list A) i x d : i < length l -> nth i (upd l i x) d = x.
Proof. intros. rewrite upd_nth_d by auto. rewrite Nat.eqb_refl. auto. Qed.
Lemma upd_nth_neq (A : Type) (l : list A) i j x d : i <> j -> nth j (upd l i x) d = nth j l d.
Proof.
  revert i j. induction l as [|y l IH]; intros [|i] [|j]; simpl; intros; try lia; auto.
Qed.

(** The new index set of B. *)
Definition newB (A B C D E : bitset) : bitset :=
  bor (bor (bxor D C) (band (band A B) C)) (band (band B D) E).

Lemma newB_len A B C D E n : length A = n -> length B = n -> length C = n -> length D = n -> length E = n ->
  length (newB A B C D E) = n.
Proof.
  intros. unfold newB.
  assert (length (bxor D C) = n) by (rewrite bxor_len; congruence).
  assert (length (band A B) = n) by (rewrite band_len; congruence).
  assert (length (band B D) = n) by (rewrite band_len; congruence).
  assert (length (band (band A B) C) = n) by (rewrite band_len; congruence).
  assert (length (band (band B D) E) = n) by (rewrite band_len; congruence).
  assert (length (bor (bxor D C) (band (band A B) C)) = n) by (rewrite bor_len; congruence).
  rewrite bor_len; congruence.
Qed.

Lemma newB_test A B C D E n i : length A = n -> length B = n -> length C = n -> length D = n -> length E = n ->
  btest (newB A B C D E) i =
  xorb (btest D i) (btest C i) || (btest A i && btest B i && btest C i) || (btest B i && btest D i && btest E i).
Proof.
  intros. unfold newB.
  assert (length (bxor D C) = n) by (rewrite bxor_len; congruence).
  assert (length (band A B) = n) by (rewrite band_len; congruence).
  assert (length (band B D) = n) by (rewrite band_len; congruence).
  assert (length (band (band A B) C) = n) by (rewrite band_len; congruence).
  assert (length (band (band B D) E) = n) by (rewrite band_len; congruence).
  assert (length (bor (bxor D C) (band (band A B) C)) = n) by (rewrite bor_len; congruence).
  rewrite !bor_test, bxor_test, !band_test by congruence. auto.
Qed.

Lemma newB_loc A B C D E n :
  length A = n -> length B = n -> length C = n -> length D = n -> length E = n ->
  loc B D E -> loc A B C -> loc (newB A B C D E) D C /\ loc A (newB A B C D E) E.
Proof.
  intros LA LB LC LD LE H1 H2. split; intros i; specialize (H1 i); specialize (H2 i);
    rewrite (newB_test i LA LB LC LD LE);
    destruct (btest A i), (btest B i), (btest C i), (btest D i), (btest E i); simpl in *; intuition congruence.
Qed.

(** Under [loc] all pairwise unions agree. *)
Lemma loc_union x a b n : length x = n -> length a = n -> length b = n -> loc x a b ->
  bor x a = bor a b /\ bor x b = bor a b.
Proof.
  intros Lx La Lb H. split; (apply bitset_ext; [rewrite !bor_len; congruence|]);
    intros i; rewrite !bor_test by congruence; specialize (H i);
    destruct (btest x i), (btest a i), (btest b i); simpl in *; intuition congruence.
Qed.

Lemma parent_not_kid_of_other t v a b w : wfl t -> kids2 t v a b -> kid t w a -> w = v.
Proof. intros W H K. destruct (kids2_kid H) as (Ka & _). eapply kid_uniq_parent; eauto. Qed.

Section Rotation.
  Variables (t : tree) (sA sE : bool) (A B C D E : nat) (pA : option nat) (nC nD nE : node).
  Hypothesis H : nbh t sA sE A B C D E pA nC nD nE.
  Let t' := rot t sA sE A B C D E pA nC nE.

  Lemma nbh_lt : A < length t /\ B < length t /\ C < length t /\ D < length t /\ E < length t.
  Proof.
    pose proof H as (HA & HB & HC & _ & HD & _ & HE & _). repeat split; eapply nth_error_lt; eauto.
  Qed.
  Lemma nbh_neq : A <> B /\ A <> C /\ A <> D /\ A <> E /\ B <> C /\ B <> D /\ B <> E /\ C <> D /\ C <> E /\ D <> E.
  Proof. pose proof H as (_ & _ & _ & _ & _ & _ & _ & _ & Hnd). apply nodup5 in Hnd. auto. Qed.

  Lemma rot_kids2A : kids2 t' A B E.
  Proof. exact (nbh_kids2A (rot_nbh H)). Qed.
  Lemma rot_kids2B : kids2 t' B D C.
  Proof. exact (nbh_kids2B (rot_nbh H)). Qed.

  (** Children of nodes other than A are never B. *)
  Lemma other_kids v a b : wfl t -> kids2 t v a b -> v <> A -> a <> B /\ b <> B.
  Proof.
    intros W K vA. pose proof (proj2 (nbh_kidA H B) (or_introl eq_refl)) as KB.
    split; intros ->.
    - apply vA. eapply kid_uniq_parent; eauto. apply (kids2_kid K).
    - apply vA. eapply kid_uniq_parent; eauto. apply (kids2_kid K).
  Qed.

  (** A family of facts about (node, children) transported over a rotation that
      changes attached data only at A and B. *)
  Lemma rot_family (P' : nat -> nat -> nat -> Prop) : wfl t ->
    (forall v a b, P' v a b -> P' v b a) ->
    P' A B E -> P' B D C ->
    (forall v a b, kids2 t v a b -> v <> A -> v <> B -> a <> B -> b <> B -> P' v a b) ->
    forall v a b, kids2 t' v a b -> P' v a b.
  Proof.
    intros W Hs HA HB HO v a b K.
    destruct (Nat.eq_dec v A) as [->|vA].
    { destruct (kids2_fun rot_kids2A K) as [(-> & ->)|(-> & ->)]; auto. }
    destruct (Nat.eq_dec v B) as [->|vB].
    { destruct (kids2_fun rot_kids2B K) as [(-> & ->)|(-> & ->)]; auto. }
    apply (rot_kids2 a b H vA vB) in K. destruct (other_kids W K vA). auto.
  Qed.

  Lemma rot_core xs n nb : core t xs n ->
    nb = newB (ix xs A) (ix xs B) (ix xs C) (ix xs D) (ix xs E) ->
    core t' (upd xs B nb) n.
  Proof.
    intros [W HL Hs Hl] ->. destruct nbh_lt as (LA & LB & LC & LD & LE).
    destruct nbh_neq as (n1&n2&n3&n4&n5&n6&n7&n8&n9&n10).
    destruct (newB_loc (n := n) (A := ix xs A) (B := ix xs B) (C := ix xs C) (D := ix xs D) (E := ix xs E)
              (Hs _ LA) (Hs _ LB) (Hs _ LC) (Hs _ LD) (Hs _ LE)
              (Hl _ _ _ (nbh_kids2B H)) (Hl _ _ _ (nbh_kids2A H))) as (N1 & N2).
    assert (LB' : B < length xs) by lia.
    constructor.
    - eapply rot_wfl; eauto.
    - rewrite upd_length. unfold t'. rewrite rot_length. auto.
    - unfold t'. rewrite rot_length. intros v Hv. unfold ix. rewrite upd_nth_d by auto.
      destruct (Nat.eqb_spec B v); [|apply Hs; auto]. apply newB_len; apply Hs; auto.
    - apply rot_family; auto; unfold ix.
      + intros v a b. apply loc_sym.
      + rewrite (upd_nth_neq _ _ (i := B) (j := A)), (upd_nth_eq _ _ LB'), (upd_nth_neq _ _ (i := B) (j := E)) by auto.
        exact N2.
      + rewrite (upd_nth_eq _ _ LB'), !(upd_nth_neq _ _ (i := B)) by auto. exact N1.
      + intros v a b K vA vB aB bB. rewrite !(upd_nth_neq _ _ (i := B)) by auto. apply Hl. auto.
  Qed.
End Rotation.

(** ** Hyper indices and costs *)
Definition hyper_ok (t : tree) (xs hs : list bitset) (n : nat) : Prop :=
  length hs = length t /\
  (forall v a b, kids2 t v a b -> ix hs v = band (band (ix xs v) (ix xs a)) (ix xs b)) /\
  (forall v, leaf_at t v -> ix hs v = bempty n).

Definition zx (l : list Z) (v : nat) : Z := nth v l 0%Z.

Definition ccost_ok (cc : bitset -> bitset -> bitset -> Z) (t : tree) (xs : list bitset) (ks : list Z) : Prop :=
  length ks = length t /\
  (forall v a b, kids2 t v a b -> zx ks v = cc (ix xs v) (ix xs a) (ix xs b)) /\
  (forall v, leaf_at t v -> zx ks v = 0%Z).

(** Partial costs, except possibly at the nodes in [w]. *)
Definition pcost_ok (t : tree) (ks ps : list Z) (w : nat -> Prop) : Prop :=
  length ps = length t /\
  (forall v a b, kids2 t v a b -> ~ w v -> zx ps v = (zx ps a + zx ps b + zx ks v)%Z) /\
  (forall v, leaf_at t v -> zx ps v = 0%Z).

(** A contraction cost that depends only on the union of its first two sets. *)
Definition ucost (cc : bitset -> bitset -> bitset -> Z) : Prop :=
  forall a b c a' b' c', bor a b = bor a' b' -> cc a b c = cc a' b' c'.

Lemma ucost_sym cc n x a b : ucost cc -> length x = n -> length a = n -> length b = n ->
  loc x a b -> cc x a b = cc x b a.
Proof.
  intros U Lx La Lb Hl. apply U. destruct (loc_union Lx La Lb Hl) as (E1 & E2). congruence.
Qed.

Lemma band3_sym x a b n : length x = n -> length a = n -> length b = n ->
  band (band x a) b = band (band x b) a.
Proof.
  intros Lx La Lb.
  assert (length (band x a) = n) by (rewrite band_len; congruence).
  assert (length (band x b) = n) by (rewrite band_len; congruence).
  apply bitset_ext; [rewrite !band_len; congruence|]. intros i. rewrite !band_test by congruence.
  destruct (btest x i), (btest a i), (btest b i); auto.
Qed.

Section Rotation2.
  Variables (t : tree) (sA sE : bool) (A B C D E : nat) (pA : option nat) (nC nD nE : node).
  Hypothesis H : nbh t sA sE A B C D E pA nC nD nE.
  Let t' := rot t sA sE A B C D E pA nC nE.
  Variables (xs : list bitset) (n : nat).
  Hypothesis HC : core t xs n.
  Let nb := newB (ix xs A) (ix xs B) (ix xs C) (ix xs D) (ix xs E).
  Let xs' := upd xs B nb.

  Lemma rot_core' : core t' xs' n.
  Proof. apply (rot_core H HC). reflexivity. Qed.

  Lemma xs'_B : ix xs' B = nb.
  Proof. destruct (nbh_lt H) as (_ & LB & _). unfold ix, xs'. apply upd_nth_eq. rewrite (co_len HC). auto. Qed.
  Lemma xs'_other v : v <> B -> ix xs' v = ix xs v.
  Proof. intros. unfold ix, xs'. apply upd_nth_neq. auto. Qed.

  Lemma rot_len' : length t' = length t.
  Proof. unfold t'. apply rot_length. Qed.

  Lemma rot_hyper hs : hyper_ok t xs hs n ->
    hyper_ok t' xs' (upd (upd hs A (band (band (ix xs A) nb) (ix xs E)))
                         B (band (band nb (ix xs D)) (ix xs C))) n.
  Proof.
    intros (HL & Hk & Hlf). destruct (nbh_lt H) as (LA & LB & LC & LD & LE).
    destruct (nbh_neq H) as (n1&n2&n3&n4&n5&n6&n7&n8&n9&n10). split; [|split].
    - rewrite !upd_length. rewrite rot_len'. auto.
    - pose proof rot_core' as [W' L' S' _].
      intros v a b K. assert (Kt := K).
      assert (LvLab := kids2_lt W' Kt).
      revert v a b K Kt LvLab.
      assert (G : forall v a b, kids2 t' v a b ->
        (v < length t' /\ a < length t' /\ b < length t') /\
        ix (upd (upd hs A (band (band (ix xs A) nb) (ix xs E))) B (band (band nb (ix xs D)) (ix xs C))) v =
        band (band (ix xs' v) (ix xs' a)) (ix xs' b)).
      { apply (rot_family H).
        - apply HC.
        - intros v a b ((Lv & La & Lb) & E0). split; auto. rewrite E0.
          apply band3_sym with (n := n); apply S'; auto.
        - split; [rewrite rot_len'; auto|].
          rewrite xs'_B, !xs'_other by auto. unfold ix at 1.
          rewrite upd_nth_neq by auto. rewrite upd_nth_eq by lia. auto.
        - split; [rewrite rot_len'; auto|].
          rewrite xs'_B, !xs'_other by auto. unfold ix at 1.
          rewrite upd_nth_eq by (rewrite upd_length; lia). auto.
        - intros v a b K vA vB aB bB. rewrite rot_len'. split; [eapply kids2_lt; eauto; apply HC|].
          rewrite !xs'_other by auto. unfold ix at 1. rewrite !upd_nth_neq by auto. apply Hk; auto. }
      intros v a b K _ _. apply (G v a b K).
    - intros v Hv. apply (rot_leaf _ H) in Hv. unfold ix.
      rewrite !upd_nth_neq; [apply Hlf; auto| |].
      + intros ->. eapply leaf_not_kids; [exact Hv|eapply nbh_kids2A; eauto].
      + intros ->. eapply leaf_not_kids; [exact Hv|eapply nbh_kids2B; eauto].
  Qed.

  Lemma rot_ccost cc ks : ucost cc -> ccost_ok cc t xs ks ->
    ccost_ok cc t' xs' (upd (upd ks B (cc nb (ix xs D) (ix xs C))) A (cc (ix xs A) nb (ix xs E))).
  Proof.
    intros U (HL & Hk & Hlf). destruct (nbh_lt H) as (LA & LB & LC & LD & LE).
    destruct (nbh_neq H) as (n1&n2&n3&n4&n5&n6&n7&n8&n9&n10). split; [|split].
    - rewrite !upd_length, rot_len'. auto.
    - pose proof rot_core' as [W' L' S' Loc'].
      assert (G : forall v a b, kids2 t' v a b ->
        (v < length t' /\ a < length t' /\ b < length t') /\ loc (ix xs' v) (ix xs' a) (ix xs' b) /\
        zx (upd (upd ks B (cc nb (ix xs D) (ix xs C))) A (cc (ix xs A) nb (ix xs E))) v =
        cc (ix xs' v) (ix xs' a) (ix xs' b)).
      { apply (rot_family H).
        - apply HC.
        - intros v a b ((Lv & La & Lb) & Hl & E0). split; auto. split; [apply loc_sym; auto|].
          rewrite E0. apply (ucost_sym (n := n) U); auto.
        - split; [rewrite rot_len'; auto|]. split; [apply Loc'; apply (rot_kids2A H)|].
          rewrite xs'_B, !xs'_other by auto. unfold zx.
          rewrite upd_nth_eq by (rewrite upd_length; lia). auto.
        - split; [rewrite rot_len'; auto|]. split; [apply Loc'; apply (rot_kids2B H)|].
          rewrite xs'_B, !xs'_other by auto. unfold zx.
          rewrite upd_nth_neq by auto. rewrite upd_nth_eq by lia. auto.
        - intros v a b K vA vB aB bB. rewrite rot_len'. split; [eapply kids2_lt; eauto; apply HC|].
          split; [apply Loc'; apply (rot_kids2 a b H vA vB); auto|].
          rewrite !xs'_other by auto. unfold zx. rewrite !upd_nth_neq by auto. apply Hk; auto. }
      intros v a b K. apply (G v a b K).
    - intros v Hv. apply (rot_leaf _ H) in Hv. unfold zx.
      rewrite !upd_nth_neq; [apply Hlf; auto| |].
      + intros ->. eapply leaf_not_kids; [exact Hv|eapply nbh_kids2B; eauto].
      + intros ->. eapply leaf_not_kids; [exact Hv|eapply nbh_kids2A; eauto].
  Qed.
End Rotation2.

(** Partial costs: whatever tree [t'] results (rotated or not), setting B and A
    from their children moves the stale node from [parent B = A] to [parent A]. *)
Lemma pcost_step t sA sE A B C D E pA nC nD nE ks ps :
  nbh t sA sE A B C D E pA nC nD nE -> wfl t ->
  length ks = length t ->
  length ps = length t ->
  (forall v a b, kids2 t v a b -> v <> A -> v <> B -> zx ps v = (zx ps a + zx ps b + zx ks v)%Z) ->
  (forall v, leaf_at t v -> zx ps v = 0%Z) ->
  let p1 := upd ps B (zx ps D + zx ps E + zx ks B)%Z in
  let p2 := upd p1 A (zx p1 B + zx p1 C + zx ks A)%Z in
  pcost_ok t ks p2 (fun v => parent t A v).
Proof.
  intros H W Lk Lp Hk Hlf p1 p2. destruct (nbh_lt H) as (LA & LB & LC & LD & LE).
  destruct (nbh_neq H) as (n1&n2&n3&n4&n5&n6&n7&n8&n9&n10).
  assert (L1 : length p1 = length t) by (unfold p1; rewrite upd_length; auto).
  assert (P2A : zx p2 A = (zx p2 B + zx p2 C + zx ks A)%Z).
  { unfold p2, zx. rewrite upd_nth_eq by lia. rewrite !upd_nth_neq by auto. auto. }
  assert (P2B : zx p2 B = (zx p2 D + zx p2 E + zx ks B)%Z).
  { unfold p2, p1, zx. rewrite upd_nth_neq by auto. rewrite upd_nth_eq by lia.
    rewrite !upd_nth_neq by auto. auto. }
  assert (PO : forall v, v <> A -> v <> B -> zx p2 v = zx ps v).
  { intros v vA vB. unfold p2, p1, zx. rewrite !upd_nth_neq by auto. auto. }
  split; [|split].
  - unfold p2. rewrite upd_length. auto.
  - intros v a b K Hw.
    destruct (Nat.eq_dec v A) as [->|vA].
    { destruct (kids2_fun (nbh_kids2A H) K) as [(-> & ->)|(-> & ->)]; rewrite P2A; lia. }
    destruct (Nat.eq_dec v B) as [->|vB].
    { destruct (kids2_fun (nbh_kids2B H) K) as [(-> & ->)|(-> & ->)]; rewrite P2B; lia. }
    destruct (other_kids H W K vA) as (aB & bB).
    destruct (kids2_kid K) as (Ka & Kb).
    assert (aA : a <> A) by (intros ->; apply Hw; apply (wl_kp W); auto).
    assert (bA : b <> A) by (intros ->; apply Hw; apply (wl_kp W); auto).
    rewrite !PO by auto. auto.
  - intros v Hv. rewrite PO; auto.
    + intros ->. eapply leaf_not_kids; [exact Hv|eapply nbh_kids2A; eauto].
    + intros ->. eapply leaf_not_kids; [exact Hv|eapply nbh_kids2B; eauto].
Qed.
