(** get_random_contraction_path: the theorem. *)
From Coq Require Import List Arith Bool Lia Permutation.
Import ListNotations.
From Verif Require Import M_Base M_Path M_PyTree M_Random S_Path S_Random P_Base P_Path P_Split P_PathMain P_PyPath P_PyBuild P_PyTens P_RandColor P_RandLoop P_RandComp.
Set Implicit Arguments.
Unset Strict Implicit.

Lemma filter_length_le (A : Type) (f : A -> bool) l : length (filter f l) <= length l.
Proof. induction l as [|a l IH]; simpl; auto. destruct (f a); simpl; lia. Qed.

Lemma nodup2 (A : Type) (a b : A) : a <> b -> NoDup [a; b].
Proof. intros H. constructor; [intros [E|[]]; auto|]. constructor; [intros []|constructor]. Qed.

Section Comp.
Variable R : Type.
Variable g : prng R.
Hypothesis Hg : prng_ok g.
Variable m : nat.
Variable ts0 : list (list nat).
Let n := length ts0.
Variable K : list nat.
Variable s0 : rstate.
Hypothesis HK : forall x, In x K -> x < m.

Lemma comp_loop_ok fuel : forall avail s con p r G q cs, kinv m ts0 K s0 s con p G q cs ->
  length avail + length G < fuel -> (forall x, In x avail -> In x K) -> (forall x, In x K -> In x avail \/ nth x (r_h s) 0 = 0) ->
  exists s' p' r' con' G' q' cs', comp_loop g fuel avail s con p r = Ok (s', p', r') /\ kinv m ts0 K s0 s' con' p' G' q' cs' /\
    forall x, In x K -> nth x (r_h s') 0 = 0.
Proof.
  induction fuel as [|f IH]; intros avail s con p r G q cs I Hf Ha Hd; [lia|].
  cbn [comp_loop]. destruct avail as [|x0 av0] eqn:Eav.
  - exists s, p, r, con, G, q, cs. split; auto. split; auto. intros x Hx. destruct (Hd x Hx) as [[]|]; auto.
  - rewrite <- Eav in *. assert (Hl : 0 < length avail) by (subst avail; simpl; lia). destruct Hg as [Hr Hs].
    pose proof (Hr r (length avail) Hl) as Hi. destruct (randrange g r (length avail)) as [i r1]. simpl in Hi.
    destruct (swap_ok Hi) as (av & x & E & L & P & Ex & Er). rewrite E. cbn [bind].
    rewrite (get_some Ex). cbn [bind].
    assert (Hx : In x K). { apply Ha. apply (Permutation_in _ (Permutation_sym P)). eapply nth_error_In; eauto. }
    destruct (k_len I) as [L1 L2]. rewrite (get_nth 0) by (rewrite L2; auto). cbn [bind]. rewrite (get_nth []) by (rewrite L1; auto). cbn [bind].
    destruct (k_live I Hx) as (NL & HL & DL).
    destruct ((nth x (r_h s) 0 =? 0) || (length (nth x (r_i2t s) []) <=? 1)) eqn:B.
    + assert (Z : nth x (r_h s) 0 = 0).
      { apply orb_true_iff in B. rewrite Nat.eqb_eq, Nat.leb_le in B. destruct B as [B|B]; auto. rewrite DL.
        assert (length (live s con x) <= length (nth x (r_i2t s) [])) by apply filter_length_le. lia. }
      apply (IH _ _ _ _ _ G q cs); auto.
      * rewrite Er, app_length in L. simpl in L. lia.
      * intros y Hy. apply Ha. apply (Permutation_in _ (Permutation_sym P)). rewrite Er. apply in_app_iff. auto.
      * intros y Hy. destruct (Hd y Hy) as [A|A]; auto. apply (Permutation_in _ P) in A. rewrite Er in A. apply in_app_iff in A.
        destruct A as [A|[<-|[]]]; auto.
    + apply orb_false_iff in B. rewrite Nat.eqb_neq, Nat.leb_gt in B. destruct B as [B1 B2]. fold (live s con x).
      assert (L3 : 2 <= length (live s con x)) by lia. destruct (Nat.ltb_spec (length (live s con x)) 2); [lia|].
      pose proof (Hs r1 (length (live s con x)) ltac:(lia)) as Hab. destruct (sample2 g r1 (length (live s con x))) as [[a b] r2]. simpl in Hab.
      destruct Hab as (La & Lb & Nab). rewrite (get_nth 0 La). cbn [bind]. rewrite (get_nth 0 Lb). cbn [bind].
      set (tx := nth a (live s con x) 0). set (ty := nth b (live s con x) 0).
      assert (Hne : tx <> ty). { intros Eq. apply Nab. apply (proj1 (NoDup_nth (live s con x) 0) NL); auto. }
      assert (Htx : In tx (live s con x)) by (apply nth_In; auto). assert (Hty : In ty (live s con x)) by (apply nth_In; auto).
      pose proof (proj1 (HL _) Htx) as [Gx Xx]. pose proof (proj1 (HL _) Hty) as [Gy Yx].
      destruct (k_ids I Gx) as (Lx & Nx & _). destruct (k_ids I Gy) as (Ly & Ny & _).
      assert (Kx := k_mono I Gx Hx Xx). assert (Ky := k_mono I Gy Hx Yx).
      destruct (@contract_two_ok s tx ty) as (s' & E2 & HT); auto.
      { intros y [Hy|Hy]; rewrite L1; apply HK; auto. }
      { exists x. auto. }
      { intros y Hy1 Hy2. destruct (k_live I (Kx _ Hy1)) as (NLy & HLy & DLy). rewrite DLy.
        assert (incl [tx; ty] (live s con y)) as HI. { intros w [<-|[<-|[]]]; apply HLy; auto. }
        pose proof (@NoDup_incl_length nat [tx; ty] (live s con y)) as W. simpl in W. assert (2 <= length (live s con y)); [|lia].
        apply W; auto. apply nodup2; auto. }
      rewrite E2. cbn [bind]. destruct (kinv_step I HT Hx Htx Hty Hne) as (G' & q' & cs' & I' & LG).
      apply (IH _ _ _ _ _ G' q' cs'); auto.
      * rewrite L. lia.
      * intros y Hy. apply Ha. apply (Permutation_in _ (Permutation_sym P)). auto.
      * intros y Hy. destruct (Hd y Hy) as [A|A]; [left; apply (Permutation_in _ P); auto|right].
        destruct HT as (zs & _ & _ & _ & _ & Hh & _). rewrite Hh. lia.
Qed.

Hypothesis Hlen : length (r_i2t s0) = m /\ length (r_h s0) = m.
Hypothesis Hge : n <= length (r_ts s0).
Hypothesis Hpre : forall t, t < n -> nth t (r_ts s0) [] = nth t ts0 [].
Hypothesis Hnd : forall xs, In xs ts0 -> NoDup xs.
Hypothesis Hi2t : forall x, In x K -> nth x (r_i2t s0) [] = filter (fun t => memb x (nth t ts0 [])) (seq 0 n) /\
  nth x (r_h s0) 0 = length (filter (fun t => memb x (nth t ts0 [])) (seq 0 n)) - 1.
Hypothesis Hclosed : forall xs x, In xs ts0 -> In x xs -> In x K -> incl xs K.
Hypothesis Hlink : forall x y, In x K -> In y K -> linked ts0 x y.
Hypothesis Hne : exists x t, In x K /\ has ts0 t x.

Lemma has_nth t x : has ts0 t x <-> t < n /\ In x (nth t ts0 []).
Proof.
  split.
  - intros (xs & E & H). split; [apply nth_error_Some; congruence|]. rewrite (nth_error_nth _ _ [] E). auto.
  - intros [H1 H2]. exists (nth t ts0 []). split; auto. apply nth_error_nth'. auto.
Qed.
Lemma has_in t x : has ts0 t x -> exists xs, In xs ts0 /\ In x xs /\ nth_error ts0 t = Some xs.
Proof. intros (xs & E & H). exists xs. split; [eapply nth_error_In; eauto|auto]. Qed.

Lemma kinv_start : kinv m ts0 K s0 s0 [] [] (map (fun t => (t, S_Path.T t)) (seq 0 n)) [] [].
Proof.
  assert (HG : forall id a, In (id, a) (map (fun t => (t, S_Path.T t)) (seq 0 n)) <-> id < n /\ a = S_Path.T id).
  { intros id a. rewrite in_map_iff. split.
    - intros (t & E & H). inversion E; subst. apply in_seq in H. split; auto. lia.
    - intros [A ->]. exists id. split; auto. apply in_seq. lia. }
  constructor; auto; rewrite ?istart_fst, ?istart_snd; try (match goal with |- forall t, In t [] -> _ => intros t [] end).
  - constructor.
  - reflexivity.
  - apply incr_seq.
  - intros id H. apply in_seq in H. split; [lia|]. rewrite Hpre by lia. split; [|tauto]. apply Hnd, nth_In. lia.
  - intros x Hx. destruct (Hi2t Hx) as [A B]. unfold live. simpl.
    assert (E : filter (fun _ => true) (nth x (r_i2t s0) []) = nth x (r_i2t s0) []) by (apply forallb_filter_id, forallb_forall; auto).
    rewrite E, A, B. split; [apply NoDup_filter', seq_NoDup|]. split; auto. intros t. rewrite filter_In, memb_In. split.
    + intros [C D]. split; auto. apply in_seq in C. rewrite Hpre by lia. auto.
    + intros [C D]. split; auto. apply in_seq in C. rewrite Hpre in D by lia. auto.
  - intros x t Hx. rewrite (proj1 (Hi2t Hx)). intros H. apply filter_In in H. destruct H as [H _]. apply in_seq in H. lia.
  - intros id x H Hx Hxx. apply in_seq in H. rewrite Hpre in * by lia. apply Hclosed with x; auto. apply nth_In. lia.
  - intros id a x H Hx. apply HG in H. destruct H as [H ->]. exists id. simpl. split; auto. apply has_nth. rewrite <- Hpre by auto. auto.
  - intros x Hx. left. intros t Ht. apply has_nth in Ht. destruct Ht as [A B]. exists t, (S_Path.T t). rewrite HG. simpl. rewrite Hpre by auto. auto.
  - intros id a t u H At Au. apply HG in H. destruct H as [H ->]. simpl in At, Au. destruct At as [<-|[]]. destruct Au as [<-|[]]. constructor.
Qed.

Lemma linked_in x y : linked ts0 x y -> In x K -> In y K.
Proof. intros H Hx. induction H as [|a b c xs H IH A B D]; auto. apply (Hclosed A B); auto. Qed.
Lemma conn_K t u : connected ts0 t u -> (exists x, In x K /\ has ts0 t x) -> exists x, In x K /\ has ts0 u x.
Proof.
  intros H Hx. induction H as [|t u v x H IH A B]; auto. destruct (IH Hx) as (y & Hy & Hu). exists x. split; auto.
  destruct (has_in Hu) as (xs & I1 & I2 & I3). destruct A as (xs' & I4 & I5). rewrite I3 in I4. inversion I4; subst xs'.
  apply (Hclosed I1 I2 Hy). auto.
Qed.

Lemma alltens_same (l : list term) a b t : NoDup (alltens l) -> In a l -> In b l -> In t (tensors a) -> In t (tensors b) -> a = b.
Proof.
  induction l as [|c l IH]; intros HN Ha Hb At Bt; [destruct Ha|]. simpl in HN. unfold alltens in HN. simpl in HN. apply NoDup_app in HN. destruct HN as (N1 & N2 & N3).
  destruct Ha as [<-|Ha], Hb as [<-|Hb]; auto.
  - destruct (N3 t); auto. apply in_flat_map. eauto.
  - destruct (N3 t); auto. apply in_flat_map. eauto.
Qed.

Lemma comp_ok r : exists s p r' q cs root con G, comp_loop g (S (length K + length (r_ts s0))) K s0 [] [] r = Ok (s, p, r') /\
  linear_path p (seq 0 n) = Ok q /\ contracts_component ts0 q cs root /\ (forall t, In t (tensors root) <-> exists x, In x K /\ has ts0 t x) /\
  kinv m ts0 K s0 s con p G q cs.
Proof.
  destruct (@comp_loop_ok (S (length K + length (r_ts s0))) K s0 [] [] r _ _ _ kinv_start) as (s & p & r' & con & G & q & cs & E & I & Hz).
  { rewrite map_length, seq_length. lia. } { auto. } { auto. }
  destruct Hne as (x0 & t0 & Hx0 & Ht0).
  assert (NDA : NoDup (alltens (map snd G)) /\ Permutation (alltens (map S_Path.T (seq 0 n))) (alltens (map snd G))).
  { apply (@perform_nodup q (map S_Path.T (seq 0 n)) cs (map snd G)); [rewrite alltens_start; apply seq_NoDup|]. apply (k_perf I). }
  destruct NDA as [NDA PA]. rewrite alltens_start in PA.
  assert (Hcov : forall t, t < n -> exists a, In a (map snd G) /\ In t (tensors a)).
  { intros t Ht. assert (A : In t (alltens (map snd G))) by (apply (Permutation_in _ PA), in_seq; lia). apply in_flat_map in A. auto. }
  (* tensors with a common index of the component end up in the same tensor *)
  assert (Hone : forall x t u, In x K -> has ts0 t x -> has ts0 u x -> forall a, In a (map snd G) -> In t (tensors a) -> In u (tensors a)).
  { intros x t u Hx Ht Hu a Ha Hta. destruct (k_cov I Hx) as [H|(id & b & A & B)].
    - destruct (H t Ht) as (i1 & a1 & A1 & A2 & A3). destruct (H u Hu) as (i2 & a2 & B1 & B2 & B3).
      destruct (k_live I Hx) as (NL & HL & DL). rewrite (Hz x Hx) in DL.
      assert (i1 = i2).
      { destruct (Nat.eq_dec i1 i2) as [|Nq]; auto. exfalso.
        pose proof (@NoDup_incl_length nat [i1; i2] (live s con x)) as W. simpl in W.
        assert (2 <= length (live s con x)); [|lia]. apply W; [apply nodup2; auto|].
        intros w [<-|[<-|[]]]; apply HL; split; auto; [apply in_fst with a1|apply in_fst with a2]; auto. }
      subst i2. assert (a1 = a2) by (apply (fst_inj (incr_nodup (k_incr I)) A1 B1)). subst a2.
      replace a with a1; auto. apply (@alltens_same (map snd G) a1 a t); auto. apply in_map_iff. exists (i1, a1). auto.
    - replace a with b; auto. apply (@alltens_same (map snd G) b a t); auto. apply in_map_iff. exists (id, b). auto. }
  assert (Hall : forall x y, linked ts0 x y -> In x K -> forall t u, has ts0 t x -> has ts0 u y -> forall a, In a (map snd G) -> In t (tensors a) -> In u (tensors a)).
  { intros x y H. induction H as [x|x y z xs H IH A B D]; intros Hx t u Ht Hu a Ha Hta.
    - apply (Hone x t u); auto.
    - apply In_nth_error in A. destruct A as (w & A). assert (Hwy : has ts0 w y) by (exists xs; auto). assert (Hwz : has ts0 w z) by (exists xs; auto).
      apply (Hone z w u); auto. 
      + apply (linked_in (y := z) (x := x)); auto. apply lk_step with y xs; auto. eapply nth_error_In; eauto.
      + apply (IH Hx t w); auto. }
  destruct (Hcov t0 (proj1 (proj1 (has_nth _ _) Ht0))) as (root & Hroot & Htr).
  assert (Hrt : forall t, In t (tensors root) <-> exists x, In x K /\ has ts0 t x).
  { intros t. split.
    - intros H. apply in_map_iff in Hroot. destruct Hroot as ((id & a) & <- & HG). apply (@conn_K t0 t); [|eauto]. apply (k_conn I HG); auto.
    - intros (x & Hx & Ht). apply (Hall x0 x (Hlink Hx0 Hx) Hx0 t0 t); auto. }
  exists s, p, r', q, cs, root, con, G. split; auto. split; [eapply lin_ok; apply (k_lin I)|]. split; [|auto].
  split; [exists (map snd G); split; auto; apply (k_perf I)|]. split; [|split].
  - intros c Hc. destruct (k_cs I Hc) as (a & b & _ & _ & t & x & A & B & D).
    destruct (@perform_inside q _ cs (map snd G) (k_perf I) c (or_intror Hc)) as (u & Hu & Hin).
    replace root with u; auto. apply (@alltens_same (map snd G) u root t); auto. apply Hrt. eauto.
  - intros c Hc. destruct (k_cs I Hc) as (a & b & A & B & _). eauto.
  - intros t u Ht. split.
    + intros Hu. apply in_map_iff in Hroot. destruct Hroot as ((id & a) & <- & HG). apply (k_conn I HG); auto.
    + intros Hc. apply Hrt. apply (conn_K Hc). apply Hrt. auto.
Qed.
End Comp.

Section Comps.
Variable R : Type.
Variable g : prng R.
Hypothesis Hg : prng_ok g.
Variable m : nat.
Variable ts0 : list (list nat).
Let n := length ts0.
Hypothesis Hnd : forall xs, In xs ts0 -> NoDup xs.

Definition comp_res (p : list triple) (K : list nat) : Prop :=
  exists q cs root, linear_path p (seq 0 n) = Ok q /\ contracts_component ts0 q cs root /\
    (forall t, In t (tensors root) <-> exists x, In x K /\ has ts0 t x).

Lemma comps_ok Ks : forall s r,
  (forall K, In K Ks -> (forall x, In x K -> x < m) /\ (forall xs x, In xs ts0 -> In x xs -> In x K -> incl xs K) /\
     (forall x y, In x K -> In y K -> linked ts0 x y) /\ (exists x t, In x K /\ has ts0 t x) /\
     (forall x, In x K -> nth x (r_i2t s) [] = filter (fun t => memb x (nth t ts0 [])) (seq 0 n) /\
       nth x (r_h s) 0 = length (filter (fun t => memb x (nth t ts0 [])) (seq 0 n)) - 1)) ->
  (forall a b K K' x, nth_error Ks a = Some K -> nth_error Ks b = Some K' -> In x K -> In x K' -> a = b) ->
  length (r_i2t s) = m /\ length (r_h s) = m -> n <= length (r_ts s) -> (forall t, t < n -> nth t (r_ts s) [] = nth t ts0 []) ->
  exists ps r', comps_loop g Ks s r = Ok (ps, r') /\ Forall2 comp_res ps Ks.
Proof.
  induction Ks as [|K Ks IH]; intros s r HKs Hdis Hlen Hge Hpre.
  - exists [], r. split; auto.
  - destruct (HKs K (or_introl eq_refl)) as (A1 & A2 & A3 & A4 & A5).
    destruct (@comp_ok R g Hg m ts0 K s A1 Hlen Hge Hpre Hnd A5 A2 A3 A4 r) as (s1 & p & r1 & q & cs & root & con & G & E1 & E2 & E3 & E4 & I).
    cbn [comps_loop]. rewrite E1. cbn [bind].
    destruct (IH s1 r1) as (ps & r2 & E5 & F).
    + intros K' HK'. destruct (HKs K' (or_intror HK')) as (B1 & B2 & B3 & B4 & B5). repeat split; auto.
      * destruct (k_frame I (x := x)) as [C1 C2]; [|rewrite C1; apply B5; auto].
        intros Hx. apply In_nth_error in HK'. destruct HK' as (b & Hb). specialize (Hdis 0 (S b) K K' x eq_refl Hb Hx H). lia.
      * destruct (k_frame I (x := x)) as [C1 C2]; [|rewrite C2; apply B5; auto].
        intros Hx. apply In_nth_error in HK'. destruct HK' as (b & Hb). specialize (Hdis 0 (S b) K K' x eq_refl Hb Hx H). lia.
    + intros a b K1 K2 x H1 H2 X1 X2. specialize (Hdis (S a) (S b) K1 K2 x H1 H2 X1 X2). lia.
    + apply (k_len I).
    + pose proof (k_ge I). lia.
    + intros t Ht. rewrite (k_pre I) by lia. apply Hpre. auto.
    + rewrite E5. cbn [bind]. exists (p :: ps), r2. split; auto. constructor; auto. exists q, cs, root. auto.
Qed.
End Comps.

(** ** Renaming the indices *)
Lemma mapM_spec (A B : Type) (f : A -> res B) l : (forall x, In x l -> exists y, f x = Ok y) -> exists k, mapM f l = Ok k /\ Forall2 (fun x y => f x = Ok y) l k.
Proof.
  induction l as [|x l IH]; intros H; simpl; [exists []; auto|]. destruct (H x (or_introl eq_refl)) as (y & E). rewrite E. cbn [bind].
  destruct IH as (k & E2 & F). { intros z Hz. apply H. right. auto. } rewrite E2. cbn [bind]. exists (y :: k). auto.
Qed.
Lemma Forall2_len (A B : Type) (P : A -> B -> Prop) l k : Forall2 P l k -> length l = length k.
Proof. intros H. induction H; simpl; auto. Qed.
Lemma Forall2_nth (A B : Type) (P : A -> B -> Prop) l k : Forall2 P l k -> forall i, 
  (forall a, nth_error l i = Some a -> exists b, nth_error k i = Some b /\ P a b) /\
  (forall b, nth_error k i = Some b -> exists a, nth_error l i = Some a /\ P a b).
Proof.
  intros H. induction H as [|a b l k Hab H IH]; intros [|i]; simpl; split; intros c E; try discriminate.
  - inversion E; subst. eauto.
  - inversion E; subst. eauto.
  - apply IH; auto.
  - apply IH; auto.
Qed.
Lemma rank_some l x k : NoDup l -> rank l x = Ok k <-> nth_error l k = Some x.
Proof.
  intros HN. split.
  - intros H. destruct (in_dec Nat.eq_dec x l) as [I|I].
    + destruct (index_ok Nat.eqb_eq I) as (i & E & F). unfold rank in H. rewrite E in H. congruence.
    + unfold rank in H. rewrite (index_none Nat.eqb_eq I) in H. discriminate.
  - intros H. apply (index_first Nat.eqb_eq HN H).
Qed.
Lemma remap_ok ts : let inds := unique (concat ts) in exists ts0, remap ts = Ok ts0 /\ length ts0 = length ts /\
  (forall xs, In xs ts0 -> NoDup xs) /\ (forall t k, has ts0 t k <-> exists x, nth_error inds k = Some x /\ has ts t x).
Proof.
  intros inds. assert (NI : NoDup inds) by apply unique_nodup.
  assert (H : forall xs, In xs ts -> exists ks, mapM (rank inds) xs = Ok ks /\ Forall2 (fun x k => rank inds x = Ok k) xs ks).
  { intros xs Hxs. apply mapM_spec. intros x Hx. assert (I : In x inds) by (apply unique_in, in_concat; eauto).
    apply In_nth_error in I. destruct I as (k & E). exists k. apply rank_some; auto. }
  destruct (@mapM_spec (list nat) (list nat) (fun xs => let! ks := mapM (rank inds) xs in Ok (unique ks)) ts) as (ts0 & E & F).
  { intros xs Hxs. destruct (H xs Hxs) as (ks & E & _). rewrite E. cbn [bind]. eauto. }
  exists ts0. split; [exact E|]. split; [symmetry; eapply Forall2_len; eauto|]. pose proof (Forall2_nth F) as FN. split.
  - intros ks Hk. apply In_nth_error in Hk. destruct Hk as (t & Hk). destruct (FN t) as [_ B]. destruct (B _ Hk) as (xs & _ & Hx).
    destruct (mapM (rank inds) xs); [|discriminate]. inversion Hx. apply unique_nodup.
  - intros t k. destruct (FN t) as [A B]. split.
    + intros (ks & Ek & Hk). destruct (B _ Ek) as (xs & Ex & Hx). destruct (H xs) as (ks' & E' & F'); [eapply nth_error_In; eauto|].
      rewrite E' in Hx. cbn [bind] in Hx. inversion Hx; subst ks. rewrite unique_in in Hk. apply In_nth_error in Hk. destruct Hk as (i & Hi).
      destruct (Forall2_nth F' i) as [_ B2]. destruct (B2 _ Hi) as (x & Hxi & Hr). apply rank_some in Hr; auto.
      exists x. split; auto. exists xs. split; auto. eapply nth_error_In; eauto.
    + intros (x & Hk & xs & Ex & Hx). destruct (A _ Ex) as (ks & Ek & Hks). destruct (H xs) as (ks' & E' & F'); [eapply nth_error_In; eauto|].
      rewrite E' in Hks. cbn [bind] in Hks. inversion Hks; subst ks. exists (unique ks'). split; auto. apply unique_in.
      apply In_nth_error in Hx. destruct Hx as (i & Hi). destruct (Forall2_nth F' i) as [A2 _]. destruct (A2 _ Hi) as (k' & Hk' & Hr).
      apply rank_some in Hk; auto. rewrite Hk in Hr. inversion Hr; subst. eapply nth_error_In; eauto.
Qed.

Section Transfer.
Variables ts ts0 : list (list nat).
Variable inds : list nat.
Hypothesis HN : NoDup inds.
Hypothesis Hin : forall t x, has ts t x -> In x inds.
Hypothesis Hh : forall t k, has ts0 t k <-> exists x, nth_error inds k = Some x /\ has ts t x.
Hypothesis Hl : length ts0 = length ts.
Lemma has_rank t x : has ts t x -> exists k, nth_error inds k = Some x /\ has ts0 t k.
Proof. intros H. pose proof (Hin H) as I. apply In_nth_error in I. destruct I as (k & E). exists k. split; auto. apply Hh. eauto. Qed.
Lemma shared_tr t u : (exists k, has ts0 t k /\ has ts0 u k) <-> (exists x, has ts t x /\ has ts u x).
Proof.
  split.
  - intros (k & A & B). apply Hh in A, B. destruct A as (x & E & A). destruct B as (y & E' & B). rewrite E in E'. inversion E'; subst. eauto.
  - intros (x & A & B). apply has_rank in A, B. destruct A as (k & E & A). destruct B as (k' & E' & B).
    assert (k = k'); [|subst; eauto]. apply (NoDup_nth_error inds); auto; [apply nth_error_Some|]; congruence.
Qed.
Lemma conn_tr t u : connected ts0 t u <-> connected ts t u.
Proof.
  split; intros H; induction H as [|t u v x H IH A B]; try constructor.
  - destruct (proj1 (shared_tr u v)) as (y & C & D); [eauto|]. apply conn_step with u y; auto.
  - destruct (proj2 (shared_tr u v)) as (y & C & D); [eauto|]. apply conn_step with u y; auto.
Qed.
Lemma share_tr l k : share ts0 l k <-> share ts l k.
Proof.
  split; intros (t & u & x & A & B & D & E); [destruct (proj1 (shared_tr t u)) as (y & F & G)|destruct (proj2 (shared_tr t u)) as (y & F & G)]; eauto; exists t, u, y; auto.
Qed.
Lemma comp_tr q cs root : contracts_component ts0 q cs root -> contracts_component ts q cs root.
Proof.
  intros (A & B & D & E). split; [rewrite <- Hl; auto|]. split; auto. split.
  - intros c Hc. destruct (D c Hc) as (a & b & F & G). exists a, b. split; auto. apply share_tr. auto.
  - intros t u Ht. rewrite (E t u Ht). apply conn_tr.
Qed.
End Transfer.

Lemma Forall2_choice (A B C : Type) (P : A -> C -> Prop) (Q : A -> B -> Prop) (f : B -> C -> Prop) l k :
  (forall a b, Q a b -> exists c, P a c /\ f b c) -> Forall2 Q l k -> exists cs, Forall2 P l cs /\ Forall2 f k cs.
Proof.
  intros H F. induction F as [|a b l k Hab F (cs & I1 & I2)]; [exists []; auto|]. destruct (H _ _ Hab) as (c & X & Y). exists (c :: cs). auto.
Qed.

Lemma random_ok (R : Type) (g : prng R) pick ts r : prng_ok g -> pick_ok pick ->
  exists ps comps, random_paths g pick ts r = Ok ps /\
    Forall2 (fun p k => contracts_component ts p (fst k) (snd k)) ps comps /\
    (forall t x, has ts t x -> exists a k, nth_error comps a = Some k /\ In t (tensors (snd k))) /\
    (forall a b k k' t, nth_error comps a = Some k -> nth_error comps b = Some k' -> In t (tensors (snd k)) -> In t (tensors (snd k')) -> a = b).
Proof.
  intros Hg Hp. unfold random_paths. destruct (remap_ok ts) as (ts0 & E & L & ND & Hh). set (inds := unique (concat ts)) in *.
  set (m := length inds). rewrite E. cbn [bind]. cbv zeta. fold inds. fold m.
  assert (Hk : forall t k, has ts0 t k -> k < m). { intros t k H. apply Hh in H. destruct H as (x & H & _). apply nth_error_Some. congruence. }
  assert (Hlt : forall xs x, In xs ts0 -> In x xs -> x < m).
  { intros xs x H1 H2. apply In_nth_error in H1. destruct H1 as (t & H1). apply (Hk t). exists xs. auto. }
  assert (Hex : forall k, k < m -> exists t, has ts0 t k).
  { intros k H. destruct (nth_error inds k) as [x|] eqn:Ex; [|apply nth_error_None in Ex; unfold m in H; lia].
    assert (I : In x inds) by (eapply nth_error_In; eauto). unfold inds in I. rewrite unique_in, in_concat in I. destruct I as (xs & I1 & I2).
    apply In_nth_error in I1. destruct I1 as (t & I1). exists t. apply Hh. exists x. split; auto. exists xs. auto. }
  destruct (colors_ok Hp (ts := ts0) Hlt) as (i2c & E2 & L2 & Hm & Hlk). rewrite E2. cbn [bind].
  set (i2t := index_tensors m ts0). set (h := map (fun l => length l - 1) i2t).
  assert (Li : length i2t = m) by (unfold i2t, index_tensors; rewrite map_length, seq_length; auto).
  assert (Ni : forall x, x < m -> nth x i2t [] = filter (fun t => memb x (nth t ts0 [])) (seq 0 (length ts0))).
  { intros x Hx. unfold i2t, index_tensors. apply nth_error_nth. rewrite nth_error_map.
    rewrite (nth_error_nth' _ 0) by (rewrite seq_length; auto). rewrite seq_nth by auto. reflexivity. }
  destruct (@comps_ok R g Hg m ts0 ND (groups i2c) (mkR ts0 i2t h) r) as (ps & r' & E3 & F); cbn [r_ts r_i2t r_h]; auto.
  - intros K HK. apply In_nth_error in HK. destruct HK as (a & HK). destruct (groups_in HK) as (c & Hc & HKc). rewrite L2 in HKc.
    split; [intros x Hx; apply HKc; auto|]. split; [|split; [|split]].
    + intros xs x Hxs Hx HxK y Hy. apply HKc in HxK. apply HKc. split; [eauto|]. rewrite <- (proj2 HxK). apply Hm with xs; auto.
    + intros x y Hx Hy. apply HKc in Hx, Hy. apply Hlk; try tauto. destruct Hx, Hy. congruence.
    + assert (Hic : In c i2c) by (apply unique_in; eapply nth_error_In; eauto). apply (In_nth _ _ 0) in Hic. destruct Hic as (x & Hx & Ex).
      rewrite L2 in Hx. destruct (Hex x Hx) as (t & Ht). exists x, t. split; auto. apply HKc. auto.
    + intros x Hx. apply HKc in Hx. destruct Hx as [Hx _]. split; [apply Ni; auto|]. unfold h. rewrite <- (Ni x Hx).
      apply nth_error_nth. rewrite nth_error_map. rewrite (nth_error_nth' i2t []) by lia. reflexivity.
  - apply groups_disj.
  - split; auto. unfold h. rewrite map_length. auto.
  - rewrite E3. cbn [bind].
    assert (Hin : forall t x, has ts t x -> In x inds).
    { intros t x (xs & A & B). apply unique_in, in_concat. exists xs. split; auto. eapply nth_error_In; eauto. }
    assert (NI : NoDup inds) by apply unique_nodup.
    destruct (@Forall2_choice (list triple) (list nat) (path * (list term * term))
       (fun p k => linear_path p (seq 0 (length ts)) = Ok (fst k))
       (comp_res ts0)
       (fun K k => contracts_component ts (fst k) (fst (snd k)) (snd (snd k)) /\ forall t, In t (tensors (snd (snd k))) <-> exists x, In x K /\ has ts0 t x) ps (groups i2c)) as (ks & F1 & F2); auto.
    { intros p K (q & cs & root & A & B & D). exists (q, (cs, root)). cbn [fst snd]. rewrite <- L. split; auto. split; auto.
      apply (comp_tr NI Hin Hh L B). }
    exists (map fst ks), (map snd ks).
    assert (F3 : forall a k, nth_error (map snd ks) a = Some k -> exists q, nth_error ks a = Some (q, k)).
    { intros a k Ha. rewrite nth_error_map in Ha. destruct (nth_error ks a) as [[q k']|]; inversion Ha; subst. eauto. }
    split; [|split; [|split]].
    + clear -F1. induction F1 as [|p k ps ks A F IH]; simpl; auto. rewrite A. cbn [bind]. rewrite IH. auto.
    + clear -F2. induction F2 as [|K k Ks ks A F IH]; simpl; constructor; tauto.
    + intros t x Hx. destruct (has_rank Hin Hh Hx) as (k & _ & Hk0). pose proof (Hk _ _ Hk0) as Hkm. rewrite <- L2 in Hkm.
      destruct (groups_cover Hkm) as (a & K & Ha & HkK). destruct (Forall2_nth F2 a) as [A _]. destruct (A _ Ha) as ([q d] & Hb & _ & Hd).
      exists a, d. rewrite nth_error_map, Hb. split; auto. apply Hd. eauto.
    + intros a b k k' t Ha Hb Ta Tb. apply F3 in Ha, Hb. destruct Ha as (q & Ha). destruct Hb as (q' & Hb).
      destruct (Forall2_nth F2 a) as [_ A]. destruct (A _ Ha) as (K & HKa & _ & HA). destruct (Forall2_nth F2 b) as [_ B]. destruct (B _ Hb) as (K' & HKb & _ & HB).
      cbn [fst snd] in HA, HB. apply HA in Ta. apply HB in Tb. destruct Ta as (x & X1 & X2). destruct Tb as (y & Y1 & Y2).
      destruct (groups_in HKa) as (c & Hc & HKc). destruct (groups_in HKb) as (c' & Hc' & HKc').
      apply (groups_disj HKa HKb X1). apply HKc'. apply HKc in X1. apply HKc' in Y1. destruct X1 as [X1 Ex]. destruct Y1 as [Y1 Ey]. split; auto.
      rewrite <- Ey. destruct X2 as (xs & X3 & X4). destruct Y2 as (ys & Y3 & Y4). rewrite X3 in Y3. inversion Y3; subst ys. apply Hm with xs; auto. eapply nth_error_In; eauto.
Qed.

Lemma random_merged (R : Type) (g : prng R) pick ts r auto : prng_ok g -> pick_ok pick ->
  exists ps p comps extra rest, random_paths g pick ts r = Ok ps /\
    Forall2 (fun p k => contracts_component ts p (fst k) (snd k)) ps comps /\
    random_path g pick ts auto r = Ok p /\ performs (length ts) p (concat (map fst comps) ++ extra) rest /\
    (auto = false -> extra = []) /\ (auto = true -> 0 < length ts -> length p = length ts - 1 /\ exists t, rest = [t]).
Proof.
  intros Hg Hp. destruct (random_ok ts r Hg Hp) as (ps & comps & E & F & _ & Hd). unfold random_path. rewrite E. cbn [bind].
  destruct (@c26_merge (length ts) ps (map fst comps) auto) as (p & extra & rest & A & B & D & G).
  - clear -F. induction F as [|p k ps ks H F IH]; simpl; constructor; auto. destruct H as ((rest & A & _) & _). eauto.
  - intros a b cs cs' t Ha Hb Hn (c & Hc & Ht) (c' & Hc' & Ht'). apply Hn.
    rewrite nth_error_map in Ha, Hb. destruct (nth_error comps a) as [k|] eqn:Ka; [|discriminate]. destruct (nth_error comps b) as [k'|] eqn:Kb; [|discriminate].
    inversion Ha; inversion Hb; subst.
    assert (In1 : forall a k c t, nth_error comps a = Some k -> In c (fst k) -> In t (tensors c) -> In t (tensors (snd k))).
    { intros a0 k0 c0 t0 H1 H2 H3. destruct (Forall2_nth F a0) as [_ X]. destruct (X _ H1) as (q & _ & _ & Y & _). apply (Y c0); auto. }
    apply (Hd a b k k' t); eauto.
  - exists ps, p, comps, extra, rest. auto 10.
Qed.
