(** get_random_contraction_path: the loop over one connected component. *)
From Coq Require Import List Arith Bool Lia Permutation.
Import ListNotations.
From Verif Require Import M_Base M_Path M_PyTree M_Random S_Path S_Random P_Path P_Split P_PathMain P_PyBuild P_PyTens P_RandColor P_RandLoop.
Set Implicit Arguments.
Unset Strict Implicit.

Notation idt := (nat * term)%type.

Lemma conn_trans ts a b c : connected ts a b -> connected ts b c -> connected ts a c.
Proof. intros H K. induction K as [|t u v x K IH A B]; auto. apply conn_step with u x; auto. Qed.
Lemma conn_one ts a b x : has ts a x -> has ts b x -> connected ts a b.
Proof. intros A B. apply conn_step with a x; auto. constructor. Qed.
Lemma conn_sym ts a b : connected ts a b -> connected ts b a.
Proof. intros H. induction H as [|t u v x K IH A B]; [constructor|]. apply conn_trans with u; auto. apply conn_one with x; auto. Qed.
Lemma share_sym ts l k : share ts l k -> share ts k l.
Proof. intros (t & u & x & A & B & D & E). exists u, t, x. auto. Qed.
Lemma in_tens_join a b t : In t (tensors (join a b)) <-> In t (tensors a) \/ In t (tensors b).
Proof.
  split; intros H.
  - apply (Permutation_in _ (join_tensors a b)) in H. apply in_app_iff in H. auto.
  - apply (Permutation_in _ (Permutation_sym (join_tensors a b))). apply in_app_iff. auto.
Qed.
Lemma filter_app' (A : Type) (f : A -> bool) l k : filter f (l ++ k) = filter f l ++ filter f k.
Proof. apply filter_app. Qed.
Lemma forallb_filter_id (A : Type) (f : A -> bool) l : forallb f l = true -> filter f l = l.
Proof. induction l as [|a l IH]; simpl; auto. intros H. apply andb_true_iff in H. destruct H as [H1 H2]. rewrite H1, IH; auto. Qed.
Lemma filter_filter (A : Type) (f h : A -> bool) l : filter f (filter h l) = filter (fun x => h x && f x) l.
Proof. induction l as [|a l IH]; simpl; auto. destruct (h a); simpl; [destruct (f a); congruence|auto]. Qed.
Lemma filter_two (l : list nat) a b : NoDup l -> a <> b -> In a l -> In b l ->
  length (filter (fun t => negb (memb t [a; b])) l) = length l - 2 /\ 2 <= length l.
Proof.
  intros HN Hn Ha Hb. apply in_split in Ha. destruct Ha as (l1 & l2 & ->).
  assert (P : Permutation (l1 ++ a :: l2) (a :: l1 ++ l2)) by (symmetry; apply Permutation_middle).
  assert (Hb' : In b (l1 ++ l2)). { apply (Permutation_in _ P) in Hb. destruct Hb as [|Hb]; [congruence|auto]. }
  apply in_split in Hb'. destruct Hb' as (k1 & k2 & E).
  assert (P2 : Permutation (l1 ++ a :: l2) (a :: b :: k1 ++ k2)).
  { rewrite P, E. constructor. symmetry. apply Permutation_middle. }
  pose proof (Permutation_NoDup P2 HN) as N2. inversion N2 as [|? ? A1 A2]; subst. inversion A2 as [|? ? B1 B2]; subst.
  rewrite (Permutation_length (filter_perm _ P2)), (Permutation_length P2). simpl. rewrite !Nat.eqb_refl. simpl.
  rewrite orb_true_r. simpl. split; [|lia]. rewrite Nat.sub_0_r.
  assert (Ef : filter (fun t => negb (memb t [a; b])) (k1 ++ k2) = k1 ++ k2).
  { apply forallb_filter_id. apply forallb_forall. intros t Ht. apply negb_true_iff, memb_nIn. intros [<-|[<-|[]]]; [|tauto].
    apply A1. right. auto. }
  unfold memb in Ef. simpl in Ef. rewrite Ef. auto.
Qed.

Section Comp.
Variable m : nat.
Variable ts0 : list (list nat).
Let n := length ts0.
Variable K : list nat.
Variable s0 : rstate.
Hypothesis HK : forall x, In x K -> x < m.

Definition live (s : rstate) (con : list nat) (x : nat) : list nat := filter (fun t => negb (memb t con)) (nth x (r_i2t s) []).

Record kinv (s : rstate) (con : list nat) (p : list triple) (G : list idt) (q : path) (cs : list term) : Prop := {
  k_len : length (r_i2t s) = m /\ length (r_h s) = m;
  k_ge : length (r_ts s0) <= length (r_ts s);
  k_pre : forall t, t < length (r_ts s0) -> nth t (r_ts s) [] = nth t (r_ts s0) [];
  k_frame : forall x, ~ In x K -> nth x (r_i2t s) [] = nth x (r_i2t s0) [] /\ nth x (r_h s) 0 = nth x (r_h s0) 0;
  k_lin : lin p (seq 0 n) q (map fst G);
  k_perf : performs n q cs (map snd G);
  k_incr : incr (map fst G);
  k_ids : forall id, In id (map fst G) -> id < length (r_ts s) /\ NoDup (nth id (r_ts s) []) /\ ~ In id con;
  k_live : forall x, In x K -> NoDup (live s con x) /\
     (forall t, In t (live s con x) <-> In t (map fst G) /\ In x (nth t (r_ts s) [])) /\ nth x (r_h s) 0 = length (live s con x) - 1;
  k_lt : forall x t, In x K -> In t (nth x (r_i2t s) []) -> t < length (r_ts s);
  k_con : forall t, In t con -> t < length (r_ts s);
  k_mono : forall id x, In id (map fst G) -> In x K -> In x (nth id (r_ts s) []) -> incl (nth id (r_ts s) []) K;
  k_occ : forall id a x, In (id, a) G -> In x (nth id (r_ts s) []) -> exists t, In t (tensors a) /\ has ts0 t x;
  k_cov : forall x, In x K ->
     (forall t, has ts0 t x -> exists id a, In (id, a) G /\ In t (tensors a) /\ In x (nth id (r_ts s) [])) \/
     (exists id a, In (id, a) G /\ forall t, has ts0 t x -> In t (tensors a));
  k_conn : forall id a t u, In (id, a) G -> In t (tensors a) -> In u (tensors a) -> connected ts0 t u;
  k_cs : forall c, In c cs -> exists a b, c = C a b /\ share ts0 (tensors a) (tensors b) /\ exists t x, In t (tensors c) /\ In x K /\ has ts0 t x
}.

Lemma in_fst (G : list idt) id a : In (id, a) G -> In id (map fst G).
Proof. intros H. apply in_map_iff. exists (id, a). auto. Qed.

Lemma kinv_step s con p G q cs s' x tx ty : kinv s con p G q cs -> two s tx ty s' -> In x K ->
  In tx (live s con x) -> In ty (live s con x) -> tx <> ty ->
  exists G' q' cs', kinv s' (tx :: ty :: con) (p ++ [(tx, ty, length (r_ts s))]) G' q' cs' /\ length G = S (length G').
Proof.
  intros I HT Hx Htx Hty Hne.
  destruct (k_live I Hx) as (_ & HL & _). apply HL in Htx, Hty. destruct Htx as [Gx Xx]. destruct Hty as [Gy Yy].
  apply In_nth_error in Gx, Gy. destruct Gx as (i & Ei). destruct Gy as (j & Ej).
  assert (Hij : i <> j) by congruence.
  destruct (sort2_spec Hij) as (lo & hi & Es & Hlt & Hc).
  set (tz := length (r_ts s)).
  (* the two positions, in order *)
  assert (exists t1 t2, nth_error (map fst G) lo = Some t1 /\ nth_error (map fst G) hi = Some t2 /\ ((t1 = tx /\ t2 = ty) \/ (t1 = ty /\ t2 = tx))) as (t1 & t2 & E1 & E2 & Ht).
  { destruct Hc as [[-> ->]|[-> ->]]; eauto 10. }
  destruct (nth_map_fst E1) as (a1 & F1). destruct (nth_map_fst E2) as (a2 & F2).
  assert (HT' : two s t1 t2 s') by (destruct Ht as [[-> ->]|[-> ->]]; auto using two_sym).
  assert (Hx1 : In x (nth t1 (r_ts s) [])) by (destruct Ht as [[-> ->]|[-> ->]]; auto).
  assert (Hx2 : In x (nth t2 (r_ts s) [])) by (destruct Ht as [[-> ->]|[-> ->]]; auto).
  assert (Hne' : t1 <> t2) by (destruct Ht as [[-> ->]|[-> ->]]; auto).
  assert (Hcon : forall t con, memb t (tx :: ty :: con) = memb t [t1; t2] || memb t con).
  { intros t c. unfold memb. simpl. destruct Ht as [[-> ->]|[-> ->]]; destruct (t =? tx), (t =? ty); auto. }
  assert (Hlin : lin (p ++ [(tx, ty, tz)]) (seq 0 n) (q ++ [(lo, hi)]) (without lo hi (map fst G) ++ [tz])).
  { eapply lin_snoc; eauto; apply I. }
  clear HT Xx Yy.
  assert (Gin1 : In (t1, a1) G) by (eapply nth_error_In; eauto).
  assert (Gin2 : In (t2, a2) G) by (eapply nth_error_In; eauto).
  pose proof (@without_perm _ G lo hi _ _ ltac:(lia) F1 F2) as PG. set (W := without lo hi G) in *.
  assert (HWG : forall g, In g W -> In g G) by (intros g Hg; apply (Permutation_in _ (Permutation_sym PG)); right; right; auto).
  assert (HGW : forall g, In g G -> g = (t1, a1) \/ g = (t2, a2) \/ In g W).
  { intros g Hg. apply (Permutation_in _ PG) in Hg. destruct Hg as [<-|[<-|Hg]]; auto. }
  assert (ND : NoDup (t1 :: t2 :: map fst W)).
  { apply (Permutation_NoDup (l := map fst G)); [|apply incr_nodup, I]. change (t1 :: t2 :: map fst W) with (map fst ((t1, a1) :: (t2, a2) :: W)). apply Permutation_map. auto. }
  assert (HWn : forall t, In t (map fst W) <-> In t (map fst G) /\ ~ In t [t1; t2]).
  { intros t. split.
    - intros H. split.
      + apply in_map_iff in H. destruct H as ((a, b) & <- & H). apply HWG in H. apply in_fst with b. auto.
      + inversion ND as [|? ? A1 A2]; subst. inversion A2 as [|? ? B1 B2]; subst. intros [<-|[<-|[]]]; auto. apply A1. right. auto.
    - intros [H Hn]. apply in_map_iff in H. destruct H as ((a, b) & <- & H). apply HGW in H. simpl in *. destruct H as [H|[H|H]].
      + inversion H; subst. destruct Hn. auto.
      + inversion H; subst. destruct Hn. auto.
      + apply in_fst with b. auto. }
  destruct HT' as (zs & Ets & Nz & Hz & Hi2t & Hh & Li & Lh).
  set (X := nth t1 (r_ts s) []) in *. set (Y := nth t2 (r_ts s) []) in *.
  set (c := join a1 a2). set (G' := W ++ [(tz, c)]).
  assert (Efst : map fst G' = map fst W ++ [tz]) by (unfold G'; rewrite map_app; auto).
  assert (Hold : forall t, t < tz -> nth t (r_ts s') [] = nth t (r_ts s) []).
  { intros t Htz. rewrite Ets. apply app_nth1. auto. }
  assert (Hnew : nth tz (r_ts s') [] = zs).
  { rewrite Ets. unfold tz. rewrite app_nth2, Nat.sub_diag by lia. auto. }
  assert (Hidlt : forall t, In t (map fst G) -> t < tz) by (intros t Htt; apply (k_ids I Htt)).
  assert (KX : incl X K). { apply (k_mono I) with x; auto. apply in_fst with a1; auto. }
  assert (KY : incl Y K). { apply (k_mono I) with x; auto. apply in_fst with a2; auto. }
  assert (Kz : incl zs K). { intros y Hy. apply Hz in Hy. destruct Hy as [[A _]|[[A _]|[A _]]]; auto. }
  assert (Lz : length (r_ts s') = S tz) by (rewrite Ets, app_length; simpl; unfold tz; lia).
  assert (Hxt : exists t1' t2', In t1' (tensors a1) /\ has ts0 t1' x /\ In t2' (tensors a2) /\ has ts0 t2' x).
  { destruct (k_occ I Gin1 Hx1) as (u & A & B). destruct (k_occ I Gin2 Hx2) as (v & A' & B'). eauto 10. }
  destruct Hxt as (u1 & u2 & Hu1 & Hhu1 & Hu2 & Hhu2).
  assert (Hcc : forall t u, In t (tensors a1) -> In u (tensors a2) -> connected ts0 t u).
  { intros t u At Au. apply conn_trans with u1; [apply (k_conn I Gin1); auto|]. apply conn_trans with u2; [apply conn_one with x; auto|].
    apply (k_conn I Gin2); auto. }
  assert (Hlive : forall y, In y K -> live s' (tx :: ty :: con) y = filter (fun t => negb (memb t [t1; t2])) (live s con y) ++ (if memb y zs then [tz] else [])).
  { intros y Hy. unfold live. rewrite Hi2t. rewrite filter_app'. f_equal.
    - rewrite filter_filter. apply filter_ext. intros t. rewrite Hcon, negb_orb. apply andb_comm.
    - destruct (memb y zs); auto. fold tz. cbn [filter]. assert (A : memb tz (tx :: ty :: con) = false).
      { apply memb_nIn. intros A. rewrite <- memb_In, Hcon in A. apply orb_true_iff in A. rewrite !memb_In in A.
        destruct A as [[A|[A|[]]]|A]; [subst; pose proof (Hidlt _ (in_fst Gin1)); lia|subst; pose proof (Hidlt _ (in_fst Gin2)); lia|]. apply (k_con I) in A. unfold tz in A. lia. }
      rewrite A. auto. }
  exists G', (q ++ [(lo, hi)]), (cs ++ [c]).
  split; [|rewrite (Permutation_length PG); unfold G'; rewrite app_length; simpl; lia].
  constructor.
  - destruct (k_len I). split; congruence.
  - pose proof (k_ge I). unfold tz in Lz. lia.
  - intros t Hts. rewrite Hold; [apply (k_pre I); auto|]. pose proof (k_ge I). unfold tz. lia.
  - intros y Hy. destruct (k_frame I Hy) as [A B]. rewrite Hi2t, Hh. split.
    + destruct (memb y zs) eqn:M; [apply memb_In in M; apply Kz in M; tauto|]. rewrite app_nil_r. auto.
    + destruct (memb y X) eqn:M; [apply memb_In in M; apply KX in M; tauto|]. simpl. lia.
  - rewrite Efst. unfold W. rewrite <- without_map. auto.
  - unfold performs. rewrite perform_app. pose proof (k_perf I) as HP. unfold performs in HP. rewrite HP. simpl.
    destruct (Nat.eqb_spec lo hi); [lia|]. rewrite !nth_error_map, F1, F2. simpl. fold c. rewrite without_map. fold W.
    unfold G'. rewrite map_app. auto.
  - rewrite Efst. apply incr_app; [|intros a Ha; apply HWn in Ha; apply Hidlt; tauto].
    unfold W. rewrite <- without_map. apply incr_without_from. apply I.
  - intros id. rewrite Efst, in_app_iff. intros [H|[<-|[]]].
    + apply HWn in H. destruct H as [H Hn]. destruct (k_ids I H) as (A & B & D). rewrite (Hold id A). unfold tz in Lz. split; [lia|]. split; auto.
      rewrite <- memb_nIn, Hcon. apply orb_false_iff. rewrite !memb_nIn. auto.
    + rewrite Hnew, Lz. split; auto. split; auto. rewrite <- memb_nIn, Hcon. apply orb_false_iff. rewrite !memb_nIn. split.
      * intros [A|[A|[]]]; [pose proof (Hidlt _ (in_fst Gin1))|pose proof (Hidlt _ (in_fst Gin2))]; lia.
      * intros A. apply (k_con I) in A. unfold tz in A. lia.
  - intros y Hy. destruct (k_live I Hy) as (A & B & D). rewrite (Hlive y Hy).
    assert (HinL : forall t, In t (filter (fun t => negb (memb t [t1; t2])) (live s con y)) <-> In t (map fst W) /\ In y (nth t (r_ts s) [])).
    { intros t. rewrite filter_In, negb_true_iff, memb_nIn, B, HWn. tauto. }
    split; [|split].
    + apply NoDup_app. split; [apply NoDup_filter'; auto|]. split; [destruct (memb y zs); repeat constructor; simpl; tauto|].
      intros t At Bt. apply HinL in At. destruct At as [At _]. apply HWn in At. destruct (memb y zs); [|destruct Bt]. destruct Bt as [<-|[]].
      pose proof (Hidlt _ (proj1 At)). lia.
    + intros t. rewrite in_app_iff, HinL, Efst, in_app_iff. split.
      * intros [[At Bt]|Bt].
        -- split; auto. apply HWn in At. rewrite Hold; auto. apply Hidlt. tauto.
        -- destruct (memb y zs) eqn:M; [|destruct Bt]. destruct Bt as [<-|[]]. split; [right; left; auto|]. rewrite Hnew. apply memb_In. auto.
      * intros [[At|[<-|[]]] Bt].
        -- left. split; auto. rewrite Hold in Bt; auto. apply HWn in At. apply Hidlt. tauto.
        -- right. rewrite Hnew in Bt. apply memb_In in Bt. rewrite Bt. left. auto.
    + rewrite Hh, app_length, D. set (L := live s con y) in *.
      assert (T1L : In t1 L <-> In y X). { rewrite B. unfold X. split; [tauto|]. intros; split; auto. apply in_fst with a1; auto. }
      assert (T2L : In t2 L <-> In y Y). { rewrite B. unfold Y. split; [tauto|]. intros; split; auto. apply in_fst with a2; auto. }
      destruct (memb y X) eqn:MX, (memb y Y) eqn:MY; first [apply memb_In in MX|apply memb_nIn in MX]; first [apply memb_In in MY|apply memb_nIn in MY]; cbn [andb].
      * destruct (@filter_two L t1 t2) as [F FL]; auto; try tauto. rewrite F.
        assert (Mz : memb y zs = (1 <? nth y (r_h s) 0)).
        { apply eq_true_iff_eq. rewrite memb_In, Hz, Nat.ltb_lt. tauto. }
        rewrite Mz, D. destruct (Nat.ltb_spec 1 (length L - 1)); simpl; lia.
      * assert (Mz : memb y zs = true) by (apply memb_In, Hz; tauto). rewrite Mz; cbn [length].
        assert (Ef : S (length (filter (fun t => negb (memb t [t1; t2])) L)) = length L).
        { apply T1L in MX. apply in_split in MX. destruct MX as (l1 & l2 & EL).
          assert (P : Permutation L (t1 :: l1 ++ l2)) by (rewrite EL; symmetry; apply Permutation_middle).
          rewrite (Permutation_length P), (Permutation_length (filter_perm _ P)). simpl. rewrite Nat.eqb_refl. simpl. f_equal. f_equal.
          pose proof (Permutation_NoDup P A) as N2. inversion N2 as [|? ? A1 A2]; subst.
          change (filter (fun t => negb (memb t [t1; t2])) (l1 ++ l2) = l1 ++ l2).
          apply forallb_filter_id. apply forallb_forall. intros t At. apply negb_true_iff, memb_nIn. intros [<-|[<-|[]]]; auto.
          apply MY, T2L. apply (Permutation_in _ (Permutation_sym P)). right. auto. }
        lia.
      * assert (Mz : memb y zs = true) by (apply memb_In, Hz; tauto). rewrite Mz; cbn [length].
        assert (Ef : S (length (filter (fun t => negb (memb t [t1; t2])) L)) = length L).
        { apply T2L in MY. apply in_split in MY. destruct MY as (l1 & l2 & EL).
          assert (P : Permutation L (t2 :: l1 ++ l2)) by (rewrite EL; symmetry; apply Permutation_middle).
          rewrite (Permutation_length P), (Permutation_length (filter_perm _ P)). simpl. rewrite Nat.eqb_refl. simpl. rewrite orb_true_r. simpl. f_equal. f_equal.
          pose proof (Permutation_NoDup P A) as N2. inversion N2 as [|? ? A1 A2]; subst.
          change (filter (fun t => negb (memb t [t1; t2])) (l1 ++ l2) = l1 ++ l2).
          apply forallb_filter_id. apply forallb_forall. intros t At. apply negb_true_iff, memb_nIn. intros [<-|[<-|[]]]; auto.
          apply MX, T1L. apply (Permutation_in _ (Permutation_sym P)). right. auto. }
        lia.
      * assert (Mz : memb y zs = false). { apply memb_nIn. rewrite Hz. tauto. } rewrite Mz; cbn [length].
        assert (Ef : filter (fun t => negb (memb t [t1; t2])) L = L).
        { apply forallb_filter_id. apply forallb_forall. intros t At. apply negb_true_iff, memb_nIn. intros [<-|[<-|[]]]; tauto. }
        rewrite Ef. lia.
  - intros y t Hy. rewrite Hi2t, in_app_iff, Lz. intros [H|H]; [apply (k_lt I) in H; auto; unfold tz; lia|].
    destruct (memb y zs); [|destruct H]. destruct H as [<-|[]]. lia.
  - intros t Hct. rewrite Lz. apply memb_In in Hct. rewrite Hcon in Hct. apply orb_true_iff in Hct. rewrite !memb_In in Hct.
    destruct Hct as [[<-|[<-|[]]]|H]; [pose proof (Hidlt _ (in_fst Gin1)); lia|pose proof (Hidlt _ (in_fst Gin2)); lia|]. apply (k_con I) in H. unfold tz. lia.
  - intros id y. rewrite Efst, in_app_iff. intros [H|[<-|[]]] Hy.
    + apply HWn in H. destruct H as [H _]. rewrite (Hold id); auto. apply (k_mono I); auto.
    + rewrite Hnew. auto.
  - intros id a y Hia. apply in_app_iff in Hia. destruct Hia as [H|[H|[]]].
    + apply HWG in H. rewrite (Hold id) by (apply Hidlt, (in_fst H)). apply (k_occ I); auto.
    + inversion H; subst id a. rewrite Hnew. intros Hy. apply Hz in Hy. unfold c.
      assert (In y X \/ In y Y) as [Hy'|Hy'] by tauto.
      * destruct (k_occ I Gin1 Hy') as (t & A & B). exists t. rewrite in_tens_join. auto.
      * destruct (k_occ I Gin2 Hy') as (t & A & B). exists t. rewrite in_tens_join. auto.
  - intros y Hy. destruct (k_cov I Hy) as [H|(id & a & H1 & H2)].
    + destruct (memb y zs) eqn:M.
      * left. apply memb_In in M. intros t Htt. destruct (H t Htt) as (id & a & A & B & D). apply HGW in A. destruct A as [A|[A|A]].
        -- inversion A; subst id a. exists tz, c. unfold G'. rewrite in_app_iff, Hnew. split; [right; left; auto|]. split; auto. apply in_tens_join. auto.
        -- inversion A; subst id a. exists tz, c. unfold G'. rewrite in_app_iff, Hnew. split; [right; left; auto|]. split; auto. apply in_tens_join. auto.
        -- exists id, a. unfold G'. rewrite in_app_iff. split; auto. split; auto. rewrite Hold; auto. apply Hidlt. apply in_fst with a. auto.
      * apply memb_nIn in M. assert (HZ := Hz y). 
        destruct (in_dec Nat.eq_dec y X) as [IX|IX], (in_dec Nat.eq_dec y Y) as [IY|IY]; try tauto.
        -- (* both, and no more: all are below the new one *)
           right. exists tz, c. split; [unfold G'; apply in_app_iff; right; left; auto|]. intros t Htt.
           destruct (H t Htt) as (id & a & A & B & D). destruct (k_live I Hy) as (NL & HLy & DL).
           assert (L2 : length (live s con y) <= 2). { assert (~ 1 < nth y (r_h s) 0) by tauto. lia. }
           assert (In id [t1; t2]) as Hid.
           { destruct (in_dec Nat.eq_dec id [t1; t2]) as [|N3]; auto. exfalso.
             assert (NoDup [id; t1; t2]). { inversion ND as [|? ? A1 A2]; subst. repeat constructor; simpl; simpl in N3; try tauto. intros [|[]]. congruence. }
             assert (incl [id; t1; t2] (live s con y)).
             { intros w [<-|[<-|[<-|[]]]]; apply HLy; split; auto; [apply in_fst with a|apply in_fst with a1|apply in_fst with a2]; auto. }
             pose proof (@NoDup_incl_length nat [id; t1; t2] (live s con y)) as W2. simpl in W2. apply W2 in H0; auto. lia. }
           unfold c. apply in_tens_join. assert (NG : NoDup (map fst G)) by (apply incr_nodup, I).
           destruct Hid as [<-|[<-|[]]]; [left; rewrite (fst_inj NG Gin1 A); auto|right; rewrite (fst_inj NG Gin2 A); auto].
        -- left. intros t Htt. destruct (H t Htt) as (id & a & A & B & D). pose proof A as A'. apply HGW in A. destruct A as [A|[A|A]].
           ++ inversion A; subst id a. unfold X in IX. tauto.
           ++ inversion A; subst id a. unfold Y in IY. tauto.
           ++ exists id, a. unfold G'. rewrite in_app_iff. split; auto. split; auto. rewrite Hold; auto. apply Hidlt. apply in_fst with a. auto.
    + right. apply HGW in H1. destruct H1 as [A|[A|A]].
      * inversion A; subst id a. exists tz, c. unfold G'. rewrite in_app_iff. split; [right; left; auto|]. intros t Htt. apply in_tens_join. auto.
      * inversion A; subst id a. exists tz, c. unfold G'. rewrite in_app_iff. split; [right; left; auto|]. intros t Htt. apply in_tens_join. auto.
      * exists id, a. unfold G'. rewrite in_app_iff. split; auto.
  - intros id a t u Hia At Au. apply in_app_iff in Hia. destruct Hia as [H|[H|[]]].
    + apply HWG in H. apply (k_conn I H); auto.
    + inversion H; subst id a. unfold c in At, Au. rewrite in_tens_join in At, Au. destruct At as [At|At], Au as [Au|Au].
      * apply (k_conn I Gin1); auto.
      * apply Hcc; auto.
      * apply conn_sym. apply Hcc; auto.
      * apply (k_conn I Gin2); auto.
  - intros d Hd. apply in_app_iff in Hd. destruct Hd as [Hd|[<-|[]]]; [apply (k_cs I); auto|].
    assert (S12 : share ts0 (tensors a1) (tensors a2)) by (exists u1, u2, x; auto).
    assert (Hex : exists t y, In t (tensors c) /\ In y K /\ has ts0 t y) by (exists u1, x; unfold c; rewrite in_tens_join; auto).
    unfold c in *. unfold join in *. destruct (first_tensor a1 <=? first_tensor a2); [exists a1, a2|exists a2, a1]; repeat split; auto using share_sym.
Qed.
End Comp.
