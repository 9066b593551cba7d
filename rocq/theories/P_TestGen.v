(** generate_random_tensors: one component. *)
From Coq Require Import List Arith Lia Permutation Bool ZArith.
Import ListNotations.
From Verif Require Import P_Base P_Path P_Split P_PyBuild P_OSet P_TnApp P_Amplitude P_Fuse P_RandLoop P_RandColor P_RandComp P_Testing.
From Verif Require Import M_Base M_Path M_PyTree M_Circuit M_Testing S_Random S_Testing.
Set Implicit Arguments.
Unset Strict Implicit.
Local Open Scope nat_scope.

(** ** Lists *)
Lemma mapM_get (A : Type) (pop : list A) ps : (forall p, In p ps -> p < length pop) ->
  exists l, mapM (get pop) ps = Ok l /\ Forall2 (fun p a => nth_error pop p = Some a) ps l.
Proof.
  induction ps as [|p ps IH]; intros H; simpl; [exists []; split; auto|].
  destruct (nth_error pop p) as [a|] eqn:E. 2:{ apply nth_error_None in E. specialize (H p (or_introl eq_refl)). lia. }
  unfold get at 1. rewrite E. cbn [bind]. destruct IH as (l & -> & F); [intros; apply H; right; auto|]. cbn [bind]. exists (a :: l). split; auto.
Qed.
Lemma F2_length (A B : Type) (P : A -> B -> Prop) l m : Forall2 P l m -> length m = length l.
Proof. intros H. induction H; simpl; auto. Qed.
Lemma F2_in (A B : Type) (P : A -> B -> Prop) l m b : Forall2 P l m -> In b m -> exists a, In a l /\ P a b.
Proof. intros H. induction H as [|x y l m H F IH]; intros K; [destruct K|]. destruct K as [<-|K]; [exists x; simpl; auto|]. destruct (IH K) as (a & A1 & A2). exists a. simpl. auto. Qed.
Lemma F2_in' (A B : Type) (P : A -> B -> Prop) l m a : Forall2 P l m -> In a l -> exists b, In b m /\ P a b.
Proof. intros H. induction H as [|x y l m H F IH]; intros K; [destruct K|]. destruct K as [<-|K]; [exists y; simpl; auto|]. destruct (IH K) as (b & A1 & A2). exists b. simpl. auto. Qed.
Lemma picked_nd (A : Type) (pop : list A) ps l : NoDup pop -> NoDup ps -> Forall2 (fun p a => nth_error pop p = Some a) ps l -> NoDup l.
Proof.
  intros N NP F. induction F as [|p a ps l E F IH]; constructor; inversion NP as [|? ? N1 N2]; subst; auto.
  intros H. destruct (F2_in F H) as (q & Hq & Eq). destruct N1. rewrite NoDup_nth_error in N. rewrite (N p q); auto; [|congruence]. apply nth_error_Some. congruence.
Qed.
Lemma nodup_same (l m : list nat) : NoDup l -> NoDup m -> (forall x, In x l <-> In x m) -> Permutation l m.
Proof. intros. apply NoDup_Permutation; auto. Qed.
Lemma nodup_le (A : Type) (dec : forall x y : A, {x = y} + {x <> y}) l : length (nodup dec l) <= length l.
Proof. induction l as [|a l IH]; simpl; auto. destruct (in_dec dec a l); simpl; lia. Qed.
Lemma nodup_all (A : Type) (dec : forall x y : A, {x = y} + {x <> y}) l : length (nodup dec l) = length l -> NoDup l.
Proof.
  induction l as [|a l IH]; simpl; [constructor|]. destruct (in_dec dec a l) as [H|H]; simpl; intros E.
  - pose proof (nodup_le dec l). lia.
  - constructor; auto.
Qed.

Section Gen.
Variables (R : Type) (g : rng R) (order : list nat -> list nat).
Hypothesis (Hg : rng_ok g) (Ho : order_ok order).
(** It succeeds, with a result that satisfies [P]. *)
Definition total (A : Type) (P : A -> Prop) (x : res A) : Prop := exists a, x = Ok a /\ P a.
Lemma total_bind (A B : Type) (P : A -> Prop) (Q : B -> Prop) x (f : A -> res B) :
  total P x -> (forall a, P a -> total Q (f a)) -> total Q (bind x f).
Proof. intros (a & -> & H) F. apply F. auto. Qed.

Definition sampled (A : Type) (pop : list A) (m : nat) (l : list A) : Prop := length l = m /\ incl l pop /\ (NoDup pop -> NoDup l).
Lemma sample_total (A : Type) (pop : list A) z m r : z = Z.of_nat m -> m <= length pop -> total (fun x => sampled pop m (fst x)) (sample g r pop z).
Proof.
  intros -> Hm. unfold sample. destruct (Z.ltb_spec (Z.of_nat m) 0); [lia|]. destruct (Z.ltb_spec (Z.of_nat (length pop)) (Z.of_nat m)); [lia|]. cbn [orb].
  rewrite Nat2Z.id. destruct (ro_sample Hg r Hm) as (A1 & A2 & A3). destruct (rsample g r (length pop) m) as [ps r']. cbn [fst] in *.
  destruct (@mapM_get _ pop ps) as (l & -> & F); auto. cbn [bind]. exists (l, r'). split; auto. cbn [fst]. split; [rewrite (F2_length F); auto|]. split.
  - intros a Ha. destruct (F2_in F Ha) as (p & _ & E). apply nth_error_In in E. auto.
  - intros N. apply (picked_nd N A2 F).
Qed.
Lemma times_total (A : Type) (P : A -> Prop) (f : R -> res (A * R)) : (forall r, total (fun x => P (fst x)) (f r)) ->
  forall m r, total (fun x => length (fst x) = m /\ Forall P (fst x)) (times f m r).
Proof.
  intros H. induction m as [|m IH]; intros r; simpl; [exists ([], r); split; [reflexivity|split; [reflexivity|constructor]]|]. apply total_bind with (1 := H r). intros [a r1] Ha. apply total_bind with (1 := IH r1). intros [l r2] [L F].
  exists (a :: l, r2). split; auto. cbn [fst length] in *. split; [lia|]. constructor; auto.
Qed.

Variables (n n_inds k n_out : nat).
Hypothesis (Hk : 1 <= k) (Hkn : k <= n) (Hfew : n + 1 <= n_inds - n_out + k).
Hypothesis (Hout : n_out <= n_inds).

(** ** The connected component *)
Record ginv (avail used : list nat) (inds : list (list nat)) : Prop := {
  gi_perm : Permutation (used ++ avail) (seq 0 n);
  gi_lists : forall xs, In xs inds -> NoDup xs /\ length xs = k /\ incl xs used;
  gi_used : forall t, In t used -> In t (concat inds);
  gi_many : k <= length used;
  gi_len : length inds + length avail + k = n + 1;
  gi_conn : 2 <= k -> forall t u, In t used -> In u used -> linked inds t u
}.
Lemma ginv_nd avail used inds : ginv avail used inds -> NoDup used /\ NoDup avail /\ (forall x, In x used -> In x avail -> False).
Proof. intros G. apply NoDup_app. apply (Permutation_NoDup (Permutation_sym (gi_perm G))). apply seq_NoDup. Qed.
Lemma linked_incl A B t u : incl A B -> linked A t u -> linked B t u.
Proof. apply linked_mono. Qed.

Lemma order_len l : length (order l) = length l.
Proof. apply Permutation_length, Ho. Qed.
Lemma grow_total : forall m r avail used inds, ginv avail used inds -> length avail = m ->
  total (fun x => let '(avail', used', inds', _) := x in ginv avail' used' inds' /\ avail' = []) (grow g order k m r avail used inds).
Proof.
  induction m as [|m IH]; intros r avail used inds G L.
  - destruct avail; [|discriminate]. simpl. eexists. split; [reflexivity|]. cbn. auto.
  - cbn [grow]. apply total_bind with (1 := @sample_total _ (order avail) 1%Z 1 r eq_refl ltac:(rewrite order_len; lia)).
    intros [x1 r1] (S1 & S2 & _). cbn [fst] in *. destruct x1 as [|x [|? ?]]; try discriminate. cbn [get nth_error bind].
    assert (Hx : In x avail) by (apply (Permutation_in _ (Ho avail)), S2; left; auto).
    apply total_bind with (1 := @sample_total _ (order used) (Z.of_nat k - 1)%Z (k - 1) r1 ltac:(lia) ltac:(rewrite order_len; pose proof (gi_many G); lia)).
    intros [us r2] (U1 & U2 & U3). cbn [fst] in *.
    destruct (ginv_nd G) as (N1 & N2 & N3).
    assert (Hus : incl us used) by (intros y Hy; apply (Permutation_in _ (Ho used)), U2; auto).
    assert (Nus : NoDup us) by (apply U3; apply (Permutation_NoDup (Permutation_sym (Ho used))); auto).
    assert (Hxu : ~ In x used) by (intros H; eauto).
    assert (Eu : unique (used ++ [x]) = used ++ [x]). { apply unique_id, NoDup_app. split; auto. split; [repeat constructor; auto|]. intros y Hy [<-|[]]. auto. }
    rewrite Eu.
    assert (Ea : Permutation avail (x :: filter (fun y => negb (y =? x)) avail)).
    { apply nodup_same; auto; [constructor|].
      - intros H. apply filter_In in H. rewrite Nat.eqb_refl in H. destruct H; discriminate.
      - apply NoDup_filter'. auto.
      - intros y. simpl. rewrite filter_In. destruct (Nat.eqb_spec y x) as [->|Ne]; simpl; [tauto|]. split; [auto|]. intros [E|[E _]]; [congruence|auto]. }
    assert (La : length avail = S (length (filter (fun y => negb (y =? x)) avail))) by (rewrite (Permutation_length Ea) at 1; auto).
    apply IH; [|lia]. constructor.
    + rewrite <- (gi_perm G). rewrite <- app_assoc. apply Permutation_app_head. apply Permutation_sym. auto.
    + intros xs Hxs. apply in_app_iff in Hxs. destruct Hxs as [Hxs|[<-|[]]].
      * destruct (gi_lists G Hxs) as (A & B & C). split; auto. split; auto. intros y Hy. apply in_app_iff. auto.
      * split; [apply NoDup_app; split; auto; split; [repeat constructor; auto|]; intros y Hy [<-|[]]; auto|]. split; [rewrite app_length; simpl; lia|].
        intros y Hy. apply in_app_iff in Hy. apply in_app_iff. destruct Hy; auto.
    + intros t Ht. rewrite concat_app. apply in_app_iff. apply in_app_iff in Ht. destruct Ht as [Ht|Ht]; [left; apply (gi_used G); auto|]. right. simpl. rewrite app_nil_r. apply in_app_iff. auto.
    + rewrite app_length. pose proof (gi_many G). lia.
    + rewrite app_length. simpl. pose proof (gi_len G). lia.
    + intros K2 t u Ht Hu. assert (Hs : incl inds (inds ++ [us ++ [x]])) by (intros z Hz; apply in_app_iff; auto).
      destruct us as [|u0 us']; [simpl in U1; lia|]. assert (Hu0 : In u0 used) by (apply Hus; left; auto).
      assert (L0 : forall t, In t (used ++ [x]) -> linked (inds ++ [(u0 :: us') ++ [x]]) u0 t).
      { intros t' Ht'. apply in_app_iff in Ht'. destruct Ht' as [Ht'|[<-|[]]]; [apply (linked_incl Hs), (gi_conn G); auto|].
        eapply lk_step with (y := u0); [constructor| | |]; [apply in_app_iff; right; left; reflexivity|left; auto|apply in_app_iff; right; left; auto]. }
      apply linked_trans with u0; auto. apply linked_sym. auto.
Qed.

(** ** The tensors of each index *)
Notation star := (star n).
Record inds_ok (inds : list (list nat)) : Prop := {
  io_len : length inds = n_inds;
  io_nd : forall xs, In xs inds -> NoDup xs;
  io_le : forall xs t, In xs inds -> In t xs -> t <= n;
  io_inner : forall xs, In xs inds -> ~ In star xs -> length xs = k;
  io_outer : forall xs, In xs inds -> In star xs -> length xs = 2 \/ length xs = k /\ 3 <= k;
  io_stars : length (filter (memb star) inds) = n_out;
  io_conn : exists A B, inds = A ++ B /\ (forall xs, In xs A -> ~ In star xs) /\ (forall t, t < n -> In t (concat A)) /\
              (2 <= k -> forall t u, t < n -> u < n -> linked A t u)
}.
Lemma same_set_ok a b : (forall x, In x a <-> In x b) -> same_set a b = true.
Proof. intros H. unfold same_set. apply andb_true_iff. split; apply forallb_forall; intros x Hx; apply memb_In, H; auto. Qed.
Lemma filter_all (A : Type) (f : A -> bool) l : (forall x, In x l -> f x = true) -> filter f l = l.
Proof. intros H. apply forallb_filter_id, forallb_forall. auto. Qed.
Lemma filter_none (A : Type) (f : A -> bool) l : (forall x, In x l -> f x = false) -> filter f l = [].
Proof. induction l as [|a l IH]; intros H; auto. simpl. rewrite H by (left; auto). apply IH. intros; apply H; right; auto. Qed.
Lemma halves m : m / 2 + m mod 2 + m / 2 = m.
Proof. pose proof (Nat.div_mod m 2). lia. Qed.

Lemma draw_total r : total (fun x => inds_ok (fst x)) (draw_inds g order n n_inds k n_out r).
Proof.
  unfold draw_inds. assert (Nn : NoDup (order (seq 0 n))) by (apply (Permutation_NoDup (Permutation_sym (Ho _))), seq_NoDup).
  apply total_bind with (1 := @sample_total _ (order (seq 0 n)) (Z.of_nat k) k r eq_refl ltac:(rewrite order_len, seq_length; lia)).
  intros [first r1] (F1 & F2 & F3). cbn [fst] in *. specialize (F3 Nn). rewrite (unique_id F3).
  assert (F2' : forall x, In x first -> x < n). { intros x Hx. apply F2, (Permutation_in _ (Ho _)), in_seq in Hx. lia. }
  assert (P0 : Permutation (first ++ filter (fun x => negb (memb x first)) (seq 0 n)) (seq 0 n)).
  { apply nodup_same; [|apply seq_NoDup|].
    - apply NoDup_app. split; auto. split; [apply NoDup_filter', seq_NoDup|]. intros x A B. apply filter_In in B. destruct B as [_ B]. apply memb_In in A. rewrite A in B. discriminate.
    - intros x. rewrite in_app_iff, filter_In, in_seq. split; [intros [A|[A _]]; [apply F2' in A; lia|auto]|]. intros A. destruct (memb x first) eqn:M; [apply memb_In in M; auto|auto]. }
  assert (L0 : length first + length (filter (fun x => negb (memb x first)) (seq 0 n)) = n) by (rewrite <- app_length, (Permutation_length P0), seq_length; auto).
  assert (G0 : ginv (filter (fun x => negb (memb x first)) (seq 0 n)) first [first]).
  { constructor; auto.
    - intros xs [<-|[]]. split; auto. split; auto. intros x; auto.
    - intros t Ht. simpl. rewrite app_nil_r. auto.
    - lia.
    - simpl. lia.
    - intros K2 t u Ht Hu. eapply lk_step with (y := t); [constructor|left; reflexivity|auto|auto]. }
  apply total_bind with (1 := @grow_total (n - k) r1 _ _ _ G0 ltac:(lia)).
  intros [[[avail used] inds] r2] [G ->]. pose proof (gi_perm G) as P. rewrite app_nil_r in P.
  assert (Hused : forall x, In x used <-> x < n). { intros x. split; intros H; [apply (Permutation_in _ P), in_seq in H; lia|]. apply (Permutation_in _ (Permutation_sym P)), in_seq. lia. }
  assert (Hcon : forall x, In x (concat inds) <-> x < n).
  { intros x. rewrite <- Hused. split; [|apply (gi_used G)]. rewrite in_concat. intros (xs & A & B). destruct (gi_lists G A) as (_ & _ & C). auto. }
  rewrite (same_set_ok (a := used)), (same_set_ok (a := concat inds)) by (intros x; rewrite in_seq; first [rewrite Hused|rewrite Hcon]; lia).
  pose proof (gi_len G) as GL. cbn [length Nat.eqb andb negb] in *.
  destruct (Z.eqb_spec (Z.of_nat (length inds)) (Z.of_nat n + 1 - Z.of_nat k)) as [_|Ne]; [|lia]. cbn [negb].
  apply total_bind with (1 := @times_total _ (fun l => sampled (seq 0 n) k l) (fun r => sample g r (seq 0 n) (Z.of_nat k)) (fun r => @sample_total _ (seq 0 n) (Z.of_nat k) k r eq_refl ltac:(rewrite seq_length; lia)) _ _).
  intros [l1 r3] [E1 S1]. cbn [fst] in *. rewrite Forall_forall in S1.
  apply total_bind with (P := fun x => length (fst x) = n_nhyper_output_inds k n_out /\ Forall (fun xs => exists t, t < n /\ xs = [t; star]) (fst x)).
  { apply times_total with (P := fun xs => exists t, t < n /\ xs = [t; star]). intros r0. unfold randrange. destruct (Nat.eqb_spec n 0); [lia|]. cbn [bind].
    assert (Hn0 : 0 < n) by lia. pose proof (ro_range Hg r0 Hn0) as Hr. destruct (rrange g r0 n) as [t r']. eexists. split; [reflexivity|]. exists t. auto. }
  intros [l2 r4] [E2 S2]. cbn [fst] in *. rewrite Forall_forall in S2.
  apply total_bind with (P := fun x => length (fst x) = n_hyper_output_inds k n_out /\ Forall (fun xs => exists ts, sampled (seq 0 n) (k - 1) ts /\ xs = ts ++ [star]) (fst x)).
  { apply times_total with (P := fun xs => exists ts, sampled (seq 0 n) (k - 1) ts /\ xs = ts ++ [star]). intros r0.
    apply total_bind with (1 := @sample_total _ (seq 0 n) (Z.of_nat k - 1)%Z (k - 1) r0 ltac:(lia) ltac:(rewrite seq_length; lia)).
    intros [ts r'] H. eexists. split; [reflexivity|]. exists ts. auto. }
  intros [l3 r5] [E3 S3]. cbn [fst] in *. rewrite Forall_forall in S3.
  assert (Eh : n_hyper_output_inds k n_out + n_nhyper_output_inds k n_out = n_out).
  { unfold n_hyper_output_inds, n_nhyper_output_inds. destruct (k <=? 2); auto. pose proof (halves n_out). lia. }
  assert (EL : length (inds ++ l1 ++ l2 ++ l3) = n_inds) by (rewrite !app_length; lia).
  rewrite EL, Nat.eqb_refl. cbn [negb]. eexists. split; [reflexivity|]. cbn [fst].
  assert (NS : forall xs, In xs inds -> ~ In star xs). { intros xs H K. destruct (gi_lists G H) as (_ & _ & I). apply I, Hused in K. unfold M_Testing.star in K. lia. }
  assert (N1 : forall xs, In xs l1 -> NoDup xs /\ length xs = k /\ (forall t, In t xs -> t < n)).
  { intros xs H. destruct (S1 xs H) as (A & B & C). split; [apply C, seq_NoDup|]. split; auto. intros t Ht. apply B, in_seq in Ht. lia. }
  assert (N2 : forall xs, In xs l2 -> NoDup xs /\ length xs = 2 /\ (forall t, In t xs -> t <= n) /\ In star xs).
  { intros xs H. destruct (S2 xs H) as (t & A & ->). unfold M_Testing.star. split; [constructor; [intros [K|[]]; lia|repeat constructor; auto]|]. split; auto. split; [intros u [<-|[<-|[]]]; lia|right; left; auto]. }
  assert (N3 : forall xs, In xs l3 -> NoDup xs /\ length xs = k /\ (forall t, In t xs -> t <= n) /\ In star xs /\ 3 <= k).
  { intros xs H. destruct (S3 xs H) as (ts & (A & B & C) & ->). unfold M_Testing.star. specialize (C (seq_NoDup _ _)). assert (B' : forall t, In t ts -> t < n) by (intros t Ht; apply B, in_seq in Ht; lia).
    split; [apply NoDup_app; split; auto; split; [repeat constructor; auto|]; intros x X [<-|[]]; apply B' in X; lia|]. split; [rewrite app_length; simpl; lia|].
    split; [intros t Ht; apply in_app_iff in Ht; destruct Ht as [Ht|[<-|[]]]; [apply B' in Ht; lia|lia]|]. split; [apply in_app_iff; right; left; auto|].
    destruct l3 as [|a l3]; [destruct H|]. unfold n_hyper_output_inds in E3. destruct (Nat.leb_spec k 2); [discriminate|lia]. }
  assert (Split : forall xs, In xs (inds ++ l1 ++ l2 ++ l3) -> In xs inds \/ In xs l1 \/ In xs l2 \/ In xs l3) by (intros xs; rewrite !in_app_iff; auto).
  constructor; auto.
  - intros xs H. apply Split in H. destruct H as [H|[H|[H|H]]]; [apply (gi_lists G H)|apply N1; auto|apply N2; auto|apply N3; auto].
  - intros xs t H Ht. apply Split in H. destruct H as [H|[H|[H|H]]]; [|apply N1 in H; destruct H as (_ & _ & H); apply H in Ht; lia|apply N2 in H; apply H; auto|apply N3 in H; apply H; auto].
    destruct (gi_lists G H) as (_ & _ & I). apply I, Hused in Ht. lia.
  - intros xs H K. apply Split in H. destruct H as [H|[H|[H|H]]]; [apply (gi_lists G H)|apply N1; auto|apply N2 in H; tauto|apply N3 in H; tauto].
  - intros xs H K. apply Split in H. destruct H as [H|[H|[H|H]]]; [destruct (NS xs H K)| |apply N2 in H; tauto|apply N3 in H; tauto]. apply N1 in H. destruct H as (_ & _ & H). apply H in K. unfold M_Testing.star in K. lia.
  - rewrite !filter_app. rewrite (filter_none (l := inds)), (filter_none (l := l1)).
    + cbn [app]. rewrite !filter_all; [rewrite app_length; lia| |]; intros xs H; apply memb_In; [apply N3|apply N2]; auto.
    + intros xs H. apply memb_nIn. intros K. apply N1 in H. destruct H as (_ & _ & H). apply H in K. unfold M_Testing.star in K. lia.
    + intros xs H. apply memb_nIn. auto.
  - exists inds, (l1 ++ l2 ++ l3). split; auto. split; auto. split; [intros t; apply Hcon|]. intros K2 t u Ht Hu. apply (gi_conn G); auto; apply Hused; auto.
Qed.
End Gen.
