(** generate_random_tensors: the whole network. *)
From Coq Require Import List Arith Lia Permutation Bool ZArith.
Import ListNotations.
From Verif Require Import P_Base P_Path P_Split P_PyBuild P_OSet P_TnApp P_Amplitude P_Fuse P_RandLoop P_RandColor P_RandComp P_Testing P_TestGen P_TestNet.
From Verif Require Import M_Base M_Path M_PyTree M_Circuit M_Testing S_Random S_Testing.
Set Implicit Arguments.
Unset Strict Implicit.
Local Open Scope nat_scope.

Lemma linked_in_concat ts x y : linked ts x y -> x = y \/ In y (concat ts).
Proof. intros H. induction H; auto. right. apply in_concat. eauto. Qed.
Lemma linked_shift d ts x y : linked ts x y -> linked (map (map (fun x => x + d)) ts) (x + d) (y + d).
Proof.
  intros H. induction H as [|x y z xs H IH A B D]; [constructor|]. apply lk_step with (y + d) (map (fun x => x + d) xs); auto.
  - apply in_map. auto.
  - apply (in_map (fun x => x + d)). auto.
  - apply (in_map (fun x => x + d)). auto.
Qed.
Lemma conn_linked ts t u x y : connected ts t u -> has ts t x -> has ts u y -> linked ts x y.
Proof.
  intros H. revert y. induction H as [t|t u v z H IH A B]; intros y (xs & X1 & X2) (ys & Y1 & Y2).
  - rewrite X1 in Y1. injection Y1 as <-. apply lk_step with x xs; auto; [constructor|]. apply nth_error_In in X1. auto.
  - destruct B as (zs & Z1 & Z2). rewrite Y1 in Z1. injection Z1 as <-. apply lk_step with z ys; auto; [apply IH; auto; exists xs; auto|]. apply nth_error_In in Y1. auto.
Qed.
Lemma NoDup_map_in (A B : Type) (f : A -> B) l : (forall x y, In x l -> In y l -> f x = f y -> x = y) -> NoDup l -> NoDup (map f l).
Proof.
  intros H N. induction N as [|a l N1 N IH]; simpl; constructor.
  - intros K. apply in_map_iff in K. destruct K as (b & E & Hb). apply H in E; [subst; auto|right; auto|left; auto].
  - apply IH. intros; apply H; simpl; auto.
Qed.
Lemma map_inj_in (f : nat -> nat) (P : nat -> Prop) : (forall x y, P x -> P y -> f x = f y -> x = y) -> forall l m, (forall x, In x l -> P x) -> (forall x, In x m -> P x) -> map f l = map f m -> l = m.
Proof.
  intros H l. induction l as [|a l IH]; intros [|b m] Pl Pm E; simpl in *; try discriminate; auto. injection E as E1 E2. f_equal; [apply H; auto|apply IH; auto].
Qed.
Lemma count_map (f : nat -> nat) l x : (forall y, In y l -> f y = f x -> y = x) -> count_occ Nat.eq_dec (map f l) (f x) = count_occ Nat.eq_dec l x.
Proof.
  induction l as [|a l IH]; intros H; auto. simpl. rewrite IH by (intros; apply H; simpl; auto). destruct (Nat.eq_dec (f a) (f x)) as [E|E], (Nat.eq_dec a x) as [E'|E']; auto; [|congruence].
  destruct E'. apply H; simpl; auto.
Qed.
Lemma concat_map_map (f : nat -> nat) l : concat (map (map f) l) = map f (concat l).
Proof. symmetry. apply concat_map. Qed.
Lemma nodup_len l m : NoDup m -> (forall x, In x l <-> In x m) -> length (nodup Nat.eq_dec l) = length m.
Proof. intros N H. apply Permutation_length, nodup_same; auto; [apply NoDup_nodup|]. intros x. rewrite nodup_In. auto. Qed.

Section Main.
Variables (n n_inds k n_out : nat).
Hypothesis (Hk : 1 <= k) (Hi : 1 <= n_inds) (Hn : 1 <= n).
Notation block_ok := (block_ok n n_inds k n_out).

(** The network made of the components number [a], ..., [a + m - 1]. *)
Record net_ok (a m : nat) (ts : list (list nat)) (out : list nat) : Prop := {
  no_len : length ts = n * m;
  no_nd : NoDup ts;
  no_each : forall xs, In xs ts -> xs <> [] /\ NoDup xs;
  no_in : forall x, In x (concat ts) <-> a * n_inds <= x < (a + m) * n_inds;
  no_outs : NoDup out /\ length out = n_out * m /\ forall x, In x out -> a * n_inds <= x < (a + m) * n_inds;
  no_inner : forall x, In x (concat ts) -> ~ In x out -> holders ts x = k;
  no_outer : forall x, In x out -> holders ts x = 1 \/ holders ts x = k - 1;
  no_mono : forall xs x y, In xs ts -> In x xs -> In y xs -> x / n_inds = y / n_inds;
  no_link : 2 <= k -> forall x y, In x (concat ts) -> In y (concat ts) -> x / n_inds = y / n_inds -> linked ts x y;
  no_count : forall b, a <= b < a + m -> length (filter (fun xs => hd 0 xs / n_inds =? b) ts) = n
}.
Lemma div_range x b : x / n_inds = b <-> b * n_inds <= x < S b * n_inds.
Proof.
  split; [intros <-|intros H].
  - pose proof (Nat.div_mod x n_inds ltac:(lia)). pose proof (Nat.mod_upper_bound x n_inds ltac:(lia)). simpl. nia.
  - symmetry. apply Nat.div_unique with (x - b * n_inds); simpl in H; nia.
Qed.
Lemma combine_ok : forall l a, Forall block_ok l -> net_ok a (length l) (combine_tensors n_inds a l) (combine_output n_inds a l).
Proof.
  induction l as [|(ts, out) l IH]; intros a F.
  - cbn [length combine_tensors combine_output]. constructor; rewrite ?Nat.add_0_r; cbn [concat length filter]; try (intros; contradiction); try (intros; lia); try (constructor; fail).
    + intros x. split; [intros []|lia].
    + split; [constructor|]. split; [lia|intros x []].
  - inversion F as [|? ? B F']; subst. specialize (IH (S a) F'). pose proof (b_len B) as BL. cbn [fst] in BL. cbn [combine_tensors combine_output length]. set (d := a * n_inds).
    set (T := combine_tensors n_inds (S a) l) in *. set (O := combine_output n_inds (S a) l) in *.
    set (ts' := map (map (fun x => x + d)) ts). set (out' := map (fun x => x + d) out).
    assert (C' : concat ts' = map (fun x => x + d) (concat ts)) by apply concat_map_map.
    assert (In' : forall x, In x (concat ts') <-> d <= x < S a * n_inds).
    { intros x. rewrite C', in_map_iff. split.
      - intros (y & <- & Hy). apply (b_in B) in Hy. unfold d. simpl. lia.
      - intros H. exists (x - d). split; [lia|]. apply (b_in B). cbn [Nat.mul] in H. unfold d in *. lia. }
    assert (InO : forall x, In x out' <-> d <= x /\ In (x - d) out).
    { intros x. unfold out'. rewrite in_map_iff. split; [intros (y & <- & Hy); split; [lia|]; replace (y + d - d) with y by lia; auto|]. intros [H1 H2]. exists (x - d). split; [lia|auto]. }
    assert (InO' : forall x, In x out' -> d <= x < S a * n_inds). { intros x Hx. apply InO in Hx. destruct Hx as [H1 H2]. apply (b_outs B) in H2. cbn [Nat.mul]. unfold d in *. lia. }
    assert (Hc : forall x, d <= x -> count_occ Nat.eq_dec (concat ts') x = holders ts (x - d)).
    { intros x Hx. rewrite C'. unfold holders. replace x with (x - d + d) at 1 by lia. apply (@count_map (fun x => x + d) (concat ts) (x - d)). intros; lia. }
    assert (H0 : forall x, ~ d <= x < S a * n_inds -> count_occ Nat.eq_dec (concat ts') x = 0). { intros x Hx. apply count_occ_not_In. rewrite In'. auto. }
    assert (H1 : forall x, x < S a * n_inds -> count_occ Nat.eq_dec (concat T) x = 0). { intros x Hx. apply count_occ_not_In. rewrite (no_in IH). lia. }
    assert (Each : forall xs, In xs ts' -> xs <> [] /\ NoDup xs).
    { intros xs H. apply in_map_iff in H. destruct H as (ys & <- & Hy). destruct (b_each B Hy) as [E1 E2]. split; [destruct ys; [tauto|discriminate]|]. apply NoDup_map_in; auto. intros; lia. }
    assert (Hin : forall xs x, In xs ts' -> In x xs -> x / n_inds = a). { intros xs x A1 A2. apply div_range, In', in_concat. eauto. }
    assert (HinT : forall xs x, In xs T -> In x xs -> S a * n_inds <= x). { intros xs x A1 A2. apply (no_in IH), in_concat. eauto. }
    assert (Hhd : forall xs, xs <> [] -> In (hd 0 xs) xs) by (intros [|x xs] H; [tauto|left; auto]).
    constructor.
    + rewrite app_length. unfold ts'. rewrite map_length, BL, (no_len IH). lia.
    + apply NoDup_app. split; [|split; [apply IH|]].
      * apply NoDup_map_in; [|apply B]. intros xs ys _ _. apply map_inj_in with (P := fun _ => True); auto. intros; lia.
      * intros xs A1 A2. destruct (Each xs A1) as [E1 _]. pose proof (HinT _ _ A2 (Hhd xs E1)). pose proof (Hin _ _ A1 (Hhd xs E1)) as E. apply div_range in E. lia.
    + intros xs H. apply in_app_iff in H. destruct H; auto. apply (no_each IH H).
    + intros x. rewrite concat_app, in_app_iff, In', (no_in IH). unfold d. replace (a + S (length l)) with (S a + length l) by lia. cbn [Nat.mul Nat.add]. rewrite !Nat.mul_add_distr_r. lia.
    + destruct (b_outs B) as (O1 & O2 & O3). cbn [snd] in O1, O2, O3. destruct (no_outs IH) as (P1 & P2 & P3). split; [|split].
      * apply NoDup_app. split; [apply NoDup_map_in; auto; intros; lia|]. split; auto. intros x A1 A2. apply InO' in A1. apply P3 in A2. lia.
      * rewrite app_length, P2. unfold out'. rewrite map_length, O2. lia.
      * intros x H. apply in_app_iff in H. replace (a + S (length l)) with (S a + length l) by lia. cbn [Nat.mul Nat.add]. rewrite Nat.mul_add_distr_r. destruct H as [H|H]; [apply InO' in H|apply P3 in H]; unfold d in *; cbn [Nat.mul Nat.add] in H; rewrite ?Nat.mul_add_distr_r in H; lia.
    + intros x Hx NO. unfold holders. rewrite concat_app, count_occ_app. rewrite concat_app in Hx. rewrite in_app_iff in *. destruct (le_lt_dec (S a * n_inds) x) as [G|G].
      * rewrite H0 by lia. apply (no_inner IH); [|tauto]. destruct Hx as [Hx|Hx]; auto. apply In' in Hx. lia.
      * rewrite H1 by auto. rewrite Nat.add_0_r. assert (Hd : d <= x < S a * n_inds). { destruct Hx as [Hx|Hx]; [apply In'; auto|]. apply (no_in IH) in Hx. lia. }
        rewrite Hc by lia. apply (b_inner B); [unfold d in *; cbn [Nat.mul] in Hd; lia|]. intros K. apply NO. left. apply InO. split; [lia|auto].
    + intros x Hx. unfold holders. rewrite concat_app, count_occ_app. apply in_app_iff in Hx. destruct Hx as [Hx|Hx].
      * pose proof (InO' x Hx). rewrite H1 by lia. rewrite Nat.add_0_r. rewrite Hc by lia. apply (b_outer B). apply InO in Hx. tauto.
      * pose proof (proj2 (proj2 (no_outs IH)) x Hx). rewrite H0 by lia. apply (no_outer IH). auto.
    + intros xs x y H A1 A2. apply in_app_iff in H. destruct H as [H|H]; [rewrite (Hin xs x), (Hin xs y); auto|apply (no_mono IH H); auto].
    + intros K2 x y Hx Hy E. rewrite concat_app in *. apply in_app_iff in Hx, Hy.
      assert (S1 : incl ts' (ts' ++ T)) by (intros z Hz; apply in_app_iff; auto). assert (S2 : incl T (ts' ++ T)) by (intros z Hz; apply in_app_iff; auto).
      assert (Q1 : forall z, In z (concat ts') -> z / n_inds = a) by (intros z Hz; apply div_range, In'; auto).
      assert (Q2 : forall z, In z (concat T) -> z / n_inds <> a) by (intros z Hz E'; apply div_range in E'; apply (no_in IH) in Hz; lia).
      destruct Hx as [Hx|Hx], Hy as [Hy|Hy].
      * apply (linked_mono S1). apply In' in Hx, Hy. replace x with (x - d + d) by lia. replace y with (y - d + d) by lia. apply linked_shift. apply (b_conn B); auto; unfold d in *; cbn [Nat.mul] in *; lia.
      * rewrite (Q1 x Hx) in E. destruct (Q2 y Hy). auto.
      * rewrite (Q1 y Hy) in E. destruct (Q2 x Hx). auto.
      * apply (linked_mono S2). apply (no_link IH); auto.
    + intros b Hb. rewrite filter_app, app_length. destruct (Nat.eq_dec b a) as [->|Nb].
      * rewrite filter_all, filter_none.
        -- unfold ts'. simpl. rewrite map_length, BL. lia.
        -- intros xs H. apply Nat.eqb_neq. intros E. apply div_range in E. pose proof (HinT _ _ H (Hhd xs (proj1 (no_each IH H)))). lia.
        -- intros xs H. apply Nat.eqb_eq. apply (Hin xs); auto. apply Hhd, Each. auto.
      * rewrite filter_none; [apply (no_count IH); lia|]. intros xs H. apply Nat.eqb_neq. rewrite (Hin xs); auto. apply Hhd, Each. auto.
Qed.
Lemma net_perm a m ts ts' out : Permutation ts ts' -> net_ok a m ts out -> net_ok a m ts' out.
Proof.
  intros P N. assert (I : forall xs, In xs ts' <-> In xs ts) by (intros xs; split; apply Permutation_in; auto; apply Permutation_sym; auto).
  assert (C : Permutation (concat ts) (concat ts')). { clear - P. induction P; simpl; auto; [apply Permutation_app_head; auto| |eapply Permutation_trans; eauto]. rewrite !app_assoc. apply Permutation_app_tail, Permutation_app_comm. }
  assert (IC : forall x, In x (concat ts') <-> In x (concat ts)) by (intros x; split; apply Permutation_in; auto; apply Permutation_sym; auto).
  assert (H : forall x, holders ts' x = holders ts x) by (intros x; unfold holders; symmetry; apply Permutation_count_occ; auto).
  constructor.
  - rewrite <- (Permutation_length P). apply N.
  - apply (Permutation_NoDup P). apply N.
  - intros xs Hx. apply (no_each N). apply I. auto.
  - intros x. rewrite IC. apply N.
  - apply N.
  - intros x. rewrite IC, H. apply N.
  - intros x. rewrite H. apply N.
  - intros xs x y Hx. apply (no_mono N). apply I. auto.
  - intros K2 x y. rewrite !IC. intros Hx Hy E. apply (@linked_mono ts); [intros z; apply I|]. apply (no_link N); auto.
  - intros b Hb. rewrite <- (no_count N Hb). apply Permutation_length. clear - P. induction P; simpl; auto; [destruct (_ =? b); auto| |eapply Permutation_trans; eauto].
    destruct (_ =? b), (_ =? b); auto. constructor.
Qed.
Lemma net_random m ts out : net_ok 0 m ts out -> random_network n n_inds k n_out m ts out.
Proof.
  intros N. constructor; try apply N.
  - rewrite (@nodup_len _ (seq 0 (n_inds * m))); [apply seq_length|apply seq_NoDup|]. intros x. rewrite (no_in N), in_seq. simpl. rewrite (Nat.mul_comm m). lia.
  - destruct (no_outs N) as (A & B & C). split; auto. split; auto. intros x Hx. apply (no_in N). auto.
Qed.
Lemma filter_seq_len (f : list nat -> bool) ts : length (filter (fun t => f (nth t ts [])) (seq 0 (length ts))) = length (filter f ts).
Proof.
  induction ts as [|xs ts IH] using rev_ind; auto. rewrite app_length, seq_app, !filter_app, !app_length, <- IH. f_equal.
  - f_equal. apply filter_ext_in. intros t Ht. apply in_seq in Ht. rewrite app_nth1 by lia. auto.
  - simpl. rewrite app_nth2 by lia. rewrite Nat.sub_diag. simpl. destruct (f xs); auto.
Qed.
Lemma net_components m ts out : 2 <= k -> net_ok 0 m ts out -> has_components n m ts.
Proof.
  intros K2 N. destruct (components_ok ts) as (comps & _ & C). rewrite filled_id in C by (intros xs Hx; apply (no_each N Hx)). exists comps. split; auto.
  assert (Hhd : forall t, t < length ts -> has ts t (hd 0 (nth t ts []))).
  { intros t Ht. exists (nth t ts []). split; [apply nth_error_nth'; auto|]. pose proof (proj1 (no_each N (nth_In ts [] Ht))). destruct (nth t ts []); [tauto|left; auto]. }
  assert (Hin : forall t x, has ts t x -> In x (concat ts)) by (intros t x (xs & A & B); apply nth_error_In in A; apply in_concat; eauto).
  assert (HC : forall t u, t < length ts -> u < length ts -> connected ts t u <-> hd 0 (nth t ts []) / n_inds = hd 0 (nth u ts []) / n_inds).
  { intros t u Ht Hu. pose proof (Hhd t Ht) as A. pose proof (Hhd u Hu) as B. split.
    - intros H. pose proof (conn_linked H A B) as L. clear - L N Hi. induction L as [|x y z xs L IH H1 H2 H3]; auto. rewrite IH. apply (no_mono N H1); auto.
    - intros E. apply linked_conn with (hd 0 (nth t ts [])) (hd 0 (nth u ts [])); auto. apply (no_link N); eauto. }
  assert (L : forall c, In c comps -> length c = n).
  { intros c Hc. pose proof (co_some C Hc) as Ne. destruct c as [|t c0] eqn:Ec; [tauto|]. rewrite <- Ec in *. assert (Htc : In t c) by (rewrite Ec; left; auto).
    assert (Hall : forall u, In u c -> u < length ts) by (intros u Hu; apply (co_all C), in_concat; eauto). pose proof (Hall t Htc) as Ht.
    set (b := hd 0 (nth t ts []) / n_inds). rewrite <- (@no_count 0 m ts out N b).
    2:{ split; [lia|]. pose proof (proj1 (no_in N _) (Hin _ _ (Hhd t Ht))) as Hx. simpl in Hx. unfold b. apply Nat.div_lt_upper_bound; [lia|]. simpl. rewrite Nat.mul_comm. lia. }
    rewrite <- filter_seq_len. apply Permutation_length. apply nodup_same.
    - pose proof (co_once C) as CO. apply in_split in Hc. destruct Hc as (l1 & l2 & ->). rewrite concat_app in CO. simpl in CO. apply NoDup_app in CO. destruct CO as (_ & CO & _). apply NoDup_app in CO. tauto.
    - apply NoDup_filter', seq_NoDup.
    - intros u. rewrite filter_In, in_seq, (@co_conn _ _ C c t u Hc Htc), Nat.eqb_eq. split.
      + intros [A B]. split; [lia|]. symmetry. apply HC; auto.
      + intros [A B]. assert (Hu : u < length ts) by lia. split; auto. apply HC; auto. }
  split; auto. assert (LC : length (concat comps) = n * m).
  { rewrite <- (no_len N), <- (seq_length (length ts) 0). apply Permutation_length, nodup_same; [apply C|apply seq_NoDup|]. intros t. rewrite (co_all C), in_seq. lia. }
  assert (LC' : length (concat comps) = n * length comps). { clear - L. induction comps as [|c l IH]; simpl; [lia|]. rewrite app_length, L, IH by (intros; try apply L; simpl; auto). lia. }
  rewrite LC' in LC. apply Nat.mul_cancel_l in LC; lia.
Qed.

(** ** Names *)
Section Rename.
Variables (f : nat -> nat) (ts : list (list nat)).
Hypothesis inj : forall x y, In x (concat ts) -> In y (concat ts) -> f x = f y -> x = y.
Lemma in_tens xs x : In xs ts -> In x xs -> In x (concat ts).
Proof. intros. apply in_concat. eauto. Qed.
Lemma rename_random m out : random_network n n_inds k n_out m ts out -> random_network n n_inds k n_out m (map (map f) ts) (map f out).
Proof.
  intros N. destruct (rn_output N) as (O1 & O2 & O3). assert (Hc : forall x, In x (concat ts) -> holders (map (map f) ts) (f x) = holders ts x).
  { intros x Hx. unfold holders. rewrite concat_map_map. apply count_map. intros y Hy E. apply inj; auto. }
  constructor.
  - rewrite map_length. apply N.
  - rewrite <- (rn_inds N). rewrite (@nodup_len _ (map f (nodup Nat.eq_dec (concat ts)))); [apply map_length| |].
    + apply NoDup_map_in; [|apply NoDup_nodup]. intros x y. rewrite !nodup_In. apply inj.
    + intros x. rewrite concat_map_map, !in_map_iff. split; intros (y & E & H); exists y; rewrite nodup_In in *; auto.
  - rewrite map_length. split; auto. split; [apply NoDup_map_in; auto|]. rewrite concat_map_map. intros x Hx. apply in_map_iff in Hx. destruct Hx as (y & <- & Hy). apply in_map. auto.
  - apply NoDup_map_in; [|apply N]. intros xs ys Hx Hy. apply map_inj_in with (P := fun x => In x (concat ts)); auto; intros; apply in_concat; eauto.
  - intros xs Hx. apply in_map_iff in Hx. destruct Hx as (ys & <- & Hy). destruct (rn_once N ys Hy) as [E1 E2]. split; [destruct ys; [tauto|discriminate]|]. apply NoDup_map_in; auto. intros; apply inj; auto; eapply in_tens; eauto.
  - intros x Hx NO. rewrite concat_map_map in Hx. apply in_map_iff in Hx. destruct Hx as (y & <- & Hy). rewrite Hc by auto. apply (rn_inner N); auto. intros K. apply NO. apply in_map. auto.
  - intros x Hx. apply in_map_iff in Hx. destruct Hx as (y & <- & Hy). rewrite Hc by auto. apply (rn_outer N). auto.
Qed.
Lemma has_rename t x : has (map (map f) ts) t x <-> exists y, has ts t y /\ x = f y.
Proof.
  unfold has. rewrite nth_error_map. destruct (nth_error ts t) as [xs|]; simpl.
  - split.
    + intros (ys & E & H). injection E as <-. apply in_map_iff in H. destruct H as (y & <- & Hy). exists y. split; auto. exists xs. auto.
    + intros (y & (ys & E & H) & ->). injection E as <-. exists (map f xs). split; auto. apply in_map. auto.
  - split; [intros (ys & E & _); discriminate|intros (y & (ys & E & _) & _); discriminate].
Qed.
Lemma has_concat t x : has ts t x -> In x (concat ts).
Proof. intros (xs & A & B). apply nth_error_In in A. eapply in_tens; eauto. Qed.
Lemma conn_rename t u : connected (map (map f) ts) t u <-> connected ts t u.
Proof.
  split; intros H; induction H as [|t u v x H IH A B]; try constructor.
  - apply has_rename in A, B. destruct A as (y & A & E). destruct B as (z & B & E'). assert (y = z) by (apply inj; [eapply has_concat; eauto|eapply has_concat; eauto|congruence]). subst z. apply conn_step with u y; auto.
  - apply conn_step with u (f x); auto; apply has_rename; eauto.
Qed.
Lemma rename_components m : has_components n m ts -> has_components n m (map (map f) ts).
Proof.
  intros (comps & C & L). exists comps. split; auto. destruct C as [C1 C2 C3 C4 C5 C6]. constructor; auto.
  - intros t. rewrite map_length. auto.
  - intros c t u Hc Ht. rewrite map_length, conn_rename. auto.
Qed.
End Rename.
End Main.

Lemma more_names_ok names m : forall fuel i l r, more_names names m fuel i l = Ok r -> NoDup r /\ length r = m.
Proof.
  induction fuel as [|fuel IH]; intros i l r; simpl; [discriminate|]. destruct (Nat.eqb_spec (length (unique (l ++ [names i]))) m) as [E|E]; eauto. intros H. injection H as <-. split; auto. apply unique_nodup.
Qed.
Lemma random_inds_ok names fuel m seed r : generate_random_inds names fuel m seed = Ok r -> NoDup r /\ length r = m.
Proof. unfold generate_random_inds. destruct (Nat.eqb_spec m 0) as [->|]; [intros E; injection E as <-; split; auto; constructor|]. apply more_names_ok. Qed.
Lemma more_names_err names m : forall fuel i l e, more_names names m fuel i l = Err e -> e = Fuel.
Proof. induction fuel as [|fuel IH]; intros i l e; simpl; [congruence|]. destruct (_ =? m); [discriminate|]. apply IH. Qed.

Section Final.
Variables (R : Type) (g : rng R) (order : list nat -> list nat) (names : nat -> nat -> nat) (fuel : nat).
Hypothesis (Hg : rng_ok g) (Ho : order_ok order).
Variables (n n_inds k n_out n_cc : nat) (randomize : bool).
Hypothesis (Hk : 1 <= k).
Notation gen := (generate_random_tensors g order n n_inds k n_out n_cc randomize names fuel).
Definition enough : Prop := k <= n /\ n_out + n + 1 <= n_inds + k.

Lemma attempts_ok : enough -> n_out <= n_inds -> forall m r, match attempts g order n n_inds k n_out m r with Ok x => block_ok n n_inds k n_out (fst x) | Err e => e = Throw end.
Proof.
  intros [E1 E2] E3. induction m as [|m IH]; intros r; simpl; auto. destruct (@attempt_total R g order Hg Ho n n_inds k n_out Hk E1 ltac:(lia) E3 r) as ((o, r') & -> & H). cbn [bind fst] in *. destruct o; auto. apply IH.
Qed.
Lemma times_ok (A : Type) (P : A -> Prop) (f : R -> res (A * R)) : (forall r, match f r with Ok x => P (fst x) | Err e => e = Throw end) ->
  forall m r, match times f m r with Ok x => length (fst x) = m /\ Forall P (fst x) | Err e => e = Throw end.
Proof.
  intros H. induction m as [|m IH]; intros r; simpl; [auto|]. specialize (H r). destruct (f r) as [[a r1]|e]; cbn [bind]; auto. specialize (IH r1). destruct (times f m r1) as [[l r2]|e]; cbn [bind]; auto. destruct IH. simpl in *. split; auto.
Qed.
Lemma dict_combine (all new : list nat) x : NoDup all -> length new = length all -> In x all -> exists p, nth_error all p = Some x /\ exists y, nth_error new p = Some y /\ dict_get (combine all new) x = Ok y.
Proof.
  revert new. induction all as [|a all IH]; intros new N L H; [destruct H|]. destruct new as [|b new]; [discriminate|]. inversion N as [|? ? N1 N2]; subst. simpl. destruct (Nat.eqb_spec x a) as [->|Ne].
  - exists 0. split; auto. exists b. auto.
  - destruct H as [H|H]; [congruence|]. injection L as L. destruct (IH new N2 L H) as (p & A & y & B & C). exists (S p). split; auto. exists y. auto.
Qed.
Lemma mapM_ok (A B : Type) (f : A -> res B) (h : A -> B) l : (forall x, In x l -> f x = Ok (h x)) -> mapM f l = Ok (map h l).
Proof. induction l as [|a l IH]; intros H; auto. simpl. rewrite H by (left; auto). cbn [bind]. rewrite IH by (intros; apply H; right; auto). auto. Qed.

Theorem generate_ok r : match gen r with
  | Ok (ts, out) => enough /\ 1 <= n_cc /\ random_network n n_inds k n_out n_cc ts out /\ (2 <= k -> has_components n n_cc ts)
  | Err e => e = Throw \/ e = Fuel
  end.
Proof.
  unfold generate_random_tensors. destruct (Z.ltb_spec (Z.of_nat n_inds - Z.of_nat n_out) (Z.of_nat n + 1 - Z.of_nat k)) as [|H1]; [left; auto|]. destruct (Nat.ltb_spec n k) as [|H2]; [left; auto|]. cbn [orb].
  assert (E : enough) by (unfold enough; lia). assert (Ho' : n_out <= n_inds) by lia. assert (Hn : 1 <= n) by lia. assert (Hi : 1 <= n_inds) by lia.
  pose proof (times_ok (attempts_ok E Ho' 10) n_cc r) as T. destruct (times _ n_cc r) as [[l r1]|e]; cbn [bind]; [|auto]. cbn [fst] in T. destruct T as [L F].
  destruct (Nat.eqb_spec n_cc 0) as [|Hc]; [left; auto|]. pose proof (@combine_ok n n_inds k n_out Hk Hi Hn l 0 F) as N. rewrite L in N.
  set (T := combine_tensors n_inds 0 l) in *. set (O := combine_output n_inds 0 l) in *.
  pose proof (ro_shuffle Hg r1 (length T)) as P. destruct (rshuffle g r1 (length T)) as [ps r2]. cbn [fst] in P.
  destruct (@mapM_get _ T ps) as (T' & -> & F2). { intros p Hp. apply (Permutation_in _ P), in_seq in Hp. lia. } cbn [bind].
  assert (PT : Permutation T T').
  { assert (E1 : T' = map (fun p => nth p T []) ps). { clearbody T. clear - F2. induction F2 as [|p a ps T' E F IH]; simpl; auto. rewrite (nth_error_nth _ _ _ E), <- IH. auto. }
    assert (E2 : T = map (fun p => nth p T []) (seq 0 (length T))).
    { clearbody T. clear. induction T as [|a T IH] using rev_ind; auto. rewrite app_length, seq_app, map_app. cbn [length seq map]. f_equal.
      - rewrite IH at 1. apply map_ext_in. intros p Hp. apply in_seq in Hp. rewrite app_nth1 by lia. auto.
      - simpl. rewrite app_nth2 by lia. rewrite Nat.sub_diag. auto. }
    rewrite E2, E1. apply Permutation_map, Permutation_sym. auto. }
  apply (net_perm PT) in N. rewrite (unique_id (proj1 (no_outs N))).
  assert (RN : random_network n n_inds k n_out n_cc T' O) by exact (net_random Hk Hi Hn N). assert (HC : 2 <= k -> has_components n n_cc T') by (intros K2; exact (net_components Hk Hi Hn K2 N)).
  assert (Fin : forall ts out, random_network n n_inds k n_out n_cc ts out -> (length (unique_tuples ts) =? length ts) = true).
  { intros ts out Q. apply Nat.eqb_eq. unfold unique_tuples. rewrite nodup_fixed_point by apply Q. auto. }
  destruct randomize; cbn [bind].
  - destruct (generate_random_inds names fuel (length (unique (concat T'))) (fst (rseed g r2))) as [new|e] eqn:En; cbn [bind].
    2:{ right. unfold generate_random_inds in En. destruct (_ =? 0); [discriminate|]. apply more_names_err in En. auto. }
    apply random_inds_ok in En. destruct En as [N1 N2]. set (all := unique (concat T')) in *. assert (Na : NoDup all) by apply unique_nodup.
    set (f := fun x => match dict_get (combine all new) x with Ok y => y | Err _ => 0 end).
    assert (Hf : forall x, In x (concat T') -> dict_get (combine all new) x = Ok (f x)).
    { intros x Hx. destruct (@dict_combine all new x Na N2) as (p & _ & y & _ & E'); [apply unique_in; auto|]. unfold f. rewrite E'. auto. }
    assert (inj : forall x y, In x (concat T') -> In y (concat T') -> f x = f y -> x = y).
    { intros x y Hx Hy Ef. pose proof (Hf x Hx) as X. pose proof (Hf y Hy) as Y. destruct (@dict_combine all new x Na N2) as (p & P1 & v & P2 & P3); [apply unique_in; auto|].
      destruct (@dict_combine all new y Na N2) as (q & Q1 & w & Q2 & Q3); [apply unique_in; auto|]. assert (v = w) by congruence. subst w.
      rewrite NoDup_nth_error in N1. assert (p = q); [|subst; congruence]. apply N1; [|congruence]. apply nth_error_Some. congruence. }
    rewrite (mapM_ok (h := map f)). 2:{ intros xs Hxs. apply mapM_ok. intros x Hx. apply Hf, in_concat. eauto. } cbn [bind].
    rewrite (mapM_ok (h := f)). 2:{ intros x Hx. apply Hf. apply (rn_output RN). auto. } cbn [bind].
    assert (RN' : random_network n n_inds k n_out n_cc (map (map f) T') (map f O)) by exact (rename_random inj RN). rewrite (Fin _ _ RN'). cbn [negb]. split; auto. split; [lia|]. split; auto. intros K2. exact (rename_components inj (HC K2)).
  - rewrite (Fin _ _ RN). cbn [negb]. split; auto. split; [lia|]. split; auto.
Qed.
End Final.

Lemma few_raises (R : Type) (g : rng R) order names fuel n_cc b r n n_inds k n_out : n < k \/ n_inds + k < n_out + n + 1 ->
  generate_random_tensors g order n n_inds k n_out n_cc b names fuel r = Err Throw.
Proof.
  intros H. unfold generate_random_tensors. destruct (Z.ltb_spec (Z.of_nat n_inds - Z.of_nat n_out) (Z.of_nat n + 1 - Z.of_nat k)) as [|H1]; auto. destruct (Nat.ltb_spec n k); auto. lia.
Qed.
