(** Pairwise contraction with hyper-counts: the indices of the intermediate tensors.
    Shared by fuse and contract. *)
From Coq Require Import List Arith Bool Lia Permutation.
Import ListNotations.
From Verif Require Import M_Base M_Path M_PyTree M_Random S_Path S_Random P_Path P_Split P_PathMain P_PyBuild P_PyTens P_RandColor P_RandLoop P_RandComp P_RandMain S_PyTree S_Network.
Set Implicit Arguments.
Unset Strict Implicit.

Section Forest.
Variable ts : list (list nat).
Variable out : list nat.
Let n := length ts.

Notation item := (list nat * term)%type.
Definition cnt (F : list item) (x : nat) : nat := length (filter (fun f => memb x (fst f)) F).
Definition alls (F : list item) : list nat := alltens (map snd F).

Record fgood (F : list item) (h : nat -> nat) : Prop := {
  fg_perm : Permutation (alls F) (seq 0 n);
  fg_item : forall X a, In (X, a) F -> NoDup X /\ forall x, In x X <-> stays ts out (tensors a) x;
  fg_h : forall x, h x = cnt F x - 1
}.

Lemma fg_nodup F h : fgood F h -> NoDup (alls F).
Proof. intros H. apply (Permutation_NoDup (Permutation_sym (fg_perm H))). apply seq_NoDup. Qed.
Lemma cnt_perm F F' x : Permutation F F' -> cnt F x = cnt F' x.
Proof. intros H. unfold cnt. apply Permutation_length. apply filter_perm. auto. Qed.
Lemma alls_perm F F' : Permutation F F' -> Permutation (alls F) (alls F').
Proof. intros H. unfold alls. apply alltens_perm. apply Permutation_map. auto. Qed.
Lemma fgood_perm F F' h : Permutation F F' -> fgood F h -> fgood F' h.
Proof.
  intros P H. constructor.
  - rewrite <- (fg_perm H). symmetry. apply alls_perm. auto.
  - intros X a Hi. apply (fg_item H). apply (Permutation_in _ (Permutation_sym P)). auto.
  - intros x. rewrite (fg_h H), (cnt_perm x P). auto.
Qed.
Lemma cnt_cons X a F x : cnt ((X, a) :: F) x = (if memb x X then 1 else 0) + cnt F x.
Proof. unfold cnt. simpl. destruct (memb x X); auto. Qed.
Lemma cnt_pos F x : 0 < cnt F x <-> exists X a, In (X, a) F /\ In x X.
Proof.
  induction F as [|(X, a) F IH]; simpl.
  - unfold cnt. simpl. split; [lia|intros (X & a & [] & _)].
  - rewrite cnt_cons. destruct (memb x X) eqn:M.
    + split; [|lia]. intros _. exists X, a. split; auto. apply memb_In. auto.
    + simpl. rewrite IH. apply memb_nIn in M. split.
      * intros (Y & b & A & B). exists Y, b. auto.
      * intros (Y & b & [A|A] & B); [inversion A; subst; tauto|eauto].
Qed.
Lemma in_alls F t : In t (alls F) <-> exists X a, In (X, a) F /\ In t (tensors a).
Proof.
  unfold alls, alltens. rewrite in_flat_map. split.
  - intros (a & A & B). apply in_map_iff in A. destruct A as ((X & a') & <- & A). eauto.
  - intros (X & a & A & B). exists a. split; auto. apply in_map_iff. exists (X, a). auto.
Qed.
Lemma has_lt t x : has ts t x -> t < n.
Proof. intros (xs & A & _). apply nth_error_Some. congruence. Qed.

Lemma fgood_step F h X a Y b W zs h' : fgood F h -> Permutation F ((X, a) :: (Y, b) :: W) ->
  NoDup zs -> (forall x, In x zs <-> (In x X /\ ~ In x Y) \/ (In x Y /\ ~ In x X) \/ (In x X /\ In x Y /\ (1 < h x \/ In x out))) ->
  (forall x, h' x = h x - (if memb x X && memb x Y then 1 else 0)) ->
  fgood ((zs, join a b) :: W) h' /\ (forall x, In x X -> In x Y -> 0 < h x /\ share ts (tensors a) (tensors b)).
Proof.
  intros H0 P Nz Hz Hh'. pose proof (fgood_perm P H0) as H. clear H0 P F.
  destruct (fg_item H (or_introl eq_refl)) as [NX HX]. destruct (fg_item H (or_intror (or_introl eq_refl))) as [NY HY].
  assert (HW : forall Z c, In (Z, c) W -> NoDup Z /\ forall x, In x Z <-> stays ts out (tensors c) x).
  { intros Z c Hc. apply (fg_item H). right. right. auto. }
  pose proof (fg_nodup H) as ND. unfold alls in ND. simpl in ND.
  apply NoDup_app in ND. destruct ND as (Na & NDW & Dab). apply NoDup_app in NDW. destruct NDW as (Nb & NW & DbW).
  assert (Dab1 : forall t, In t (tensors a) -> In t (tensors b) -> False) by (intros t A B; apply (Dab t A), in_app_iff; auto).
  assert (DaW : forall Z c t, In (Z, c) W -> In t (tensors a) -> In t (tensors c) -> False).
  { intros Z c t Hc A B. apply (Dab t A), in_app_iff. right. apply in_alls. eauto. }
  assert (DbW' : forall Z c t, In (Z, c) W -> In t (tensors b) -> In t (tensors c) -> False).
  { intros Z c t Hc A B. apply (DbW t A). apply in_alls. eauto. }
  assert (Hloc : forall t, t < n -> In t (tensors a) \/ In t (tensors b) \/ exists Z c, In (Z, c) W /\ In t (tensors c)).
  { intros t Ht. assert (A : In t (alls ((X, a) :: (Y, b) :: W))) by (apply (Permutation_in _ (Permutation_sym (fg_perm H))), in_seq; lia).
    apply in_alls in A. destruct A as (Z & c & [A|[A|A]] & B); [inversion A; subst; auto|inversion A; subst; auto|]. right. right. eauto. }
  assert (Hcx : forall x, h x = (if memb x X then 1 else 0) + ((if memb x Y then 1 else 0) + cnt W x) - 1).
  { intros x. rewrite (fg_h H), !cnt_cons. auto. }
  assert (S1 : forall x t u, In t (tensors a) -> has ts t x -> ~ In u (tensors a) -> has ts u x -> In x X).
  { intros x t u A B D E. apply HX. split; [exists t; auto|]. right. right. exists u. split; [apply (has_lt E)|]. auto. }
  assert (S2 : forall x t u, In t (tensors b) -> has ts t x -> ~ In u (tensors b) -> has ts u x -> In x Y).
  { intros x t u A B D E. apply HY. split; [exists t; auto|]. right. right. exists u. split; [apply (has_lt E)|]. auto. }
  assert (W1 : forall x, 0 < cnt W x -> exists u, has ts u x /\ ~ In u (tensors a) /\ ~ In u (tensors b)).
  { intros x Hc. apply cnt_pos in Hc. destruct Hc as (Z & c & A & B). apply (HW Z c A) in B. destruct B as ((u & B1 & B2) & _). exists u. split; auto.
    split; intros K; [apply (DaW Z c u)|apply (DbW' Z c u)]; auto. }
  assert (W2 : forall x t u, has ts u x -> ~ In u (tensors a) -> ~ In u (tensors b) -> has ts t x -> In t (tensors a) \/ In t (tensors b) -> 0 < cnt W x).
  { intros x t u A B D E F. destruct (Hloc u (has_lt A)) as [K|[K|(Z & c & K1 & K2)]]; try tauto. apply cnt_pos. exists Z, c. split; auto.
    apply (HW Z c K1). split; [exists u; auto|]. right. right. exists t. split; [apply (has_lt E)|]. split; auto. intros K. destruct F as [F|F]; [apply (DaW Z c t)|apply (DbW' Z c t)]; auto. }
  split; [constructor|].
  - rewrite <- (fg_perm H). unfold alls. simpl. rewrite app_assoc. apply Permutation_app_tail. apply join_tensors.
  - intros Z c [E|Hc]; [|apply HW; auto]. inversion E; subst Z c. split; auto. intros x. rewrite Hz. split.
    + intros [[A B]|[[A B]|[A [B D]]]].
      * apply HX in A. destruct A as ((t & A1 & A2) & A3). split; [exists t; rewrite in_tens_join; auto|].
        destruct A3 as [A3|[A3|(u & U1 & U2 & U3)]]; auto. right. right. exists u. split; auto. split; auto.
        rewrite in_tens_join. intros [K|K]; auto. apply B. apply (S2 x u t); auto. intros K'. apply (Dab1 t); auto.
      * apply HY in A. destruct A as ((t & A1 & A2) & A3). split; [exists t; rewrite in_tens_join; auto|].
        destruct A3 as [A3|[A3|(u & U1 & U2 & U3)]]; auto. right. right. exists u. split; auto. split; auto.
        rewrite in_tens_join. intros [K|K]; auto. apply B. apply (S1 x u t); auto. intros K'. apply (Dab1 t); auto.
      * pose proof A as A'. apply HX in A. destruct A as ((t & A1 & A2) & A3). split; [exists t; rewrite in_tens_join; auto|].
        destruct D as [D|D]; auto. right. right. rewrite Hcx in D. apply memb_In in A'. apply memb_In in B. rewrite A', B in D.
        destruct (W1 x) as (u & U1 & U2 & U3); [lia|]. exists u. split; [apply (has_lt U1)|]. split; auto. rewrite in_tens_join. tauto.
    + intros ((t & A1 & A2) & A3). rewrite in_tens_join in A1.
      assert (Ha : forall t, In t (tensors a) -> has ts t x -> In x X).
      { intros t' B1 B2. apply HX. split; [exists t'; auto|]. destruct A3 as [A3|[A3|(u & U1 & U2 & U3)]]; auto. right. right. exists u.
        rewrite in_tens_join in U2. tauto. }
      assert (Hb : forall t, In t (tensors b) -> has ts t x -> In x Y).
      { intros t' B1 B2. apply HY. split; [exists t'; auto|]. destruct A3 as [A3|[A3|(u & U1 & U2 & U3)]]; auto. right. right. exists u.
        rewrite in_tens_join in U2. tauto. }
      destruct (in_dec Nat.eq_dec x X) as [IX|IX], (in_dec Nat.eq_dec x Y) as [IY|IY]; try tauto.
      * right. right. split; auto. split; auto. destruct A3 as [A3|[A3|(u & U1 & U2 & U3)]]; auto.
        -- exfalso. apply HX in IX. apply HY in IY. destruct IX as ((v & V1 & V2) & _). destruct IY as ((w & W3 & W4) & _).
           destruct A3 as (d & D). assert (v = d) by (apply D; auto). assert (w = d) by (apply D; auto). subst v w. apply (Dab1 d); auto.
        -- left. rewrite Hcx. pose proof IX as IX'. apply memb_In in IX. apply memb_In in IY. rewrite IX, IY.
           apply HX in IX'. destruct IX' as ((v & V1 & V2) & _). rewrite in_tens_join in U2.
           assert (0 < cnt W x) by (apply (W2 x v u); auto; tauto). lia.
      * exfalso. destruct A1 as [A1|A1]; [apply IX, (Ha t)|apply IY, (Hb t)]; auto.
  - intros x. rewrite Hh', Hcx, cnt_cons.
    destruct (memb x X) eqn:MX, (memb x Y) eqn:MY; cbn [andb].
    + apply memb_In in MX. apply memb_In in MY. destruct (memb x zs) eqn:MZ; [lia|].
      apply memb_nIn in MZ. rewrite Hz, Hcx in MZ. apply memb_In in MX. apply memb_In in MY. rewrite MX, MY in MZ. apply memb_In in MX. apply memb_In in MY.
      assert (~ 1 < 1 + (1 + cnt W x) - 1) by tauto. lia.
    + apply memb_In in MX. apply memb_nIn in MY. rewrite (proj2 (memb_In x zs)) by (apply Hz; tauto). lia.
    + apply memb_In in MY. apply memb_nIn in MX. rewrite (proj2 (memb_In x zs)) by (apply Hz; tauto). lia.
    + apply memb_nIn in MX, MY. rewrite (proj2 (memb_nIn x zs)) by (rewrite Hz; tauto). lia.
  - intros x A B. rewrite Hcx. pose proof A as A'. pose proof B as B'. apply memb_In in A. apply memb_In in B. rewrite A, B. split; [lia|].
    apply HX in A'. apply HY in B'. destruct A' as ((t & T1 & T2) & _). destruct B' as ((u & U1 & U2) & _). exists t, u, x. auto.
Qed.

(** The start: the tensors themselves. *)
Definition fstart : list item := combine ts (map S_Path.T (seq 0 n)).
Lemma fstart_in X a : In (X, a) fstart <-> exists t, nth_error ts t = Some X /\ a = S_Path.T t.
Proof.
  unfold fstart. assert (H : forall (l : list (list nat)) s, In (X, a) (combine l (map S_Path.T (seq s (length l)))) <-> exists t, nth_error l t = Some X /\ a = S_Path.T (s + t)).
  { induction l as [|Y l IH]; intros s; simpl.
    - split; [intros []|]. intros ([|t] & A & _); discriminate.
    - rewrite IH. split.
      + intros [E|(t & A & B)]; [inversion E; subst; exists 0; rewrite Nat.add_0_r; auto|]. exists (S t). rewrite Nat.add_succ_r. auto.
      + intros ([|t] & A & B); simpl in A; [left; inversion A; subst; rewrite Nat.add_0_r; auto|]. right. exists t. rewrite Nat.add_succ_r in B. auto. }
  apply (H ts 0).
Qed.
Lemma fstart_fst : map fst fstart = ts.
Proof.
  unfold fstart. assert (H : forall (l : list (list nat)) s, map fst (combine l (map S_Path.T (seq s (length l)))) = l).
  { induction l as [|Y l IH]; intros s; simpl; auto. f_equal. auto. } apply H.
Qed.
Lemma fstart_snd : map snd fstart = map S_Path.T (seq 0 n).
Proof.
  unfold fstart, n. assert (H : forall (l : list (list nat)) s, map snd (combine l (map S_Path.T (seq s (length l)))) = map S_Path.T (seq s (length l))).
  { induction l as [|Y l IH]; intros s; simpl; auto. f_equal. auto. } apply H.
Qed.
Lemma has_dec t x : {has ts t x} + {~ has ts t x}.
Proof.
  unfold has. destruct (nth_error ts t) as [xs|] eqn:E.
  - destruct (in_dec Nat.eq_dec x xs) as [I|I]; [left; eauto|right]. intros (ys & A & B). inversion A; subst. auto.
  - right. intros (ys & A & B). discriminate.
Qed.
Lemma stays_one t x : stays ts out [t] x <-> has ts t x.
Proof.
  split.
  - intros ((u & [<-|[]] & H) & _). auto.
  - intros H. split; [exists t; simpl; auto|].
    destruct (Exists_dec (fun u => u <> t /\ has ts u x) (seq 0 n)) as [E|E].
    { intros u. destruct (Nat.eq_dec u t) as [|N]; [right; tauto|]. destruct (has_dec u x); [left; auto|right; tauto]. }
    + apply Exists_exists in E. destruct E as (u & U1 & U2 & U3). right. right. exists u. apply in_seq in U1. split; [lia|]. split; auto. simpl. intuition.
    + right. left. exists t. intros u. split; [|intros ->; auto]. intros Hu. destruct (Nat.eq_dec u t) as [|N]; auto. exfalso. apply E. apply Exists_exists.
      exists u. split; auto. apply in_seq. apply has_lt in Hu. lia.
Qed.
Lemma cnt_start x : cnt fstart x = length (filter (memb x) ts).
Proof.
  transitivity (length (filter (memb x) (map fst fstart))); [|rewrite fstart_fst; auto]. unfold cnt. induction fstart as [|(X, a) F IH]; simpl; auto. destruct (memb x X); simpl; auto.
Qed.
Lemma fgood_start h : (forall xs, In xs ts -> NoDup xs) -> (forall x, h x = length (filter (memb x) ts) - 1) -> fgood fstart h.
Proof.
  intros HN Hh. constructor.
  - unfold alls. rewrite fstart_snd, alltens_start. auto.
  - intros X a Hi. apply fstart_in in Hi. destruct Hi as (t & E & ->). split; [apply HN; eapply nth_error_In; eauto|].
    intros x. simpl. rewrite stays_one. split; [intros I; exists X; auto|]. intros (Y & A & B). rewrite E in A. inversion A; subst. auto.
  - intros x. rewrite Hh, cnt_start. auto.
Qed.
End Forest.
