(** A linear path as a run on binary trees whose internal nodes are numbered in the
    order of creation. *)
From Coq Require Import Permutation Sorted.
From Verif Require Import M_Base M_Tree M_Path M_PyTree S_Tree S_Path P_Base P_Path P_Split P_PathMain.
Set Implicit Arguments.
Unset Strict Implicit.

Fixpoint tm (S : bt) : term := match S with Lf t => S_Path.T t | Nd _ l r => join (tm l) (tm r) end.

Fixpoint brun (k : nat) (G : list bt) (p : path) : option (list bt * list bt) :=
  match p with
  | [] => Some ([], G)
  | (a, b) :: p' =>
      let '(x, y) := sort2 a b in
      if x =? y then None else
      match nth_error G x, nth_error G y with
      | Some l, Some r =>
          match brun (S k) (without x y G ++ [Nd k l r]) p' with
          | Some (bs, R) => Some (Nd k l r :: bs, R)
          | None => None
          end
      | _, _ => None
      end
  end.

Definition tri (b : bt) : triple := match b with Lf p => (p, p, p) | Nd p l r => (top l, top r, p) end.

Lemma brun_ok p : forall k G cs rest, NoDup (alltens (map tm G)) -> perform (map tm G) p = Some (cs, rest) ->
  exists bs R, brun k G p = Some (bs, R) /\ map tm bs = cs /\ map tm R = rest.
Proof.
  induction p as [|(a, b) p IH]; intros k G cs rest HN Hp.
  - inversion Hp; subst. exists [], G. auto.
  - destruct (perform_cons HN Hp) as (x & y & u & v & cs' & Es & Hlt & Hu & Hv & -> & Hp').
    rewrite nth_error_map in Hu, Hv.
    destruct (nth_error G x) as [l|] eqn:El; [|discriminate]. destruct (nth_error G y) as [r|] eqn:Er; [|discriminate].
    simpl in Hu, Hv. inversion Hu; inversion Hv; subst u v.
    assert (E : map tm (without x y G ++ [Nd k l r]) = without x y (map tm G) ++ [join (tm l) (tm r)]).
    { rewrite map_app, without_map. auto. }
    rewrite <- E in Hp'.
    destruct (IH (S k) _ _ _ ltac:(rewrite E; apply (step_nodup (x := x) (y := y) (a := tm l) (b := tm r)); try (rewrite nth_error_map, ?El, ?Er; auto); auto; lia) Hp')
      as (bs & R & E1 & E2 & E3).
    exists (Nd k l r :: bs), R. simpl. rewrite Es. destruct (Nat.eqb_spec x y); [lia|]. rewrite El, Er, E1, E2. auto.
Qed.

Lemma brun_inv k G a b p bs R : brun k G ((a, b) :: p) = Some (bs, R) ->
  exists x y l r bs', sort2 a b = (x, y) /\ x <> y /\ nth_error G x = Some l /\ nth_error G y = Some r /\
    bs = Nd k l r :: bs' /\ brun (S k) (without x y G ++ [Nd k l r]) p = Some (bs', R).
Proof.
  simpl. destruct (sort2 a b) as (x, y) eqn:Es. destruct (Nat.eqb_spec x y) as [|Hn]; [discriminate|].
  destruct (nth_error G x) as [l|] eqn:El; [|discriminate]. destruct (nth_error G y) as [r|] eqn:Er; [|discriminate].
  destruct (brun _ _ p) as [(bs', R')|] eqn:E; [|discriminate]. intros H. inversion H; subst.
  exists x, y, l, r, bs'. repeat (split; auto).
Qed.

Lemma sort2_le a b x y : sort2 a b = (x, y) -> x <= y.
Proof. unfold sort2. destruct (Nat.leb_spec a b); intros E; inversion E; subst; lia. Qed.

Lemma brun_contr p : forall k G bs R, brun k G p = Some (bs, R) -> contraction_from p k (map top G) = Ok (map tri bs).
Proof.
  induction p as [|(a, b) p IH]; intros k G bs R H.
  - simpl in H. inversion H; subst. auto.
  - destruct (brun_inv H) as (x & y & l & r & bs' & Es & Hn & El & Er & -> & E). pose proof (sort2_le Es) as Hle.
    destruct (@pop_two _ (map top G) x y (top l) (top r)) as (l1 & P1 & P2); try (rewrite nth_error_map, ?El, ?Er; auto); [lia|].
    cbn [contraction_from]. rewrite Es, P1. cbn [bind]. rewrite P2. cbn [bind].
    specialize (IH _ _ _ _ E). rewrite map_app, <- without_map in IH. simpl in IH. rewrite IH. cbn [bind]. auto.
Qed.

Lemma brun_tops p : forall k G bs R, brun k G p = Some (bs, R) -> map top bs = seq k (length p).
Proof.
  induction p as [|(a, b) p IH]; intros k G bs R H.
  - simpl in H. inversion H; subst. auto.
  - destruct (brun_inv H) as (x & y & l & r & bs' & Es & Hn & El & Er & -> & E). simpl. f_equal. eapply IH; eauto.
Qed.
Lemma brun_nd p : forall k G bs R, brun k G p = Some (bs, R) -> forall b, In b bs -> exists q l r, b = Nd q l r.
Proof.
  induction p as [|(a, b) p IH]; intros k G bs R H.
  - simpl in H. inversion H; subst. simpl. tauto.
  - destruct (brun_inv H) as (x & y & l & r & bs' & Es & Hn & El & Er & -> & E). intros b' [<-|Hb]; eauto.
Qed.

Definition allpos (G : list bt) : list nat := flat_map positions G.
Lemma allpos_perm G G' : Permutation G G' -> Permutation (allpos G) (allpos G').
Proof. apply Permutation_flat_map. Qed.

Lemma brun_perm p : forall k G bs R, brun k G p = Some (bs, R) -> Permutation (allpos R) (allpos G ++ seq k (length p)).
Proof.
  induction p as [|(a, b) p IH]; intros k G bs R H.
  - simpl in H. inversion H; subst. rewrite app_nil_r. auto.
  - destruct (brun_inv H) as (x & y & l & r & bs' & Es & Hn & El & Er & -> & E). rewrite (IH _ _ _ _ E). simpl.
    rewrite (allpos_perm (without_perm Hn El Er)). unfold allpos. rewrite flat_map_app. simpl. rewrite app_nil_r.
    set (W := flat_map positions (without x y G)). set (Q := seq (S k) (length p)).
    rewrite <- !app_assoc. simpl. rewrite (Permutation_app_comm W). simpl. rewrite <- !app_assoc.
    transitivity (k :: (positions l ++ positions r ++ W) ++ Q).
    + constructor. rewrite <- !app_assoc. do 2 apply Permutation_app_head. apply Permutation_app_comm.
    + rewrite <- !app_assoc. rewrite !app_assoc. rewrite Permutation_middle. reflexivity.
Qed.

Lemma sub_trans S R T : subtree S R -> subtree R T -> subtree S T.
Proof. intros H1 H2. induction H2; auto; [apply sub_left|apply sub_right]; auto. Qed.

Lemma brun_sub p : forall k G bs R, brun k G p = Some (bs, R) ->
  forall S, In S G \/ In S bs -> exists U, In U R /\ subtree S U.
Proof.
  induction p as [|(a, b) p IH]; intros k G bs R H S HS.
  - simpl in H. inversion H; subst. destruct HS as [HS|[]]. exists S. split; auto. constructor.
  - destruct (brun_inv H) as (x & y & l & r & bs' & Es & Hn & El & Er & -> & E). specialize (IH _ _ _ _ E).
    destruct (IH (Nd k l r)) as (U & HU & SU); [left; apply in_app_iff; simpl; auto|].
    destruct HS as [HS|[<-|HS]]; eauto. rewrite (without_perm Hn El Er) in HS. destruct HS as [<-|[<-|HS]].
    + exists U. split; auto. eapply sub_trans; [apply sub_left; constructor|eauto].
    + exists U. split; auto. eapply sub_trans; [apply sub_right; constructor|eauto].
    + apply IH. left. apply in_app_iff. auto.
Qed.

Lemma brun_int p : forall k G bs R, brun k G p = Some (bs, R) ->
  forall U S, In U R -> subtree S U -> (exists V, In V G /\ subtree S V) \/ In S bs.
Proof.
  induction p as [|(a, b) p IH]; intros k G bs R H U S HU HS.
  - simpl in H. inversion H; subst. eauto.
  - destruct (brun_inv H) as (x & y & l & r & bs' & Es & Hn & El & Er & -> & E).
    destruct (IH _ _ _ _ E U S HU HS) as [(V & HV & SV)|Hb]; [|right; simpl; auto].
    assert (PG := without_perm Hn El Er). apply in_app_iff in HV. destruct HV as [HV|[<-|[]]].
    + left. exists V. split; auto. rewrite PG. simpl. auto.
    + inversion SV; subst.
      * right. simpl. auto.
      * left. exists l. split; auto. eapply nth_error_In; eauto.
      * left. exists r. split; auto. eapply nth_error_In; eauto.
Qed.

(** Numbers grow towards the root. *)
Fixpoint heap (S : bt) : Prop :=
  match S with
  | Lf _ => True
  | Nd p l r => (forall v, In v (positions l) \/ In v (positions r) -> v < p) /\ heap l /\ heap r
  end.
Lemma brun_heap p : forall k G bs R, brun k G p = Some (bs, R) ->
  (forall S, In S G -> heap S /\ forall v, In v (positions S) -> v < k) ->
  forall S, In S R -> heap S.
Proof.
  induction p as [|(a, b) p IH]; intros k G bs R H HG S HS.
  - simpl in H. inversion H; subst. apply HG. auto.
  - destruct (brun_inv H) as (x & y & l & r & bs' & Es & Hn & El & Er & -> & E). apply (IH _ _ _ _ E); auto.
    intros V HV. apply in_app_iff in HV. destruct (HG l (nth_error_In _ _ El)) as (L1 & L2). destruct (HG r (nth_error_In _ _ Er)) as (R1 & R2).
    destruct HV as [HV|[<-|[]]].
    + assert (HV' : In V G) by (rewrite (without_perm Hn El Er); simpl; auto). destruct (HG V HV') as (H1 & H2).
      split; auto. intros v Hv. specialize (H2 v Hv). lia.
    + simpl. split; [split; auto; intros v [Hv|Hv]; auto|]. intros v [<-|Hv]; [lia|]. apply in_app_iff in Hv.
      destruct Hv as [Hv|Hv]; [apply L2 in Hv|apply R2 in Hv]; lia.
Qed.
Lemma heap_top S : heap S -> forall v, In v (positions S) -> v <= top S.
Proof. destruct S as [p|p l r]; simpl; [intros _ v [<-|[]]; lia|]. intros (H & _) v [<-|Hv]; auto. apply in_app_iff in Hv. apply H in Hv. lia. Qed.

Lemma tm_leaves S : Permutation (tensors (tm S)) (leaves S).
Proof. induction S as [t|p l IHl r IHr]; simpl; auto. rewrite (join_tensors (tm l) (tm r)), IHl, IHr. auto. Qed.
Lemma sub_tm S U : subtree S U -> incl (tensors (tm S)) (tensors (tm U)).
Proof.
  intros H. induction H as [|p l r H IH|p l r H IH]; [apply incl_refl| |]; intros t Ht; simpl; rewrite (join_tensors (tm l) (tm r)); apply in_app_iff; auto.
Qed.
Lemma leaves_pos S t : In t (leaves S) -> In t (positions S).
Proof. induction S; simpl; auto. rewrite !in_app_iff. tauto. Qed.
Lemma sub_pos S U v : subtree S U -> In v (positions S) -> In v (positions U).
Proof. intros H. induction H; auto; simpl; rewrite in_app_iff; auto. Qed.
Lemma top_pos S : In (top S) (positions S).
Proof. destruct S; simpl; auto. Qed.

(** ** The root of a path that ends in one tensor *)
Section Root.
Variables (n : nat) (p : path) (cs rest : list term) (root : term).
Hypothesis Hp : performs n p cs rest.
Hypothesis Hroot : In root rest.
Hypothesis Hall : forall c, In c cs -> incl (tensors c) (tensors root).
Hypothesis Hne : p <> [].

Let G0 := map Lf (seq 0 n).


Record root_tree (bs : list bt) (R : bt) : Prop := {
  rt_run : exists rest', brun n G0 p = Some (bs, rest');
  rt_cs  : map tm bs = cs;
  rt_c   : contraction_from p n (seq 0 n) = Ok (map tri bs);
  rt_tm  : tm R = root;
  rt_top : top R = n + length p - 1;
  rt_tops : map top bs = seq n (length p);
  rt_nd  : NoDup (positions R);
  rt_int : forall S, subtree S R -> In S bs \/ exists t, S = Lf t /\ t < n;
  rt_bs  : forall S, In S bs -> subtree S R /\ exists q l r, S = Nd q l r;
  rt_lv  : forall t, In t (leaves R) -> t < n;
  rt_lf  : forall t, In t (leaves R) <-> In t (tensors root);
  rt_hp  : heap R
}.

Lemma in_flat_same (A : Type) (f : A -> list nat) (l : list A) a b t :
  NoDup (flat_map f l) -> In a l -> In b l -> In t (f a) -> In t (f b) -> a = b.
Proof.
  induction l as [|c l IH]; simpl; [tauto|]. intros HN Ha Hb Hta Htb. apply NoDup_app in HN. destruct HN as (_ & HN & HD).
  destruct Ha as [->|Ha], Hb as [->|Hb]; auto.
  - exfalso. apply (HD t Hta). apply in_flat_map. eauto.
  - exfalso. apply (HD t Htb). apply in_flat_map. eauto.
Qed.

Lemma build_root : exists bs R, root_tree bs R.
Proof.
  assert (Etm : map tm G0 = map S_Path.T (seq 0 n)) by (unfold G0; rewrite map_map; auto).
  pose proof Hp as Hp'. unfold performs in Hp'. rewrite <- Etm in Hp'.
  destruct (brun_ok n (G := G0) (p := p) (cs := cs) (rest := rest)) as (bs & R' & E1 & E2 & E3); auto.
  { rewrite Etm, alltens_start. apply seq_NoDup. }
  assert (Hr : exists R, In R R' /\ tm R = root).
  { rewrite <- E3 in Hroot. apply in_map_iff in Hroot. destruct Hroot as (R & H1 & H2). eauto. }
  destruct Hr as (R & HR & Htm). exists bs, R.
  assert (P0 : allpos G0 = seq 0 n).
  { unfold allpos, G0. rewrite flat_map_concat_map, map_map. simpl. generalize (seq 0 n). induction l; simpl; congruence. }
  assert (PR := brun_perm E1). rewrite P0 in PR.
  assert (NR : NoDup (allpos R')).
  { eapply Permutation_NoDup; [symmetry; exact PR|]. apply NoDup_app. split; [apply seq_NoDup|]. split; [apply seq_NoDup|].
    intros v H1 H2. apply in_seq in H1. apply in_seq in H2. lia. }
  assert (Hint : forall S, subtree S R -> In S bs \/ exists t, S = Lf t /\ t < n).
  { intros S HS. destruct (brun_int E1 HR HS) as [(V & HV & SV)|Hb]; auto. right. unfold G0 in HV. apply in_map_iff in HV.
    destruct HV as (t & <- & Ht). inversion SV; subst. exists t. split; auto. apply in_seq in Ht. lia. }
  assert (Hbs : forall S, In S bs -> subtree S R).
  { intros S HS. destruct (brun_sub E1 (or_intror HS)) as (U & HU & SU).
    assert (In (tm S) cs) as Hcs by (rewrite <- E2; apply in_map; auto).
    assert (Hin : In (first_tensor (tm S)) (tensors (tm R))) by (rewrite Htm; apply (Hall Hcs); apply first_in).
    assert (Hin2 : In (first_tensor (tm S)) (tensors (tm U))) by (apply (sub_tm SU); apply first_in).
    assert (U = R); [|subst; auto]. rewrite tm_leaves in Hin, Hin2. apply leaves_pos in Hin. apply leaves_pos in Hin2.
    eapply (in_flat_same NR HU HR); eauto. }
  assert (NdR : NoDup (positions R)).
  { apply in_split in HR. destruct HR as (l1 & l2 & ->). unfold allpos in NR. rewrite flat_map_app in NR. simpl in NR.
    apply NoDup_app in NR. destruct NR as (_ & NR & _). apply NoDup_app in NR. tauto. }
  assert (Hheap : heap R).
  { apply (brun_heap E1); auto. intros S HS. unfold G0 in HS. apply in_map_iff in HS. destruct HS as (t & <- & Ht).
    simpl. split; auto. intros v [<-|[]]. apply in_seq in Ht. lia. }
  assert (Htops := brun_tops E1).
  assert (Hlt : forall v, In v (positions R) -> v < n + length p).
  { intros v Hv. assert (Hv' : In v (allpos R')) by (apply in_flat_map; eauto). rewrite PR, in_app_iff, !in_seq in Hv'. lia. }
  constructor; eauto.
  - pose proof (brun_contr E1) as Hc. assert (map top G0 = seq 0 n) as Et by (unfold G0; rewrite map_map; apply map_id).
    rewrite Et in Hc. auto.
  - destruct (length p) as [|m] eqn:El; [destruct p; [congruence|discriminate]|].
    assert (Hin : In (n + m) (positions R)).
    { assert (H : In (n + m) (map top bs)) by (rewrite Htops; apply in_seq; lia). apply in_map_iff in H.
      destruct H as (b & <- & Hb). apply (sub_pos (Hbs b Hb)). apply top_pos. }
    pose proof (heap_top Hheap Hin). pose proof (Hlt _ (top_pos R)). lia.
  - intros S HS. split; auto. eapply brun_nd; eauto.
  - intros t Ht. assert (HS : subtree (Lf t) R).
    { clear -Ht. induction R as [q|q l IHl r IHr]; simpl in Ht; [destruct Ht as [<-|[]]; constructor|].
      apply in_app_iff in Ht. destruct Ht; [apply sub_left|apply sub_right]; auto. }
    destruct (Hint _ HS) as [Hb|(t' & E & Ht')]; [|congruence]. destruct (brun_nd E1 Hb) as (q & l & r & E). discriminate.
  - intros t. rewrite <- Htm. rewrite tm_leaves. tauto.
Qed.
End Root.
