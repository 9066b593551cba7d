(** Final forms for C26 and C27. *)
From Coq Require Import Permutation Sorted.
From Verif Require Import M_Base M_Path S_Path P_Base P_Path P_Split.
Set Implicit Arguments.
Unset Strict Implicit.

Lemma touched_alltens cs t : touched cs t <-> In t (alltens cs).
Proof. unfold touched, alltens. rewrite in_flat_map. tauto. Qed.

Lemma perform_left (p : path) : forall ts cs r, perform ts p = Some (cs, r) -> 0 < length ts -> 0 < length r.
Proof.
  induction p as [|(x, y) p IH]; intros ts cs r H Hl; simpl in H; [congruence|].
  destruct (x =? y); [discriminate|]. destruct (nth_error ts x) as [a|]; [|discriminate]. destruct (nth_error ts y) as [b|]; [|discriminate].
  destruct (perform _ p) as [(cs', r')|] eqn:E; [|discriminate]. inversion H; subst. apply (IH _ _ _ E). rewrite app_length. simpl. lia.
Qed.

Lemma c26_merge n ps css auto :
  Forall2 (fun p cs => exists rest, performs n p cs rest) ps css ->
  (forall a b cs cs' t, nth_error css a = Some cs -> nth_error css b = Some cs' -> a <> b -> touched cs t -> ~ touched cs' t) ->
  exists p extra rest, merge_paths n ps auto = Ok p /\ performs n p (concat css ++ extra) rest /\
    (auto = false -> extra = []) /\ (auto = true -> 0 < n -> length p = n - 1 /\ exists t, rest = [t]).
Proof.
  intros HF HD. unfold performs in *.
  destruct (merge_all_ok (ps := ps) (css := css) [] (ginv_start n)) as (M & q & E1 & E2); auto.
  { intros a b cs cs' Ha Hb Hn t. rewrite <- !touched_alltens. eapply HD; eauto. }
  simpl in E1. rewrite start_snd in E2. rewrite start_fst in E1. unfold merge_paths. rewrite E1. cbn [bind].
  destruct auto.
  - rewrite map_length. destruct (perform_length E2) as (L1 & _). rewrite !map_length, seq_length in L1.
    destruct (length M) as [|m] eqn:Em.
    + exists (q ++ []), [], (map snd M). simpl. rewrite !app_nil_r. split; auto. split; auto. split; [discriminate|]. intros _ Hn0. exfalso.
      pose proof (perform_left E2) as H'. rewrite !map_length, seq_length in H'. lia.
    + destruct (@perform_auto m (map snd M)) as (cs & t & E3); [rewrite map_length; auto|].
      exists (q ++ repeat (0, 1) m), cs, [t]. simpl. rewrite Nat.sub_0_r. split; auto. split; [rewrite perform_app, E2, E3; auto|].
      split; [discriminate|]. intros _ Hn. split; eauto. rewrite app_length, repeat_length. lia.
  - exists q, [], (map snd M). rewrite app_nil_r. repeat (split; auto); discriminate.
Qed.

Lemma c26_conflict n ps css auto a b cs cs' t :
  Forall2 (fun p cs => exists rest, performs n p cs rest) ps css ->
  nth_error css a = Some cs -> nth_error css b = Some cs' -> a <> b -> touched cs t -> touched cs' t ->
  merge_paths n ps auto = Err Throw.
Proof.
  intros HF Ha Hb Hn Ht Ht'. rewrite touched_alltens in Ht, Ht'. unfold merge_paths. rewrite <- start_fst.
  rewrite (merge_all_bad (css := css) (used := []) [] (ginv_start n)); auto. right.
  destruct (Nat.lt_gt_cases a b) as (H & _). destruct (H Hn) as [L|L].
  - exists a, b, cs, cs', t. auto.
  - exists b, a, cs', cs, t. auto.
Qed.

(** ** Sorting *)
Lemma insert_perm x l : Permutation (insert x l) (x :: l).
Proof. induction l as [|y l IH]; simpl; auto. destruct (x <=? y); auto. rewrite IH. apply perm_swap. Qed.
Lemma sort_perm l : Permutation (sort l) l.
Proof. induction l as [|x l IH]; simpl; auto. rewrite insert_perm, IH. auto. Qed.
Lemma insert_sorted x l : StronglySorted le l -> StronglySorted le (insert x l).
Proof.
  induction l as [|y l IH]; intros H; simpl; [constructor; constructor|]. inversion H as [|? ? H1 H2]; subst.
  destruct (Nat.leb_spec x y).
  - constructor; auto. constructor; auto. rewrite Forall_forall in *. intros z Hz. specialize (H2 z Hz). lia.
  - constructor; auto. rewrite Forall_forall in *. intros z Hz. rewrite insert_perm in Hz. destruct Hz as [<-|Hz]; auto. lia.
Qed.
Lemma sort_sorted l : StronglySorted le (sort l).
Proof. induction l; simpl; [constructor|apply insert_sorted; auto]. Qed.
Lemma sorted_unique l : forall k, StronglySorted le l -> StronglySorted le k -> Permutation l k -> l = k.
Proof.
  induction l as [|x l IH]; intros k H1 H2 HP; [apply Permutation_nil in HP; auto|].
  destruct k as [|y k]; [symmetry in HP; apply Permutation_nil in HP; discriminate|].
  inversion H1 as [|? ? H3 H4]; inversion H2 as [|? ? H5 H6]; subst. rewrite Forall_forall in *.
  assert (E : x = y).
  { assert (Hx : In x (y :: k)) by (rewrite <- HP; simpl; auto). assert (Hy : In y (x :: l)) by (rewrite HP; simpl; auto).
    destruct Hx as [E|Hx]; auto. destruct Hy as [E|Hy]; auto. specialize (H4 _ Hy). specialize (H6 _ Hx). lia. }
  subst y. f_equal. apply IH; auto. apply Permutation_cons_inv with (a := x). auto.
Qed.
Lemma seq_sorted i n : StronglySorted le (seq i n).
Proof.
  revert i. induction n as [|n IH]; intros i; simpl; constructor; auto. rewrite Forall_forall. intros x Hx. apply in_seq in Hx. lia.
Qed.
Lemma filter_sorted f l : StronglySorted le l -> StronglySorted le (filter f l).
Proof.
  induction 1 as [|x l H IH HF]; simpl; [constructor|]. destruct (f x); auto. constructor; auto.
  rewrite Forall_forall in *. intros y Hy. apply filter_In in Hy. apply HF. tauto.
Qed.
Lemma app_sorted l k : StronglySorted le l -> StronglySorted le k -> (forall x y, In x l -> In y k -> x <= y) -> StronglySorted le (l ++ k).
Proof.
  induction 1 as [|x l H IH HF]; intros H1 H2; simpl; auto. constructor.
  - apply IH; auto. intros a b Ha Hb. apply H2; simpl; auto.
  - rewrite Forall_forall in *. intros y Hy. apply in_app_iff in Hy. destruct Hy; auto. apply H2; simpl; auto.
Qed.

Lemma NoDup_filter (A : Type) (f : A -> bool) l : NoDup l -> NoDup (filter f l).
Proof.
  induction 1 as [|x l H HN IH]; simpl; [constructor|]. destruct (f x); auto. constructor; auto.
  intros Hx. apply filter_In in Hx. tauto.
Qed.

Lemma sort_split n m s : NoDup s -> (forall t, In t s -> t < n \/ S n <= t < S n + m) ->
  sort s = sort (filter (fun t => t <? n) s) ++ fut s n m.
Proof.
  intros HN Hs. apply sorted_unique.
  - apply sort_sorted.
  - apply app_sorted; [apply sort_sorted|apply filter_sorted, seq_sorted|]. intros x y Hx Hy. rewrite sort_perm in Hx.
    apply filter_In in Hx. destruct Hx as (_ & Hx). apply Nat.ltb_lt in Hx. apply filter_In in Hy. destruct Hy as (Hy & _).
    apply in_seq in Hy. lia.
  - rewrite !sort_perm. apply NoDup_Permutation; auto.
    + apply NoDup_app. split; [apply NoDup_filter; auto|]. split; [apply NoDup_filter, seq_NoDup|].
      intros x Hx Hy. apply filter_In in Hx. destruct Hx as (_ & Hx). apply Nat.ltb_lt in Hx. apply filter_In in Hy. destruct Hy as (Hy & _).
      apply in_seq in Hy. lia.
    + intros t. rewrite in_app_iff. unfold fut. rewrite !filter_In, in_seq, memb_In, Nat.ltb_lt.
      split; [intros H; destruct (Hs t H); auto|]; intros [H|H]; tauto.
Qed.

(** ** What a path does to the tensors *)
Lemma perform_tens p : forall ts cs r t, perform ts p = Some (cs, r) -> In t (alltens cs) -> In t (alltens ts).
Proof.
  induction p as [|(x, y) p IH]; intros ts cs r t H Ht; simpl in H; [inversion H; subst; destruct Ht|].
  destruct (Nat.eqb_spec x y) as [|Hn]; [discriminate|]. destruct (nth_error ts x) as [a|] eqn:Ha; [|discriminate].
  destruct (nth_error ts y) as [b|] eqn:Hb; [|discriminate]. destruct (perform _ p) as [(cs', r')|] eqn:E; [|discriminate].
  inversion H; subst. rewrite tens_join in Ht. rewrite (alltens_perm (without_perm Hn Ha Hb)). simpl. rewrite !in_app_iff.
  destruct Ht as [Ht|[Ht|Ht]]; auto. specialize (IH _ _ _ _ E Ht). rewrite alltens_app, in_app_iff in IH. simpl in IH.
  rewrite app_nil_r, (join_tensors a b), in_app_iff in IH. tauto.
Qed.
Lemma perform_inside p : forall ts cs r, perform ts p = Some (cs, r) ->
  forall c, In c ts \/ In c cs -> exists u, In u r /\ incl (tensors c) (tensors u).
Proof.
  induction p as [|(x, y) p IH]; intros ts cs r H c Hc; simpl in H.
  - inversion H; subst. destruct Hc as [Hc|[]]. exists c. split; auto. apply incl_refl.
  - destruct (Nat.eqb_spec x y) as [|Hn]; [discriminate|]. destruct (nth_error ts x) as [a|] eqn:Ha; [|discriminate].
    destruct (nth_error ts y) as [b|] eqn:Hb; [|discriminate]. destruct (perform _ p) as [(cs', r')|] eqn:E; [|discriminate].
    inversion H; subst. specialize (IH _ _ _ E).
    destruct (IH (join a b)) as (u & Hu1 & Hu2); [left; apply in_app_iff; simpl; auto|].
    assert (Ga : incl (tensors a) (tensors u)). { intros t Ht. apply Hu2. rewrite (join_tensors a b), in_app_iff. auto. }
    assert (Gb : incl (tensors b) (tensors u)). { intros t Ht. apply Hu2. rewrite (join_tensors a b), in_app_iff. auto. }
    destruct Hc as [Hc|[<-|Hc]]; eauto. rewrite (without_perm Hn Ha Hb) in Hc. destruct Hc as [<-|[<-|Hc]]; eauto.
    apply IH. left. apply in_app_iff. auto.
Qed.

(** ** C27 *)
Definition istart (n : nat) : list (nat * term) := map (fun t => (t, S_Path.T t)) (seq 0 n).
Lemma istart_fst l : map fst (map (fun t => (t, S_Path.T t)) l) = l.
Proof. rewrite map_map. simpl. apply map_id. Qed.
Lemma istart_snd l : map snd (map (fun t => (t, S_Path.T t)) l) = map S_Path.T l.
Proof. rewrite map_map. auto. Qed.

Lemma cinv_start n : cinv n (istart n) (map (fun t => (t, t)) (seq 0 n)) (map (fun t => (t, [t])) (seq 0 n)) n.
Proof.
  constructor; auto.
  - unfold istart. rewrite istart_snd, alltens_start. apply seq_NoDup.
  - rewrite map_map. simpl. rewrite map_id. apply seq_NoDup.
  - intros c s t Hin Ht. apply in_map_iff in Hin. destruct Hin as (c' & E & Hc). inversion E; subst. destruct Ht as [<-|[]].
    clear E. revert Hc. generalize (seq 0 n). induction l as [|a l IH]; simpl; [tauto|]. intros [<-|H].
    + rewrite Nat.eqb_refl. auto.
    + destruct (Nat.eqb_spec c a); subst; auto.
  - exists (istart n). split; auto. unfold istart. assert (H : forall t, In t (seq 0 n) -> t < n) by (intros t Ht; apply in_seq in Ht; lia).
    revert H. generalize (seq 0 n). induction l as [|a l IH]; intros H; simpl; constructor; auto.
    + split; simpl; auto. destruct (Nat.ltb_spec a n); auto. specialize (H a). simpl in H. assert (a < n) by auto. lia.
    + apply IH. intros t Ht. apply H. simpl. auto.
  - intros c s t Hin Ht. apply in_map_iff in Hin. destruct Hin as (c' & E & Hc). inversion E; subst. destruct Ht as [<-|[]]. apply in_seq in Hc. lia.
Qed.

Lemma nth_map (A B : Type) (f : A -> B) l k b : nth_error (map f l) k = Some b -> exists a, nth_error l k = Some a /\ b = f a.
Proof. rewrite nth_error_map. destruct (nth_error l k); simpl; intros E; inversion E; subst; eauto. Qed.
Lemma Forall2_nth (A B : Type) (R : A -> B -> Prop) l k : Forall2 R l k -> forall i b, nth_error k i = Some b -> exists a, nth_error l i = Some a /\ R a b.
Proof. induction 1; intros [|i] b' Hi; simpl in *; try discriminate; eauto. inversion Hi; subst. eauto. Qed.

Lemma concat_filter (A : Type) (f : A -> bool) l : concat (map (filter f) l) = filter f (concat l).
Proof. induction l; simpl; auto. rewrite filter_app, IHl. auto. Qed.

Lemma c27_split n p cs rest nrm : performs n p cs rest ->
  exists paths comps, split_cc n p nrm = Ok (paths, comps) /\ length paths = length comps /\
    Permutation (concat comps) (seq 0 n) /\
    (exists rest', Permutation rest rest' /\ Forall2 (fun comp r => Permutation comp (tensors r)) comps rest') /\
    forall k q comp, nth_error paths k = Some q -> nth_error comps k = Some comp ->
      if nrm then exists last, In last rest /\
             forall l, Permutation l comp -> StronglySorted le l -> perform (map S_Path.T l) q = Some (filter (within comp) cs, [last])
      else exists r, performs n q (filter (within comp) cs) r.
Proof.
  intros Hp. unfold performs in *.
  pose proof Hp as Hp0. rewrite <- istart_snd in Hp0. fold (istart n) in Hp0.
  destruct (colors_ok (cinv_start n) Hp0) as (F & EF & PF & _ & HC & (r' & Pr & HF)).
  set (cc := map snd F) in *.
  assert (Econcat : concat (map snd (map (fun t => (t, [t])) (seq 0 n))) = seq 0 n).
  { rewrite map_map. simpl. generalize (seq 0 n). induction l; simpl; congruence. }
  rewrite Econcat in PF.
  assert (Hel : forall t, In t (concat cc) -> t < n \/ S n <= t < S n + length p).
  { intros t Ht. rewrite PF, in_app_iff, !in_seq in Ht. lia. }
  assert (Ncc : NoDup (concat cc)).
  { eapply Permutation_NoDup; [symmetry; exact PF|]. apply NoDup_app. split; [apply seq_NoDup|]. split; [apply seq_NoDup|].
    intros t H1 H2. apply in_seq in H1. apply in_seq in H2. lia. }
  assert (Nn : NoDup (map fst (istart n))) by (unfold istart; rewrite istart_fst; apply seq_NoDup).
  assert (Nt : NoDup (alltens (map snd (istart n)))) by (unfold istart; rewrite istart_snd, alltens_start; apply seq_NoDup).
  assert (Ns : forall k s, nth_error cc k = Some s -> NoDup s).
  { intros k s Hk. apply nth_error_split in Hk. destruct Hk as (l1 & l2 & E & _). rewrite E, concat_app in Ncc. simpl in Ncc.
    apply NoDup_app in Ncc. destruct Ncc as (_ & N2 & _). apply NoDup_app in N2. tauto. }
  set (cct := if nrm then map sort cc else map (fun _ => seq 0 n) cc).
  set (org := fun s : list nat => sort (filter (fun t => t <? n) s)).
  set (K := fun k => if nrm then map (fun t => (t, S_Path.T t)) (org (nth k cc [])) else istart n).
  set (J := fun k => if nrm then fut (nth k cc []) n (length p) else []).
  assert (Horg : forall s t, In t (org s) <-> In t s /\ t < n).
  { intros s t. unfold org. split; intros H.
    - rewrite sort_perm in H. apply filter_In in H. rewrite Nat.ltb_lt in H. auto.
    - rewrite sort_perm. apply filter_In. rewrite Nat.ltb_lt. auto. }
  assert (Norg : forall s, NoDup s -> NoDup (org s)).
  { intros s Hs. unfold org. eapply Permutation_NoDup; [symmetry; apply sort_perm|]. apply NoDup_filter. auto. }
  destruct (steps_ok (nrm := nrm) (cc := cc) (p := p) Ncc (G := istart n) (K := K) (J := J) (cct := cct) (paths := map (fun _ => []) cc)
     (next := n) (cs := cs) (r := rest)) as (paths & ES & LP & HS); auto.
  - unfold istart. rewrite istart_fst. intros t Ht. apply in_seq in Ht. lia.
  - intros t u s Hin Hs Ht v Hv. apply in_map_iff in Hin. destruct Hin as (t' & E & _). inversion E; subst. destruct Hv as [<-|[]]. auto.
  - unfold cct. destruct nrm; apply map_length.
  - apply map_length.
  - intros k s Hk. assert (En : nth k cc [] = s) by (apply nth_error_nth; auto). unfold cct, K, J. rewrite En. destruct nrm.
    + rewrite istart_fst. split.
      * rewrite nth_error_map, Hk. simpl. f_equal. apply sort_split; [eapply Ns; eauto|]. intros t Ht. apply Hel.
        apply in_concat. exists s. split; auto. eapply nth_error_In; eauto.
      * constructor.
        -- rewrite istart_fst. apply Norg. eapply Ns; eauto.
        -- rewrite istart_snd, alltens_start. apply Norg. eapply Ns; eauto.
        -- rewrite istart_fst. intros t Ht. apply Horg in Ht. lia.
        -- intros pr Hin Hs. apply in_map_iff in Hin. destruct Hin as (t & <- & Ht). apply in_map_iff. exists t. split; auto.
           apply Horg. apply in_seq in Ht. simpl in Hs. split; auto. lia.
        -- exists []. rewrite app_nil_r. auto.
        -- intros _ pr Hin. apply in_map_iff in Hin. destruct Hin as (t & <- & Ht). apply Horg in Ht. split; [|simpl; tauto].
           apply in_map_iff. exists t. split; auto. apply in_seq. lia.
    + unfold istart. rewrite istart_fst, app_nil_r. split; [rewrite nth_error_map, Hk; auto|]. constructor; auto; try discriminate.
      * rewrite istart_fst. intros t Ht. apply in_seq in Ht. lia.
  - unfold istart in ES, EF. rewrite istart_fst in ES, EF.
    set (comps := map (filter (fun t => t <? n)) cc).
    assert (Htn : forall c t, In c cs -> In t (tensors c) -> t < n).
    { intros c t Hc Ht. assert (H : In t (alltens (map S_Path.T (seq 0 n)))).
      { eapply perform_tens; [exact Hp|]. apply in_flat_map. eauto. }
      rewrite alltens_start in H. apply in_seq in H. lia. }
    assert (Hwi : forall s, filter (within s) cs = filter (within (filter (fun t => t <? n) s)) cs).
    { intros s. apply filter_ext_in. intros c Hc. apply eq_true_iff_eq. rewrite !within_In. split; intros H t Ht.
      - apply filter_In. split; auto. apply Nat.ltb_lt. eapply Htn; eauto.
      - specialize (H t Ht). apply filter_In in H. tauto. }
    assert (HFc : Forall2 (fun comp u => Permutation comp (tensors u)) comps r').
    { unfold comps, cc. clear -HF. induction HF; simpl; auto. }
    exists paths, comps. split.
    { unfold split_cc. rewrite EF. cbn [bind]. fold cc. change (if nrm then map sort cc else map (fun _ : list nat => seq 0 n) cc) with cct.
      rewrite ES. cbn [bind]. auto. }
    split; [unfold comps; rewrite LP, !map_length; auto|].
    assert (Pc : Permutation (concat comps) (seq 0 n)).
    { unfold comps. rewrite concat_filter. apply NoDup_Permutation; [apply NoDup_filter; auto|apply seq_NoDup|].
      intros t. rewrite filter_In, PF, in_app_iff, !in_seq, Nat.ltb_lt. lia. }
    split; auto. split; [exists r'; auto|].
    intros k q comp Hq Hc. unfold comps in Hc. destruct (nth_map Hc) as (s & Hs & ->).
    assert (H0 : nth_error (map (fun _ : list nat => @nil (nat * nat)) cc) k = Some []) by (rewrite nth_error_map, Hs; auto).
    destruct (HS k s [] q Hs H0 Hq) as (qk & rk & -> & E2 & E3). simpl. rewrite <- Hwi. unfold K in E2.
    assert (En : nth k cc [] = s) by (apply nth_error_nth; auto). rewrite En in E2. destruct nrm.
    + rewrite istart_snd in E2. specialize (E3 eq_refl).
      assert (Horg2 : NoDup (alltens (map S_Path.T (org s)))) by (rewrite alltens_start; apply Norg; eapply Ns; eauto).
      destruct (perform_nodup Horg2 E2) as (NR & PR). rewrite alltens_start in PR.
      destruct (Forall2_nth (Forall2_flip HFc) (i := k) (b := filter (fun t => t <? n) s)) as (u & Hu & Pu); [unfold comps; rewrite nth_error_map, Hs; auto|].
      assert (Hall : forall w, In w rk -> w = u).
      { intros w Hw. specialize (E3 w Hw). rewrite Pr in E3. destruct (In_nth_error _ _ E3) as (k' & Hk').
        destruct (Forall2_nth HFc Hk') as (comp' & Hc' & Pc').
        assert (Hf : In (first_tensor w) (filter (fun t => t <? n) s)).
        { assert (In (first_tensor w) (org s)) as Ho.
          { rewrite PR. apply in_flat_map. exists w. split; auto. apply first_in. }
          apply Horg in Ho. apply filter_In. rewrite Nat.ltb_lt. auto. }
        assert (Hf' : In (first_tensor w) comp') by (rewrite Pc'; apply first_in).
        assert (Ncomps : NoDup (concat comps)) by (eapply Permutation_NoDup; [symmetry; exact Pc|apply seq_NoDup]).
        assert (k = k') by (eapply (disjoint_at Ncomps Hc Hc' Hf Hf')). subst k'. congruence. }
      assert (Erk : rk = [u]).
      { destruct rk as [|w rk].
        - exfalso. simpl in PR. symmetry in PR. apply Permutation_nil in PR.
          assert (In (first_tensor u) (org s)) as Ho; [|rewrite PR in Ho; destruct Ho].
          apply Horg. pose proof (first_in u) as Hfu. rewrite <- Pu in Hfu. apply filter_In in Hfu. rewrite Nat.ltb_lt in Hfu. auto.
        - assert (w = u) by (apply Hall; simpl; auto). subst w. destruct rk as [|w rk]; auto. exfalso.
          assert (w = u) by (apply Hall; simpl; auto). subst w. simpl in NR. apply NoDup_app in NR. destruct NR as (_ & _ & NR).
          apply (NR (first_tensor u)); [apply first_in|]. apply in_app_iff. left. apply first_in. }
      subst rk. exists u. split; [apply E3; simpl; auto|]. intros l Pl Sl. rewrite (@sorted_unique l (org s)); auto.
      * apply sort_sorted.
      * rewrite Pl. symmetry. apply sort_perm.
    + unfold istart in E2. rewrite istart_snd in E2. eauto.
Qed.

(** Merging back. *)
Lemma distribute (cs : list term) : forall comps, NoDup (concat comps) ->
  (forall c, In c cs -> exists comp, In comp comps /\ within comp c = true) ->
  Permutation (concat (map (fun comp => filter (within comp) cs) comps)) cs.
Proof.
  induction cs as [|c cs IH]; intros comps HN Hc.
  - simpl. clear. induction comps; simpl; auto.
  - destruct (Hc c) as (comp & Hin & Hw); [simpl; auto|]. destruct (in_split _ _ Hin) as (l1 & l2 & ->).
    assert (Hno : forall comp', In comp' l1 \/ In comp' l2 -> within comp' c = false).
    { intros comp' H'. destruct (within comp' c) eqn:E; auto. exfalso. rewrite within_In in Hw, E.
      specialize (Hw _ (first_in c)). specialize (E _ (first_in c)). rewrite concat_app in HN. simpl in HN.
      apply (Permutation_NoDup (Permutation_app_comm _ _)) in HN. rewrite <- app_assoc in HN. apply NoDup_app in HN. destruct HN as (_ & _ & HN).
      apply (HN _ Hw). apply in_app_iff. destruct H' as [H'|H']; [right|left]; apply in_concat; eauto. }
    assert (Hmap : forall l, (forall comp', In comp' l -> within comp' c = false) ->
       map (fun comp => filter (within comp) (c :: cs)) l = map (fun comp => filter (within comp) cs) l).
    { intros l Hl. apply map_ext_in. intros comp' H'. simpl. rewrite Hl; auto. }
    rewrite map_app, concat_app. simpl map. rewrite Hw. rewrite !Hmap by auto. simpl.
    rewrite <- Permutation_middle. constructor.
    specialize (IH (l1 ++ comp :: l2) HN). rewrite map_app, concat_app in IH. simpl in IH. apply IH. intros c' Hc'. apply Hc. simpl. auto.
Qed.

Lemma c27_merge_back n p cs rest : performs n p cs rest ->
  exists paths p' cs' rest', split_paths n p false = Ok paths /\ Forall (fun q => q <> []) paths /\
    merge_paths n paths false = Ok p' /\ performs n p' cs' rest' /\ Permutation cs' cs.
Proof.
  intros Hp. destruct (c27_split false Hp) as (paths & comps & E & L & PC & (r' & Pr & HFc) & HS).
  set (ne := fun q : path => negb (length q =? 0)).
  unfold split_paths. rewrite E. cbn [bind]. fold ne.
  assert (Ncomps : NoDup (concat comps)) by (eapply Permutation_NoDup; [symmetry; exact PC|apply seq_NoDup]).
  assert (HF : Forall2 (fun q comp => exists r, performs n q (filter (within comp) cs) r) paths comps).
  { clear -HS L. revert comps L HS. induction paths as [|q paths IH]; intros [|comp comps] L HS; simpl in L; try lia; constructor.
    - apply (HS 0 q comp); auto.
    - apply IH; [lia|]. intros k q' comp' H1 H2. apply (HS (S k)); auto. }
  assert (HF' : exists comps', NoDup (concat comps') /\
     Forall2 (fun q cs => exists r, performs n q cs r) (filter ne paths) (map (fun comp => filter (within comp) cs) comps') /\
     concat (map (fun comp => filter (within comp) cs) comps') = concat (map (fun comp => filter (within comp) cs) comps) /\
     incl (concat comps') (concat comps)).
  { clear -HF Ncomps. induction HF as [|q comp paths comps (r & Hr) HF IH].
    - exists []. simpl. repeat (split; auto using incl_refl).
    - simpl in Ncomps. apply NoDup_app in Ncomps. destruct Ncomps as (N1 & N2 & N3). destruct (IH N2) as (comps' & H1 & H2 & H3 & H4).
      simpl. destruct (ne q) eqn:Eq.
      + exists (comp :: comps'). simpl. split; [|split; [|split]].
        * apply NoDup_app. split; auto. split; auto. intros x Hx Hy. apply (N3 x Hx). apply H4. auto.
        * constructor; eauto.
        * rewrite H3. auto.
        * apply incl_app; [apply incl_appl, incl_refl|apply incl_appr; auto].
      + exists comps'. split; auto. split; auto. split; [|apply incl_appr; auto]. rewrite H3.
        unfold ne in Eq. destruct q; [|discriminate]. unfold performs in Hr. simpl in Hr. inversion Hr as [[E1 E2]]. reflexivity. }
  destruct HF' as (comps' & H1 & H2 & H3 & _).
  destruct (c26_merge (n := n) (ps := filter ne paths) (css := map (fun comp => filter (within comp) cs) comps') false) as (p' & extra & rest' & M1 & M2 & M3 & _); auto.
  { intros a b c c' t Ha Hb Hn Ht Ht'. destruct (nth_map Ha) as (ca & Ha1 & ->). destruct (nth_map Hb) as (cb & Hb1 & ->).
    destruct Ht as (c1 & Hc1 & Ht1). destruct Ht' as (c2 & Hc2 & Ht2). apply filter_In in Hc1. apply filter_In in Hc2.
    apply Hn. eapply (disjoint_at H1 Ha1 Hb1 (t := t)).
    - apply (proj1 (within_In ca c1)); tauto.
    - apply (proj1 (within_In cb c2)); tauto. }
  rewrite (M3 eq_refl), app_nil_r, H3 in M2. do 4 eexists. split; [reflexivity|]. split; [|split; [exact M1|split; [exact M2|]]].
  - apply Forall_forall. intros q Hq. apply filter_In in Hq. intros ->. destruct Hq as (_ & Hq). discriminate.
  - apply distribute; auto. intros c Hc. destruct (perform_inside Hp (or_intror Hc)) as (u & Hu & Hi).
    rewrite Pr in Hu. destruct (In_nth_error _ _ Hu) as (k & Hk). destruct (Forall2_nth HFc Hk) as (comp & Hcomp & HP).
    exists comp. split; [eapply nth_error_In; eauto|]. apply within_In. intros t Ht. rewrite HP. auto.
Qed.
