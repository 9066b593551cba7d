(** Lemmas about linear contraction paths; merge_contraction_paths. *)
From Coq Require Import Permutation.
From Verif Require Import M_Base M_Path S_Path P_Base.
Set Implicit Arguments.
Unset Strict Implicit.

(** ** Lists without two positions *)
Lemma without_shift (A : Type) (l : list A) : forall i x y, without_from (S i) (S x) (S y) l = without_from i x y l.
Proof. induction l as [|a l IH]; intros i x y; simpl; auto. rewrite IH. destruct ((i =? x) || (i =? y)); auto. Qed.
Lemma without_sym (A : Type) (l : list A) x y : without x y l = without y x l.
Proof.
  unfold without. generalize 0. induction l as [|a l IH]; intros i; simpl; auto.
  rewrite IH, orb_comm. auto.
Qed.
Lemma without_above (A : Type) (l : list A) : forall i x y, x < i -> y < i -> without_from i x y l = l.
Proof.
  induction l as [|a l IH]; intros i x y Hx Hy; simpl; auto.
  destruct (Nat.eqb_spec i x); [lia|]. destruct (Nat.eqb_spec i y); [lia|]. simpl. f_equal. apply IH; lia.
Qed.
Lemma without_map (A B : Type) (f : A -> B) (l : list A) x y : without x y (map f l) = map f (without x y l).
Proof.
  unfold without. generalize 0. induction l as [|a l IH]; intros i; simpl; auto.
  destruct ((i =? x) || (i =? y)); simpl; rewrite IH; auto.
Qed.
Lemma without_from1_perm (A : Type) (l : list A) : forall i x y b, x < i -> nth_error l (y - i) = Some b -> i <= y ->
  Permutation l (b :: without_from i x y l).
Proof.
  induction l as [|c l IH]; intros i x y b Hx Hn Hy; [destruct (y - i); discriminate|]. simpl.
  destruct (Nat.eqb_spec i x); [lia|]. destruct (Nat.eqb_spec i y).
  - subst i. rewrite Nat.sub_diag in Hn. inversion Hn; subst. simpl. rewrite without_above by lia. reflexivity.
  - simpl. replace (y - i) with (S (y - S i)) in Hn by lia. simpl in Hn.
    rewrite (IH (S i) x y b) at 1 by (auto; lia). apply perm_swap.
Qed.
Lemma without_from_perm (A : Type) (l : list A) : forall i x y a b, x < y -> i <= x ->
  nth_error l (x - i) = Some a -> nth_error l (y - i) = Some b ->
  Permutation l (a :: b :: without_from i x y l).
Proof.
  induction l as [|c l IH]; intros i x y a b Hxy Hi Ha Hb; [destruct (x - i); discriminate|]. simpl.
  destruct (Nat.eqb_spec i x).
  - subst i. rewrite Nat.sub_diag in Ha. inversion Ha; subst. simpl. constructor.
    replace (y - x) with (S (y - S x)) in Hb by lia. simpl in Hb. apply without_from1_perm; auto.
  - destruct (Nat.eqb_spec i y); [lia|]. simpl.
    replace (x - i) with (S (x - S i)) in Ha by lia. replace (y - i) with (S (y - S i)) in Hb by lia. simpl in Ha, Hb.
    rewrite (IH (S i) x y a b) at 1 by (auto; lia). rewrite perm_swap. constructor. apply perm_swap.
Qed.
Lemma without_perm (A : Type) (l : list A) x y a b : x <> y -> nth_error l x = Some a -> nth_error l y = Some b ->
  Permutation l (a :: b :: without x y l).
Proof.
  intros Hn Ha Hb. destruct (Nat.lt_gt_cases x y) as [H _]. destruct (H Hn) as [L|L].
  - apply without_from_perm; auto; rewrite ?Nat.sub_0_r; auto; lia.
  - rewrite without_sym, perm_swap. apply without_from_perm; rewrite ?Nat.sub_0_r; auto; lia.
Qed.
Lemma without_length (A : Type) (l : list A) x y a b : x <> y -> nth_error l x = Some a -> nth_error l y = Some b ->
  length l = S (S (length (without x y l))).
Proof. intros Hn Ha Hb. rewrite (Permutation_length (without_perm Hn Ha Hb)). auto. Qed.

(** ** pop and index *)
Lemma pop_ok (A : Type) (l : list A) : forall i a, nth_error l i = Some a -> pop l i = Ok (a, firstn i l ++ skipn (S i) l).
Proof.
  induction l as [|b l IH]; intros [|i] a H; simpl in *; try discriminate; [congruence|].
  rewrite (IH i a H). reflexivity.
Qed.
Lemma pop_none (A : Type) (l : list A) : forall i, length l <= i -> pop l i = Err Oob.
Proof. induction l as [|b l IH]; intros [|i] H; simpl in *; auto; [lia|]. rewrite IH by lia. auto. Qed.
Lemma pop_two (A : Type) (l : list A) : forall x y a b, x < y -> nth_error l x = Some a -> nth_error l y = Some b ->
  exists l1, pop l y = Ok (b, l1) /\ pop l1 x = Ok (a, without x y l).
Proof.
  induction l as [|c l IH]; intros x y a b Hxy Ha Hb; [destruct x; discriminate|].
  destruct y as [|y]; [lia|]. simpl in Hb. destruct x as [|x].
  - simpl in Ha. inversion Ha; subst. simpl. rewrite (pop_ok Hb). cbn [bind]. eexists. split; [reflexivity|].
    simpl. unfold without. simpl. f_equal. f_equal.
    assert (G : forall (l : list A) i y, i <= y -> nth_error l (y - i) <> None -> firstn (y - i) l ++ skipn (S (y - i)) l = without_from (S i) 0 (S y) l).
    { clear. induction l as [|c l IH]; intros i y Hi Hn; [destruct (y - i); contradiction|].
      destruct (Nat.eq_dec i y) as [->|Hne].
      - rewrite Nat.sub_diag. simpl. rewrite Nat.eqb_refl. rewrite without_above by lia. auto.
      - replace (y - i) with (S (y - S i)) in * by lia. simpl. destruct (Nat.eqb_spec i y); [lia|].
        rewrite <- IH; auto; lia. }
    pose proof (G l 0 y) as G'. rewrite Nat.sub_0_r in G'. apply G'; [lia|congruence].
  - simpl in Ha. destruct (IH x y a b ltac:(lia) Ha Hb) as (l1 & E1 & E2). simpl. rewrite E1. cbn [bind].
    eexists. split; [reflexivity|]. simpl. rewrite E2. cbn [bind]. unfold without. simpl. rewrite without_shift. auto.
Qed.

Lemma sort2_spec x y : x <> y -> exists lo hi, sort2 x y = (lo, hi) /\ lo < hi /\ ((lo = x /\ hi = y) \/ (lo = y /\ hi = x)).
Proof. intros H. unfold sort2. destruct (Nat.leb_spec x y); [exists x, y|exists y, x]; repeat split; auto; lia. Qed.

Lemma index_ok (A : Type) (eqb : A -> A -> bool) (Heq : forall x y, eqb x y = true <-> x = y) (l : list A) x : In x l ->
  exists i, index eqb x l = Ok i /\ nth_error l i = Some x.
Proof.
  induction l as [|a l IH]; simpl; [tauto|]. intros H. destruct (eqb x a) eqn:E.
  - apply Heq in E. subst. exists 0. auto.
  - destruct H as [->|H]; [exfalso; rewrite (proj2 (Heq x x)) in E; auto; discriminate|].
    destruct (IH H) as (i & -> & Hi). exists (S i). auto.
Qed.
Lemma index_none (A : Type) (eqb : A -> A -> bool) (Heq : forall x y, eqb x y = true <-> x = y) (l : list A) x : ~ In x l ->
  index eqb x l = Err Throw.
Proof.
  induction l as [|a l IH]; simpl; auto. intros H. destruct (eqb x a) eqn:E.
  - apply Heq in E. subst. tauto.
  - rewrite IH by tauto. auto.
Qed.
Lemma index_first (A : Type) (eqb : A -> A -> bool) (Heq : forall x y, eqb x y = true <-> x = y) (l : list A) x i : NoDup l ->
  nth_error l i = Some x -> index eqb x l = Ok i.
Proof.
  intros HN Hi. destruct (index_ok Heq (x := x) (l := l)) as (j & E & Hj); [eapply nth_error_In; eauto|].
  rewrite E. f_equal. rewrite NoDup_nth_error in HN. symmetry. apply HN; [eapply nth_error_lt; eauto|congruence].
Qed.
Lemma mlab_eqb_ok a b : mlab_eqb a b = true <-> a = b.
Proof.
  destruct a, b; simpl; try (split; intros; congruence).
  - rewrite Nat.eqb_eq. split; congruence.
  - rewrite andb_true_iff, !Nat.eqb_eq. split; [intros (-> & ->); auto|intros E; inversion E; auto].
Qed.

(** ** Terms *)
Lemma first_in a : In (first_tensor a) (tensors a).
Proof.
  induction a as [t|a IHa b IHb]; simpl; auto. apply in_app_iff.
  destruct (Nat.min_dec (first_tensor a) (first_tensor b)) as [->| ->]; auto.
Qed.
Lemma join_tensors a b : Permutation (tensors (join a b)) (tensors a ++ tensors b).
Proof. unfold join. destruct (_ <=? _); simpl; [reflexivity|apply Permutation_app_comm]. Qed.
Lemma join_comm a b : first_tensor a <> first_tensor b -> join a b = join b a.
Proof.
  intros H. unfold join. destruct (Nat.leb_spec (first_tensor a) (first_tensor b)), (Nat.leb_spec (first_tensor b) (first_tensor a)); auto; lia.
Qed.

Definition alltens (ts : list term) : list nat := flat_map tensors ts.
Lemma alltens_perm ts ts' : Permutation ts ts' -> Permutation (alltens ts) (alltens ts').
Proof. unfold alltens. intros H. apply Permutation_flat_map. auto. Qed.
Lemma alltens_app a b : alltens (a ++ b) = alltens a ++ alltens b.
Proof. apply flat_map_app. Qed.

Lemma NoDup_app (A : Type) (l k : list A) : NoDup (l ++ k) <-> NoDup l /\ NoDup k /\ (forall x, In x l -> In x k -> False).
Proof.
  induction l as [|a l IH]; simpl.
  - split; [intros H; split; [constructor|split; auto; tauto]|tauto].
  - rewrite !NoDup_cons_iff, IH, in_app_iff. split.
    + intros (H1 & H2 & H3 & H4). split; [split; auto|]. split; auto. intros x [->|Hx] Hk; eauto.
    + intros ((H1 & H2) & H3 & H4). repeat split; auto; [|intros x Hx Hk; apply (H4 x); auto].
      intros [H|H]; auto. apply (H4 a); auto.
Qed.

Lemma step_nodup ts x y a b : x <> y -> nth_error ts x = Some a -> nth_error ts y = Some b -> NoDup (alltens ts) ->
  NoDup (alltens (without x y ts ++ [join a b])) /\ first_tensor a <> first_tensor b /\
  Permutation (alltens ts) (alltens (without x y ts ++ [join a b])).
Proof.
  intros Hn Ha Hb HN. pose proof (alltens_perm (without_perm Hn Ha Hb)) as HP. simpl in HP.
  assert (HP2 : Permutation (alltens ts) (alltens (without x y ts ++ [join a b]))).
  { rewrite HP, alltens_app. simpl. rewrite app_nil_r. rewrite (join_tensors a b), app_assoc. apply Permutation_app_comm. }
  split; [apply (Permutation_NoDup HP2 HN)|]. split; auto. intros E.
  apply (Permutation_NoDup HP) in HN. apply NoDup_app in HN. destruct HN as (_ & _ & HN).
  apply (HN (first_tensor a)); [apply first_in|]. rewrite E. apply in_or_app. left. apply first_in.
Qed.

Lemma perform_sort ts x y p : NoDup (alltens ts) -> perform ts ((x, y) :: p) = perform ts ((y, x) :: p).
Proof.
  intros HN. simpl. rewrite Nat.eqb_sym. destruct (Nat.eqb_spec y x) as [|Hn]; auto.
  destruct (nth_error ts x) as [a|] eqn:Ha, (nth_error ts y) as [b|] eqn:Hb; auto.
  rewrite (without_sym ts y x). destruct (step_nodup (x := x) (y := y) (ltac:(congruence)) Ha Hb HN) as (_ & H & _).
  rewrite (join_comm H). auto.
Qed.

Lemma perform_app p : forall ts q, perform ts (p ++ q) =
  match perform ts p with
  | Some (cs, r) => match perform r q with Some (cs', r') => Some (cs ++ cs', r') | None => None end
  | None => None end.
Proof.
  induction p as [|(x, y) p IH]; intros ts q; simpl.
  - destruct (perform ts q) as [(cs, r)|]; auto.
  - destruct (x =? y); auto. destruct (nth_error ts x) as [a|]; auto. destruct (nth_error ts y) as [b|]; auto.
    rewrite IH. destruct (perform _ p) as [(cs, r)|]; auto. destruct (perform r q) as [(cs', r')|]; auto.
Qed.

Lemma perform_length p : forall ts cs r, perform ts p = Some (cs, r) -> length r + length p = length ts /\ length cs = length p.
Proof.
  induction p as [|(x, y) p IH]; intros ts cs r H; simpl in *; [inversion H; subst; simpl; lia|].
  destruct (Nat.eqb_spec x y) as [|Hn]; [discriminate|]. destruct (nth_error ts x) as [a|] eqn:Ha; [|discriminate].
  destruct (nth_error ts y) as [b|] eqn:Hb; [|discriminate]. destruct (perform _ p) as [(cs', r')|] eqn:E; [|discriminate].
  inversion H; subst. destruct (IH _ _ _ E) as (H1 & H2). rewrite app_length in H1. simpl in *.
  rewrite (without_length Hn Ha Hb). lia.
Qed.

Lemma perform_nodup p : forall ts cs r, NoDup (alltens ts) -> perform ts p = Some (cs, r) ->
  NoDup (alltens r) /\ Permutation (alltens ts) (alltens r).
Proof.
  induction p as [|(x, y) p IH]; intros ts cs r HN H; simpl in *; [inversion H; subst; auto|].
  destruct (Nat.eqb_spec x y) as [|Hn]; [discriminate|]. destruct (nth_error ts x) as [a|] eqn:Ha; [|discriminate].
  destruct (nth_error ts y) as [b|] eqn:Hb; [|discriminate]. destruct (perform _ p) as [(cs', r')|] eqn:E; [|discriminate].
  inversion H; subst. destruct (step_nodup Hn Ha Hb HN) as (HN' & _ & HP). destruct (IH _ _ _ HN' E) as (H1 & H2).
  split; auto. rewrite HP. auto.
Qed.

Lemma perform_auto k : forall ts, length ts = S k -> exists cs t, perform ts (repeat (0, 1) k) = Some (cs, [t]).
Proof.
  induction k as [|k IH]; intros ts HL; simpl.
  - destruct ts as [|a [|b ts]]; simpl in HL; try lia. eauto.
  - destruct ts as [|a [|b ts]]; simpl in HL; try lia. simpl.
    destruct (IH (without 0 1 (a :: b :: ts) ++ [join a b])) as (cs & t & E).
    { rewrite app_length. pose proof (@without_length _ (a :: b :: ts) 0 1 a b ltac:(lia) eq_refl eq_refl). simpl in *. lia. }
    rewrite E. eauto.
Qed.

(** Starting tensors. *)
Lemma alltens_start l : alltens (map T l) = l.
Proof. unfold alltens. rewrite flat_map_concat_map, map_map. simpl. induction l; simpl; congruence. Qed.

(** ** merge_contraction_paths *)
Local Notation ltm := (mlab * term)%type.
(** [P]: labels and terms of the path in work, [M]: of the merged path. *)
Record minv (P M : list ltm) (used : list nat) (i : nat) : Prop := {
  mi_P  : NoDup (map fst P);
  mi_M  : NoDup (map fst M);
  mi_tP : NoDup (alltens (map snd P));
  mi_tM : NoDup (alltens (map snd M));
  mi_in : forall pr, In pr P -> (In pr M /\ forall t, In t (tensors (snd pr)) -> ~ In t used) \/
                                exists t, pr = (Orig t, S_Path.T t) /\ In t used;
  mi_us : forall t, In t used -> ~ In (Orig t) (map fst M);
  mi_fr : forall k, In (New i k) (map fst P) \/ In (New i k) (map fst M) -> length P <= S k;
  mi_j  : forall j k, In (New j k) (map fst M) -> j <= i;
  mi_o  : forall t u, In (Orig t, u) M -> u = S_Path.T t
}.

Lemma nth_map_fst (A B : Type) (l : list (A * B)) i a : nth_error (map fst l) i = Some a -> exists b, nth_error l i = Some (a, b).
Proof. rewrite nth_error_map. destruct (nth_error l i) as [(a', b)|]; simpl; intros E; inversion E; subst. eauto. Qed.

Lemma fst_inj (A B : Type) (l : list (A * B)) a b b' : NoDup (map fst l) -> In (a, b) l -> In (a, b') l -> b = b'.
Proof.
  induction l as [|(c, d) l IH]; simpl; [tauto|]. intros HN. inversion HN as [|? ? H1 H2]; subst.
  intros [E|H] [E'|H']; auto.
  - congruence.
  - inversion E; subst. exfalso. apply H1. apply (in_map fst) in H'. auto.
  - inversion E'; subst. exfalso. apply H1. apply (in_map fst) in H. auto.
Qed.

(** One step, when both operands are in the merged list. *)
Lemma merge_step i x0 y0 p (P M : list ltm) used mpath lo hi la ta lb tb :
  minv P M used i -> sort2 x0 y0 = (lo, hi) -> lo < hi ->
  nth_error P lo = Some (la, ta) -> nth_error P hi = Some (lb, tb) ->
  In (la, ta) M -> In (lb, tb) M ->
  (forall t, In t (tensors ta) \/ In t (tensors tb) -> ~ In t used) ->
  exists mx my, mx < my /\
    let z := (New i (length P - 2), join ta tb) in
    let P' := without lo hi P ++ [z] in
    let M' := without mx my M ++ [z] in
    merge_one i ((x0, y0) :: p) (map fst P) (map fst M) mpath = merge_one i p (map fst P') (map fst M') (mpath ++ [(mx, my)]) /\
    (forall q, perform (map snd M) ((mx, my) :: q) =
      match perform (map snd M') q with Some (cs, r) => Some (join ta tb :: cs, r) | None => None end) /\
    minv P' M' used i /\
    Permutation M ((la, ta) :: (lb, tb) :: without mx my M).
Proof.
  intros HI Hs Hlt Ha Hb HaM HbM Hus. pose proof HI as [H1 H2 H3 H4 H5 H6 H7 H8 H9].
  assert (HnP : lo <> hi) by lia. pose proof (without_perm HnP Ha Hb) as PP. pose proof (without_length HnP Ha Hb) as LP.
  assert (Hab : la <> lb).
  { intros ->. rewrite (Permutation_map fst PP) in H1. simpl in H1. inversion H1 as [|? ? Hx _]; subst. apply Hx. simpl. auto. }
  destruct (index_ok mlab_eqb_ok (l := map fst M) (x := la)) as (ia & Eia & Nia); [apply (in_map fst) in HaM; auto|].
  destruct (index_ok mlab_eqb_ok (l := map fst M) (x := lb)) as (ib & Eib & Nib); [apply (in_map fst) in HbM; auto|].
  assert (Nia' : nth_error M ia = Some (la, ta)).
  { destruct (nth_map_fst Nia) as (t' & E). rewrite E. f_equal. f_equal.
    apply (fst_inj H2 (a := la)); auto. eapply nth_error_In; eauto. }
  assert (Nib' : nth_error M ib = Some (lb, tb)).
  { destruct (nth_map_fst Nib) as (t' & E). rewrite E. f_equal. f_equal.
    apply (fst_inj H2 (a := lb)); auto. eapply nth_error_In; eauto. }
  assert (Hi : ia <> ib) by congruence.
  destruct (sort2_spec Hi) as (mx & my & Es & Hm & Hc). exists mx, my. split; auto. cbv zeta.
  assert (W : exists l1 u v, pop (map fst M) my = Ok (u, l1) /\ pop l1 mx = Ok (v, map fst (without mx my M)) /\
     Permutation M ((la, ta) :: (lb, tb) :: without mx my M)).
  { destruct Hc as [(-> & ->)|(-> & ->)].
    - destruct (pop_two Hm Nia Nib) as (l1 & E1 & E2). exists l1. do 2 eexists. rewrite E1, E2, without_map.
      split; [reflexivity|]. split; [reflexivity|]. apply (without_perm Hi Nia' Nib').
    - destruct (pop_two Hm Nib Nia) as (l1 & E1 & E2). exists l1. do 2 eexists. rewrite E1, E2, without_map.
      split; [reflexivity|]. split; [reflexivity|]. rewrite without_sym. apply (without_perm Hi Nia' Nib'). }
  destruct W as (l1 & u & v & E1 & E2 & PM).
  assert (Ha' : nth_error (map fst P) lo = Some la) by (rewrite nth_error_map, Ha; auto).
  assert (Hb' : nth_error (map fst P) hi = Some lb) by (rewrite nth_error_map, Hb; auto).
  destruct (pop_two Hlt Ha' Hb') as (k1 & F1 & F2).
  assert (Hz : length (without lo hi (map fst P)) = length P - 2) by (rewrite without_map, map_length; lia).
  split; [|split; [|split]].
  - cbn [merge_one]. rewrite Hs, F1. cbn [bind]. rewrite F2. cbn [bind]. rewrite Hz, Eia. cbn [bind]. rewrite Eib. cbn [bind].
    rewrite Es, E1. cbn [bind]. rewrite E2. cbn [bind]. rewrite !map_app, without_map. reflexivity.
  - intros q. assert (Hma : nth_error (map snd M) ia = Some ta) by (rewrite nth_error_map, Nia'; auto).
    assert (Hmb : nth_error (map snd M) ib = Some tb) by (rewrite nth_error_map, Nib'; auto).
    destruct (step_nodup Hi Hma Hmb H4) as (_ & Hf & _).
    assert (G : perform (map snd M) ((ia, ib) :: q) = match perform (without ia ib (map snd M) ++ [join ta tb]) q with
       Some (cs, r) => Some (join ta tb :: cs, r) | None => None end).
    { simpl. destruct (Nat.eqb_spec ia ib); [contradiction|]. rewrite Hma, Hmb. auto. }
    rewrite map_app. simpl map. rewrite <- without_map.
    destruct Hc as [(-> & ->)|(-> & ->)]; auto. rewrite perform_sort by auto. rewrite (without_sym _ ib ia). auto.
  - assert (PfP := Permutation_map fst PP). assert (PfM := Permutation_map fst PM). simpl in PfP, PfM.
    assert (PsP := alltens_perm (Permutation_map snd PP)). assert (PsM := alltens_perm (Permutation_map snd PM)). simpl in PsP, PsM.
    assert (Hfresh : ~ In (New i (length P - 2)) (map fst P) /\ ~ In (New i (length P - 2)) (map fst M)).
    { split; intros Hin; [specialize (H7 _ (or_introl Hin))|specialize (H7 _ (or_intror Hin))]; lia. }
    destruct Hfresh as (FP & FM).
    constructor.
    + rewrite map_app. simpl. apply NoDup_app. rewrite PfP in H1. inversion H1 as [|? ? _ H1']; subst. inversion H1' as [|? ? _ H1'']; subst.
      split; auto. split; [repeat constructor; auto|]. intros w Hw [<-|[]]. apply FP. rewrite PfP. simpl. auto.
    + rewrite map_app. simpl. apply NoDup_app. rewrite PfM in H2. inversion H2 as [|? ? _ H2']; subst. inversion H2' as [|? ? _ H2'']; subst.
      split; auto. split; [repeat constructor; auto|]. intros w Hw [<-|[]]. apply FM. rewrite PfM. simpl. auto.
    + rewrite map_app. simpl. rewrite alltens_app. simpl. rewrite app_nil_r. eapply Permutation_NoDup; [|exact H3].
      rewrite PsP. unfold alltens. simpl. rewrite (join_tensors ta tb), app_assoc. apply Permutation_app_comm.
    + rewrite map_app. simpl. rewrite alltens_app. simpl. rewrite app_nil_r. eapply Permutation_NoDup; [|exact H4].
      rewrite PsM. unfold alltens. simpl. rewrite (join_tensors ta tb), app_assoc. apply Permutation_app_comm.
    + intros pr Hin. apply in_app_iff in Hin. destruct Hin as [Hin|[<-|[]]].
      * assert (HinP : In pr P) by (rewrite PP; simpl; auto).
        destruct (H5 pr HinP) as [(HM & Hu)|Hu]; [left|right; auto]. split; auto.
        apply in_app_iff. left. rewrite PM in HM. destruct HM as [E|[E|HM]]; auto.
        -- exfalso. subst pr. apply (Permutation_NoDup (Permutation_map fst PP)) in H1. simpl in H1. inversion H1 as [|? ? Hx _]; subst.
           apply Hx. right. apply (in_map fst) in Hin. auto.
        -- exfalso. subst pr. apply (Permutation_NoDup (Permutation_map fst PP)) in H1. simpl in H1. inversion H1 as [|? ? _ Hx]; subst.
           inversion Hx as [|? ? Hx' _]; subst. apply Hx'. apply (in_map fst) in Hin. auto.
      * left. split; [apply in_app_iff; simpl; auto|]. intros t Ht. simpl in Ht. rewrite (join_tensors ta tb) in Ht.
        apply in_app_iff in Ht. auto.
    + intros t Ht Hin. rewrite map_app in Hin. apply in_app_iff in Hin. simpl in Hin. destruct Hin as [Hin|[E|[]]]; [|discriminate].
      apply (H6 t Ht). rewrite PfM. simpl. auto.
    + intros k Hk. rewrite app_length. simpl. rewrite !map_app in Hk. simpl in Hk. rewrite !in_app_iff in Hk.
      assert (D : In (New i k) (map fst P) \/ In (New i k) (map fst M) \/ k = length P - 2).
      { destruct Hk as [[Hk|[E|[]]]|[Hk|[E|[]]]].
        - left. rewrite PfP. simpl. auto.
        - inversion E; auto.
        - right. left. rewrite PfM. simpl. auto.
        - inversion E; auto. }
      destruct D as [D|[D|D]]; [specialize (H7 k (or_introl D))|specialize (H7 k (or_intror D))|]; lia.
    + intros j k Hin. rewrite map_app in Hin. apply in_app_iff in Hin. destruct Hin as [Hin|[E|[]]]; [|inversion E; auto].
      apply (H8 j k). rewrite PfM. simpl. auto.
    + intros t w Hin. apply in_app_iff in Hin. destruct Hin as [Hin|[E|[]]]; [|discriminate].
      apply (H9 t w). rewrite PM. simpl. auto.
  - exact PM.
Qed.

(** The operands of a step, in sorted order. *)
Lemma perform_cons ts x y p cs r : NoDup (alltens ts) -> perform ts ((x, y) :: p) = Some (cs, r) ->
  exists lo hi a b cs', sort2 x y = (lo, hi) /\ lo < hi /\ nth_error ts lo = Some a /\ nth_error ts hi = Some b /\
    cs = join a b :: cs' /\ perform (without lo hi ts ++ [join a b]) p = Some (cs', r).
Proof.
  intros HN H. assert (Hn : x <> y). { intros ->. simpl in H. rewrite Nat.eqb_refl in H. discriminate. }
  destruct (sort2_spec Hn) as (lo & hi & Es & Hlt & Hc). exists lo, hi.
  assert (H' : perform ts ((lo, hi) :: p) = Some (cs, r)).
  { destruct Hc as [(-> & ->)|(-> & ->)]; auto. rewrite perform_sort; auto. }
  simpl in H'. destruct (Nat.eqb_spec lo hi); [lia|]. destruct (nth_error ts lo) as [a|] eqn:Ha; [|discriminate].
  destruct (nth_error ts hi) as [b|] eqn:Hb; [|discriminate]. destruct (perform _ p) as [(cs', r')|] eqn:E; [|discriminate].
  inversion H'; subst. exists a, b, cs'. repeat (split; auto).
Qed.

Lemma nth_snd (A B : Type) (l : list (A * B)) i b : nth_error (map snd l) i = Some b -> exists a, nth_error l i = Some (a, b).
Proof. rewrite nth_error_map. destruct (nth_error l i) as [(a, b')|]; simpl; intros E; inversion E; subst. eauto. Qed.

Definition covered (M : list ltm) (t : nat) : Prop := exists j k u, In (New j k, u) M /\ In t (tensors u).
Lemma tens_join a b cs t : In t (alltens (join a b :: cs)) <-> In t (tensors a) \/ In t (tensors b) \/ In t (alltens cs).
Proof. simpl. rewrite in_app_iff, (join_tensors a b), in_app_iff. tauto. Qed.

Lemma merge_one_ok i p : forall (P M : list ltm) used mpath cs r,
  minv P M used i -> perform (map snd P) p = Some (cs, r) -> (forall t, In t (alltens cs) -> ~ In t used) ->
  exists P' M' q, merge_one i p (map fst P) (map fst M) mpath = Ok (map fst M', mpath ++ q) /\
    perform (map snd M) q = Some (cs, map snd M') /\ minv P' M' used i /\
    (forall t, In (Orig t, S_Path.T t) M -> In (Orig t, S_Path.T t) M' \/ In t (alltens cs)) /\
    (forall t, covered M t \/ In t (alltens cs) -> covered M' t).
Proof.
  induction p as [|(x, y) p IH]; intros P M used mpath cs r HI Hp Hus.
  - inversion Hp; subst. exists P, M, []. rewrite app_nil_r. simpl. split; auto. split; auto. split; auto. split; auto. intros t [H|[]]; auto.
  - destruct (perform_cons (mi_tP HI) Hp) as (lo & hi & a & b & cs' & Es & Hlt & Ha & Hb & -> & Hp').
    destruct (nth_snd Ha) as (la & Ha'). destruct (nth_snd Hb) as (lb & Hb').
    assert (Hua : forall t, In t (tensors a) \/ In t (tensors b) -> ~ In t used).
    { intros t Ht. apply Hus. apply tens_join. tauto. }
    assert (HaM : In (la, a) M).
    { destruct (mi_in HI (nth_error_In _ _ Ha')) as [(HM & _)|(t & E & Hu)]; auto. inversion E; subst. exfalso.
      apply (Hua t); auto. simpl. auto. }
    assert (HbM : In (lb, b) M).
    { destruct (mi_in HI (nth_error_In _ _ Hb')) as [(HM & _)|(t & E & Hu)]; auto. inversion E; subst. exfalso.
      apply (Hua t); auto. simpl. auto. }
    destruct (merge_step p mpath HI Es Hlt Ha' Hb' HaM HbM Hua) as (mx & my & Hm & E1 & E2 & HI' & PM).
    cbv zeta in E1, E2, HI'. rewrite without_map in Hp'.
    set (z := (New i (length P - 2), join a b)) in *.
    assert (Hp2 : perform (map snd (without lo hi P ++ [z])) p = Some (cs', r)) by (rewrite map_app; exact Hp').
    destruct (IH _ _ _ (mpath ++ [(mx, my)]) _ _ HI' Hp2) as (P' & M' & q & F1 & F2 & F3 & F4 & F5).
    { intros t Ht. apply Hus. apply tens_join. auto. }
    exists P', M', ((mx, my) :: q). rewrite E1, F1, <- app_assoc. split; auto. split; [rewrite E2, F2; auto|]. split; auto. split.
    + intros t Ht. rewrite tens_join. rewrite PM in Ht. destruct Ht as [E|[E|Ht]].
      * inversion E; subst. right. simpl. auto.
      * inversion E; subst. right. simpl. auto.
      * destruct (F4 t); [apply in_app_iff; auto|auto|auto].
    + assert (Hz : forall t, In t (tensors a) \/ In t (tensors b) -> covered (without mx my M ++ [z]) t).
      { intros t Ht. exists i, (length P - 2), (join a b). split; [apply in_app_iff; simpl; auto|].
        rewrite (join_tensors a b), in_app_iff. auto. }
      intros t Ht. rewrite tens_join in Ht. apply F5. destruct Ht as [(j & k & u & Hin & Ht)|[Ht|[Ht|Ht]]]; auto.
      left. rewrite PM in Hin. destruct Hin as [E|[E|Hin]].
      * inversion E; subst. auto.
      * inversion E; subst. auto.
      * exists j, k, u. split; auto. apply in_app_iff. auto.
Qed.

Lemma merge_one_bad i p : forall (P M : list ltm) used mpath cs r,
  minv P M used i -> perform (map snd P) p = Some (cs, r) -> (exists t, In t (alltens cs) /\ In t used) ->
  merge_one i p (map fst P) (map fst M) mpath = Err Throw.
Proof.
  induction p as [|(x, y) p IH]; intros P M used mpath cs r HI Hp (t & Ht & Hu).
  - inversion Hp; subst. destruct Ht.
  - destruct (perform_cons (mi_tP HI) Hp) as (lo & hi & a & b & cs' & Es & Hlt & Ha & Hb & -> & Hp').
    destruct (nth_snd Ha) as (la & Ha'). destruct (nth_snd Hb) as (lb & Hb').
    assert (Fa : nth_error (map fst P) lo = Some la) by (rewrite nth_error_map, Ha'; auto).
    assert (Fb : nth_error (map fst P) hi = Some lb) by (rewrite nth_error_map, Hb'; auto).
    destruct (pop_two Hlt Fa Fb) as (k1 & F1 & F2).
    destruct (mi_in HI (nth_error_In _ _ Ha')) as [(HaM & HaU)|(t' & E & Hu')].
    2:{ inversion E; subst. cbn [merge_one]. rewrite Es, F1. cbn [bind]. rewrite F2. cbn [bind].
        rewrite (index_none mlab_eqb_ok (mi_us HI Hu')). auto. }
    destruct (mi_in HI (nth_error_In _ _ Hb')) as [(HbM & HbU)|(t' & E & Hu')].
    2:{ inversion E; subst. cbn [merge_one]. rewrite Es, F1. cbn [bind]. rewrite F2. cbn [bind].
        destruct (index_ok mlab_eqb_ok (l := map fst M) (x := la)) as (ia & Eia & Nia); [apply (in_map fst) in HaM; auto|].
        rewrite Eia. cbn [bind]. rewrite (index_none mlab_eqb_ok (mi_us HI Hu')). auto. }
    simpl in HaU, HbU.
    assert (Hua : forall t, In t (tensors a) \/ In t (tensors b) -> ~ In t used) by (intros t' [H|H]; auto).
    destruct (merge_step p mpath HI Es Hlt Ha' Hb' HaM HbM Hua) as (mx & my & Hm & E1 & E2 & HI' & PM).
    cbv zeta in E1, E2, HI'. rewrite without_map in Hp'. rewrite E1. eapply IH; [exact HI'| |].
    + rewrite map_app. exact Hp'.
    + exists t. split; auto. apply tens_join in Ht. destruct Ht as [Ht|[Ht|Ht]]; auto; exfalso; eapply Hua; eauto.
Qed.

(** *** All the paths *)
Definition start (n : nat) : list ltm := map (fun t => (Orig t, S_Path.T t)) (seq 0 n).
Lemma start_fst n : map fst (start n) = map Orig (seq 0 n).
Proof. unfold start. rewrite map_map. auto. Qed.
Lemma start_snd n : map snd (start n) = map S_Path.T (seq 0 n).
Proof. unfold start. rewrite map_map. auto. Qed.

(** Invariant between paths. *)
Record ginv (n : nat) (M : list ltm) (used : list nat) (i : nat) : Prop := {
  gi_M : NoDup (map fst M);
  gi_t : NoDup (alltens (map snd M));
  gi_a : forall t, t < n -> In (Orig t, S_Path.T t) M \/ In t used;
  gi_u : forall t, In t used -> ~ In (Orig t) (map fst M);
  gi_j : forall j k, In (New j k) (map fst M) -> j < i;
  gi_o : forall t u, In (Orig t, u) M -> u = S_Path.T t;
  gi_c : forall t, In t used -> covered M t
}.

Lemma covered_orig (M : list ltm) t : NoDup (alltens (map snd M)) -> (forall t u, In (Orig t, u) M -> u = S_Path.T t) ->
  covered M t -> ~ In (Orig t) (map fst M).
Proof.
  intros HN HO (j & k & u & Hin & Ht) Hx. apply in_map_iff in Hx. destruct Hx as ((o & w) & E & Hw). simpl in E. subst o.
  pose proof (HO _ _ Hw). subst w.
  apply in_split in Hin. destruct Hin as (l1 & l2 & ->). rewrite map_app in HN. simpl in HN. rewrite alltens_app in HN. simpl in HN.
  apply (Permutation_NoDup (Permutation_app_comm _ _)) in HN. rewrite <- app_assoc in HN. apply NoDup_app in HN.
  destruct HN as (_ & _ & HN). apply (HN t Ht). apply in_app_iff in Hw. apply in_app_iff.
  assert (G : forall l, In (Orig t, S_Path.T t) l -> In t (alltens (map snd l))).
  { intros l Hl. apply in_flat_map. exists (S_Path.T t). split; [apply (in_map snd) in Hl; auto|simpl; auto]. }
  destruct Hw as [Hw|[E|Hw]]; [right|discriminate|left]; auto.
Qed.

Lemma ginv_minv n M used i : ginv n M used i -> minv (start n) M used i.
Proof.
  intros [H1 H2 H3 H4 H5 H6 H7]. constructor; auto.
  - rewrite start_fst. apply FinFun.Injective_map_NoDup; [intros a b E; congruence|apply seq_NoDup].
  - rewrite start_snd, alltens_start. apply seq_NoDup.
  - intros pr Hin. apply in_map_iff in Hin. destruct Hin as (t & <- & Ht). apply in_seq in Ht.
    destruct (in_dec Nat.eq_dec t used) as [Hu|Hu]; [right; eauto|left]. destruct (H3 t); [lia| |contradiction]. split; auto.
    simpl. intros t' [->|[]]; auto.
  - intros k [Hk|Hk].
    + rewrite start_fst in Hk. apply in_map_iff in Hk. destruct Hk as (t & E & _). discriminate.
    + apply H5 in Hk. lia.
  - intros j k Hk. apply H5 in Hk. lia.
Qed.

Lemma ginv_start n : ginv n (start n) [] 0.
Proof.
  constructor; try (simpl; tauto).
  - rewrite start_fst. apply FinFun.Injective_map_NoDup; [intros a b E; congruence|apply seq_NoDup].
  - rewrite start_snd, alltens_start. apply seq_NoDup.
  - intros t Ht. left. apply in_map_iff. exists t. split; auto. apply in_seq. lia.
  - intros j k Hk. rewrite start_fst in Hk. apply in_map_iff in Hk. destruct Hk as (t & E & _). discriminate.
  - intros t u Hin. apply in_map_iff in Hin. destruct Hin as (t' & E & _). congruence.
Qed.

Lemma ginv_next n M used i P' M' cs :
  ginv n M used i -> minv P' M' used i ->
  (forall t, In (Orig t, S_Path.T t) M -> In (Orig t, S_Path.T t) M' \/ In t (alltens cs)) ->
  (forall t, covered M t \/ In t (alltens cs) -> covered M' t) ->
  ginv n M' (used ++ alltens cs) (S i).
Proof.
  intros [H1 H2 H3 H4 H5 H6 H7] HI HA HC.
  assert (HC' : forall t, In t (used ++ alltens cs) -> covered M' t).
  { intros t Ht. apply in_app_iff in Ht. apply HC. destruct Ht; auto. }
  constructor; auto.
  - apply (mi_M HI).
  - apply (mi_tM HI).
  - intros t Ht. rewrite in_app_iff. destruct (H3 t Ht) as [H|H]; auto. destruct (HA t H); auto.
  - intros t Ht. apply covered_orig; auto; [apply (mi_tM HI)|apply (mi_o HI)].
  - intros j k Hk. pose proof (mi_j HI Hk). lia.
  - apply (mi_o HI).
Qed.

Lemma merge_all_ok n : forall ps css i M used mpath,
  ginv n M used i -> Forall2 (fun p cs => exists r, perform (map S_Path.T (seq 0 n)) p = Some (cs, r)) ps css ->
  (forall t, In t used -> forall cs, In cs css -> ~ In t (alltens cs)) ->
  (forall a b cs cs', nth_error css a = Some cs -> nth_error css b = Some cs' -> a <> b -> forall t, In t (alltens cs) -> ~ In t (alltens cs')) ->
  exists M' q, merge_all n i ps (map fst M) mpath = Ok (map fst M', mpath ++ q) /\
    perform (map snd M) q = Some (concat css, map snd M').
Proof.
  induction ps as [|p ps IH]; intros css i M used mpath HG HF Hus Hdis; inversion HF as [|? cs ? css' (r & Hr) HF']; subst.
  - exists M, []. rewrite app_nil_r. auto.
  - pose proof (ginv_minv HG) as HI. rewrite <- start_snd in Hr.
    destruct (merge_one_ok mpath HI Hr) as (P' & M' & q & E1 & E2 & E3 & E4 & E5).
    { intros t Ht Hu. apply (Hus t Hu cs); simpl; auto. }
    destruct (IH css' (S i) M' (used ++ alltens cs) (mpath ++ q)) as (M2 & q2 & F1 & F2); auto.
    + eapply ginv_next; eauto.
    + intros t Ht cs' Hcs'. apply in_app_iff in Ht. destruct Ht as [Ht|Ht].
      * apply (Hus t Ht cs'). simpl. auto.
      * apply In_nth_error in Hcs'. destruct Hcs' as (b & Hb). apply (Hdis 0 (S b) cs cs'); auto.
    + intros a b c1 c2 Ha Hb Hn. apply (Hdis (S a) (S b) c1 c2); auto.
    + exists M2, (q ++ q2). cbn [merge_all]. rewrite <- start_fst, E1. cbn [bind]. rewrite F1, app_assoc. split; auto.
      rewrite perform_app, E2, F2. auto.
Qed.

Lemma merge_all_bad n : forall ps css i M used mpath,
  ginv n M used i -> Forall2 (fun p cs => exists r, perform (map S_Path.T (seq 0 n)) p = Some (cs, r)) ps css ->
  (exists t, In t used /\ exists cs, In cs css /\ In t (alltens cs)) \/
  (exists a b cs cs' t, nth_error css a = Some cs /\ nth_error css b = Some cs' /\ a < b /\ In t (alltens cs) /\ In t (alltens cs')) ->
  merge_all n i ps (map fst M) mpath = Err Throw.
Proof.
  induction ps as [|p ps IH]; intros css i M used mpath HG HF Hbad; inversion HF as [|? cs ? css' (r & Hr) HF']; subst.
  - exfalso. destruct Hbad as [(t & _ & c & [] & _)|(a & b & c & c' & t & H & _)]. destruct a; discriminate.
  - pose proof (ginv_minv HG) as HI. rewrite <- start_snd in Hr. cbn [merge_all]. rewrite <- start_fst.
    destruct (existsb (fun t => if in_dec Nat.eq_dec t used then true else false) (alltens cs)) eqn:Eb.
    + apply existsb_exists in Eb. destruct Eb as (t & Ht & Hd). destruct (in_dec Nat.eq_dec t used) as [Hu|]; [|discriminate].
      rewrite (merge_one_bad mpath HI Hr) by eauto. auto.
    + assert (Hfree : forall t, In t (alltens cs) -> ~ In t used).
      { intros t Ht Hu. assert (existsb (fun t => if in_dec Nat.eq_dec t used then true else false) (alltens cs) = true); [|congruence].
        apply existsb_exists. exists t. destruct (in_dec Nat.eq_dec t used); auto. }
      destruct (merge_one_ok mpath HI Hr Hfree) as (P' & M' & q & E1 & E2 & E3 & E4 & E5).
      rewrite E1. cbn [bind]. apply IH with (css := css') (used := used ++ alltens cs); auto.
      * eapply ginv_next; eauto.
      * destruct Hbad as [(t & Hu & c & [<-|Hc] & Ht)|(a & b & c & c' & t & Ha & Hb & Hab & Ht & Ht')].
        -- exfalso. eapply Hfree; eauto.
        -- left. exists t. split; [apply in_app_iff; auto|]. eauto.
        -- destruct b as [|b]; [lia|]. simpl in Hb. destruct a as [|a]; simpl in Ha.
           ++ inversion Ha; subst. left. exists t. split; [apply in_app_iff; auto|]. exists c'. split; auto. eapply nth_error_In; eauto.
           ++ right. exists a, b, c, c', t. repeat (split; auto). lia.
Qed.
