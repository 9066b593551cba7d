(** ContractionTree.__init__ as a whole. *)
From Coq Require Import Permutation Sorted.
From Verif Require Import M_Base M_Bitset M_Tree M_CTree M_Cost S_Tree S_Opt P_Base P_Tree P_Shape P_TreeProps P_TreeMain P_TreeValid P_Bitset P_Opt P_InfMem M_Path M_PyTree S_Path S_PyTree P_Path P_Split P_PathMain P_PyRun P_PyPath P_PyBuild P_PyTens.
Set Implicit Arguments.
Unset Strict Implicit.

Lemma get_all_ok (A : Type) (d : A) ts xs : (forall x, In x xs -> x < length ts) -> get_all ts xs = Ok (map (fun x => nth x ts d) xs).
Proof.
  induction xs as [|x xs IH]; simpl; auto. intros H. rewrite (get_some (nth_error_nth' ts d (H x (or_introl eq_refl)))).
  cbn [bind]. rewrite IH by auto. auto.
Qed.

(** ** Ranks of indices *)
Section Order.
Variable order : list nat.
Hypothesis HO : NoDup order.
Definition rf (x : nat) : nat := match rank order x with Ok i => i | Err _ => 0 end.
Lemma rf_ok x : In x order -> rank order x = Ok (rf x) /\ nth_error order (rf x) = Some x.
Proof. intros H. destruct (index_ok Nat.eqb_eq H) as (i & E & Hi). unfold rf, rank. rewrite E. auto. Qed.
Lemma rf_of i x : nth_error order i = Some x -> rf x = i.
Proof. intros H. unfold rf, rank. rewrite (index_first Nat.eqb_eq HO H). auto. Qed.
Lemma rank_all_ok xs : incl xs order -> rank_all order xs = Ok (map rf xs).
Proof.
  induction xs as [|x xs IH]; simpl; auto. intros H. destruct (rf_ok (H x (or_introl eq_refl))) as (E & _). rewrite E. cbn [bind].
  rewrite IH; auto. intros y Hy. apply H. simpl. auto.
Qed.
Lemma rf_in i xs : incl xs order -> (In i (map rf xs) <-> exists x, nth_error order i = Some x /\ In x xs).
Proof.
  intros H. rewrite in_map_iff. split.
  - intros (x & <- & Hx). exists x. split; auto. apply rf_ok. auto.
  - intros (x & E & Hx). exists x. split; auto. apply rf_of. auto.
Qed.
Lemma max_pos_le xs m : (forall l, In l xs -> forall i, In i l -> i < m) -> max_pos xs <= m.
Proof.
  induction xs as [|l xs IH]; simpl; [lia|]. intros H. apply Nat.max_lub; [|apply IH; intros; eapply H; eauto].
  destruct l as [|i l]; [lia|]. assert (Hm : list_max (i :: l) <= m - 1); [|].
  { apply list_max_le. apply Forall_forall. intros j Hj. specialize (H _ (or_introl eq_refl) j Hj). lia. }
  specialize (H _ (or_introl eq_refl) i (or_introl eq_refl)). lia.
Qed.
Lemma max_pos_ge xs l i : In l xs -> In i l -> i < max_pos xs.
Proof.
  induction xs as [|l' xs IH]; simpl; [tauto|]. intros [->|H] Hi.
  - destruct l as [|j l]; [destruct Hi|]. assert (Hm : i <= list_max (j :: l)); [|lia].
    assert (F : Forall (fun k => k <= list_max (j :: l)) (j :: l)) by (apply list_max_le; auto). rewrite Forall_forall in F. apply F. auto.
  - specialize (IH H Hi). lia.
Qed.
Lemma max_pos_eq ts2 : (forall x, In x order <-> In x (concat ts2)) -> max_pos (map (map rf) ts2) = length order.
Proof.
  intros H. apply Nat.le_antisymm.
  - apply max_pos_le. intros l Hl i Hi. apply in_map_iff in Hl. destruct Hl as (xs & <- & Hxs). apply in_map_iff in Hi.
    destruct Hi as (x & <- & Hx). assert (Hxo : In x order) by (apply H; apply in_concat; eauto). destruct (rf_ok Hxo) as (_ & E). eapply nth_error_lt; eauto.
  - destruct (length order) as [|m] eqn:El; [lia|].
    destruct (nth_error order m) as [x|] eqn:Em; [|apply nth_error_None in Em; lia].
    assert (Hx : In x (concat ts2)) by (apply H; eapply nth_error_In; eauto). apply in_concat in Hx. destruct Hx as (xs & Hxs & Hx).
    assert (Hr : rf x = m) by (apply rf_of; auto).
    apply (@max_pos_ge (map (map rf) ts2) (map rf xs) m); [apply in_map; auto|]. rewrite <- Hr. apply in_map. auto.
Qed.
End Order.

Lemma build_inds_ok xs n : (forall l, In l xs -> forall i, In i l -> i < n) ->
  exists bs, build_inds xs n = Ok bs /\ length bs = length xs /\
    forall v l, nth_error xs v = Some l -> exists b, nth_error bs v = Some b /\ length b = n /\ forall i, btest b i = true <-> In i l.
Proof.
  induction xs as [|l xs IH]; intros H.
  - exists []. simpl. split; auto. split; auto. intros [|v] l E; discriminate.
  - destruct (@of_positions_ok l n) as (b & E & L & Hb); [intros i; apply H; simpl; auto|].
    destruct IH as (bs & E1 & L1 & H1); [intros l' Hl'; apply H; simpl; auto|].
    exists (b :: bs). simpl. rewrite E. cbn [bind]. rewrite E1. cbn [bind]. split; auto. split; auto.
    intros [|v] l' El; simpl in El |- *; [inversion El; subst; exists b; auto|]. apply H1. auto.
Qed.

(** ** Dimensions *)
Lemma dims_of_ok d order : (forall x, In x order -> exists k, dim_is d x k /\ k <> 0%N) ->
  exists ds, dims_of d order = Ok ds /\ length ds = length order /\ (forall k, In k ds -> k <> 0%N) /\
    forall i x, nth_error order i = Some x -> exists k, nth_error ds i = Some k /\ dim_is d x k.
Proof.
  induction order as [|x order IH]; intros H.
  - exists []. simpl. split; auto. split; auto. split; [tauto|]. intros [|i] x E; discriminate.
  - destruct IH as (ds & E & L & Hp & Hn); [intros; apply H; simpl; auto|]. destruct (H x (or_introl eq_refl)) as (k & Hk & Hk0).
    exists (k :: ds). simpl. assert (Ek : match d with PyDict l => dict_get l x | PyInt k0 => Ok k0 end = Ok k).
    { destruct d as [l|j]; simpl in Hk; auto. subst. auto. }
    rewrite Ek. cbn [bind]. rewrite E. cbn [bind]. split; auto. split; auto. split; [intros k' [<-|Hk']; auto|].
    intros [|i] y Ey; simpl in Ey |- *; [inversion Ey; subst; eauto|]. auto.
Qed.
Lemma dim_is_fun d x k k' : dim_is d x k -> dim_is d x k' -> k = k'.
Proof. destruct d; simpl; congruence. Qed.
Lemma collapse_ok ds i k : nth_error ds i = Some k -> dimension (collapse_dims (DVec ds)) i = Z.of_N k.
Proof.
  intros H. destruct ds as [|x l]; [destruct i; discriminate|]. unfold collapse_dims. destruct (forallb _ (x :: l)) eqn:E.
  - rewrite forallb_forall in E. apply nth_error_In in H. apply E in H. apply N.eqb_eq in H. subst. auto.
  - cbv [dimension]. rewrite (nth_error_nth _ _ _ H). auto.
Qed.

Lemma collapse_pos ds m : length ds = m -> (forall k, In k ds -> k <> 0%N) ->
  match collapse_dims (DVec ds) with
  | DVec l => (length l =? m) && forallb (fun d => negb (d =? 0)%N) l
  | DInt d => negb (d =? 0)%N
  end = true.
Proof.
  intros L H. assert (HD : (length ds =? m) && forallb (fun d => negb (d =? 0)%N) ds = true).
  { apply andb_true_intro. split; [apply Nat.eqb_eq; auto|]. apply forallb_forall. intros k Hk. apply negb_true_iff, N.eqb_neq. auto. }
  destruct ds as [|k0 ds]; [exact HD|]. unfold collapse_dims. destruct (forallb (fun y => (y =? k0)%N) (k0 :: ds)); [|exact HD].
  apply negb_true_iff, N.eqb_neq. apply H. simpl. auto.
Qed.

(** ** Counting *)
Lemma filter_map_len (A B : Type) (f : B -> bool) (g : A -> B) l : length (filter f (map g l)) = length (filter (fun x => f (g x)) l).
Proof. induction l as [|a l IH]; simpl; auto. destruct (f (g a)); simpl; auto. Qed.
Lemma count_app x l k : count x (l ++ k) = count x l + count x k.
Proof. unfold count. rewrite filter_app, app_length. auto. Qed.
Lemma count_nodup x l : NoDup l -> count x l = if memb x l then 1 else 0.
Proof.
  induction 1 as [|y l H HN IH]; auto. unfold count, memb in *. simpl. destruct (Nat.eqb_spec x y) as [->|]; simpl; auto.
  rewrite IH. destruct (existsb (Nat.eqb y) l) eqn:E; auto. apply memb_In in E. contradiction.
Qed.
Lemma count_concat ts x l : (forall t, In t l -> NoDup (nth t ts [])) ->
  count x (concat (map (fun t => nth t ts []) l)) = length (filter (fun t => memb x (nth t ts [])) l).
Proof.
  induction l as [|t l IH]; intros H; auto. simpl. rewrite count_app, IH by (intros; apply H; simpl; auto).
  rewrite count_nodup by (apply H; simpl; auto). destruct (memb x (nth t ts [])); auto.
Qed.
Lemma three (l : list nat) : NoDup l -> 2 < length l -> exists a b c, NoDup [a; b; c] /\ incl [a; b; c] l.
Proof.
  intros HN H. destruct l as [|a [|b [|c l]]]; simpl in H; try lia. exists a, b, c. split.
  - change (a :: b :: c :: l) with ([a; b; c] ++ l) in HN. apply NoDup_app in HN. tauto.
  - intros x Hx. simpl in *. tauto.
Qed.

Fixpoint internals (S : bt) : list bt :=
  match S with Lf _ => [] | Nd p l r => internals l ++ internals r ++ [Nd p l r] end.
Lemma internals_in S U : In U (internals S) <-> subtree U S /\ exists p l r, U = Nd p l r.
Proof.
  induction S as [t|p l IHl r IHr]; simpl.
  - split; [tauto|]. intros (H & q & a & b & ->). inversion H.
  - rewrite !in_app_iff, IHl, IHr. simpl. split.
    + intros [(H & E)|[(H & E)|[<-|[]]]].
      * split; auto. apply sub_left. auto.
      * split; auto. apply sub_right. auto.
      * split; [constructor|eauto].
    + intros (H & E). inversion H; subst; auto.
Qed.
Lemma internals_nodup S : NoDup (positions S) -> NoDup (internals S).
Proof.
  induction S as [t|p l IHl r IHr]; simpl; intros HN; [constructor|]. inversion HN as [|? ? N1 N2]; subst.
  apply NoDup_app in N2. destruct N2 as (Nl & Nr & D).
  assert (IP : forall U V, In U (internals V) -> In (top U) (positions V)).
  { intros U V H. apply internals_in in H. destruct H as (H & _). apply (sub_pos H), top_pos. }
  apply NoDup_app. split; auto. split.
  - apply NoDup_app. split; auto. split; [constructor; [tauto|constructor]|]. intros U H [<-|[]]. apply IP in H. simpl in H.
    apply N1. apply in_app_iff. auto.
  - intros U H1 H2. apply in_app_iff in H2. apply IP in H1. destruct H2 as [H2|[<-|[]]].
    + apply IP in H2. apply (D (top U)); auto.
    + simpl in H1. apply N1. apply in_app_iff. auto.
Qed.
Lemma contractions_internals names f S : (forall t, In t (leaves S) -> nth (f t) names 0 = t) ->
  term_of names (relabel f S) = tm S /\ contractions names (relabel f S) = map tm (internals S).
Proof.
  induction S as [t|p l IHl r IHr]; simpl; intros H; [rewrite H; auto|].
  destruct IHl as (E1 & E2); [intros; apply H; apply in_app_iff; auto|].
  destruct IHr as (E3 & E4); [intros; apply H; apply in_app_iff; auto|].
  rewrite E1, E2, E3, E4, !map_app. auto.
Qed.

(** ** The whole constructor *)
Section Main.
Variables (ts : list (list nat)) (p : path) (cs rest : list term) (root : term) (d : pydims) (output : option (list nat)) (chk : bool).
Hypothesis Hnd : forall xs, In xs ts -> NoDup xs.
Hypothesis Hp : performs (length ts) p cs rest.
Hypothesis Hne : p <> [].
Hypothesis Hroot : In root rest.
Hypothesis Hall : forall c, In c cs -> incl (tensors c) (tensors root).
Hypothesis Hdim : forall x, occurs ts (tensors root) x -> exists k, dim_is d x k /\ k <> 0%N.

Let n := length ts.

Lemma term_C l r : join (tm l) (tm r) = C (tm l) (tm r) \/ join (tm l) (tm r) = C (tm r) (tm l).
Proof. unfold join. match goal with |- context [if ?b then _ else _] => destruct b end; auto. Qed.

Section WithRoot.
Variables (bs : list bt) (R : bt).
Hypothesis HRT : root_tree n p cs root bs R.
Let us := used n bs.
Let occ := concat (map (fun t => nth t ts []) us).

Lemma us_lt t : In t us -> t < n.
Proof. intros H. apply (used_in HRT Hne) in H. apply (rt_lv HRT). auto. Qed.
Lemma us_root t : In t us <-> In t (tensors root).
Proof. unfold us. rewrite (used_in HRT Hne), (rt_lf HRT). tauto. Qed.
Lemma us_nodup : NoDup us. Proof. apply used_nodup. Qed.
Lemma nth_nodup t : NoDup (nth t ts []).
Proof.
  destruct (Nat.lt_ge_cases t (length ts)) as [H|H]; [apply Hnd, nth_In; auto|]. rewrite nth_overflow by auto. constructor.
Qed.
Lemma at_nth t x : at_ ts t x <-> In x (nth t ts []).
Proof.
  split.
  - intros (xs & E & H). rewrite (nth_error_nth _ _ [] E). auto.
  - intros H. destruct (Nat.lt_ge_cases t (length ts)) as [Ht|Ht]; [|rewrite nth_overflow in H by auto; destruct H].
    exists (nth t ts []). split; auto. apply nth_error_nth'. auto.
Qed.
Lemma uts_ok : get_all ts us = Ok (map (fun t => nth t ts []) us).
Proof. apply get_all_ok. intros x Hx. apply us_lt in Hx. auto. Qed.
Lemma occ_in x : In x occ <-> occurs ts us x.
Proof.
  unfold occ. rewrite in_concat, occurs_iff. split.
  - intros (xs & H & Hx). apply in_map_iff in H. destruct H as (t & <- & Ht). exists t. split; auto. apply at_nth. auto.
  - intros (t & Ht & Hx). exists (nth t ts []). split; [apply in_map_iff; eauto|apply at_nth; auto].
Qed.
Lemma occ_count x : count x occ = length (filter (fun t => memb x (nth t ts [])) us).
Proof. apply count_concat. intros; apply nth_nodup. Qed.
Lemma occ_carrier x t : In t (filter (fun t => memb x (nth t ts [])) us) <-> In t us /\ at_ ts t x.
Proof. rewrite filter_In, memb_In, at_nth. tauto. Qed.
Lemma once_iff x : only_once ts us x <-> count x occ = 1.
Proof.
  rewrite occ_count. pose proof (occ_carrier x) as Hc.
  assert (HN : NoDup (filter (fun t => memb x (nth t ts [])) us)) by (apply NoDup_filter, us_nodup).
  set (l := filter (fun t => memb x (nth t ts [])) us) in *. split.
  - intros (t & Ht). assert (Hl : forall t', In t' l <-> t' = t) by (intros t'; rewrite Hc; apply Ht).
    destruct l as [|a [|b l']]; auto.
    + exfalso. apply (Hl t). auto.
    + exfalso. assert (a = t) by (apply Hl; simpl; auto). assert (b = t) by (apply Hl; simpl; auto). inversion HN as [|? ? N1 _]. apply N1. subst. simpl. auto.
  - intros Hl. destruct l as [|a [|b l']] eqn:E; try discriminate. exists a. intros t'. rewrite <- (Hc t'). simpl. intuition.
Qed.
Lemma thrice_iff x : thrice ts us x <-> 2 < count x occ.
Proof.
  rewrite occ_count. pose proof (occ_carrier x) as Hc.
  assert (HN : NoDup (filter (fun t => memb x (nth t ts [])) us)) by (apply NoDup_filter, us_nodup). split.
  - intros (a & b & c & H1 & H2). pose proof (@NoDup_incl_length _ _ (filter (fun t => memb x (nth t ts [])) us) H1) as H3.
    specialize (H3 (fun t Ht => proj2 (Hc t) (H2 t Ht))). change (length [a; b; c]) with 3 in H3. lia.
  - intros H. destruct (three HN H) as (a & b & c & H1 & H2). exists a, b, c. split; auto. intros t Ht. apply H2 in Ht. apply Hc in Ht. auto.
Qed.

Definition op (x : nat) : Prop := only_once ts us x \/ exists o, output = Some o /\ In x o.

Lemma outputs_ok : (output = None -> forall x, ~ thrice ts us x) ->
  exists out, outputs occ output = Ok out /\ forall x, occurs ts us x -> (open ts us out x <-> op x).
Proof.
  intros Ht. unfold outputs, open, op. destruct output as [o|].
  - eexists. split; [reflexivity|]. intros x Hx. rewrite filter_In, unique_in, memb_In, occ_in. split.
    + intros [(H1 & H2)|H]; auto. right. eauto.
    + intros [H|(o' & E & H)]; auto. inversion E; subst. auto.
  - assert (Hb : existsb (fun x => 1 <? count x occ - 1) occ = false).
    { apply not_true_iff_false. intros Hb. apply existsb_exists in Hb. destruct Hb as (x & Hx & Hb). apply Nat.ltb_lt in Hb.
      apply (Ht eq_refl x). apply thrice_iff. lia. }
    rewrite Hb. eexists. split; [reflexivity|]. intros x Hx. rewrite filter_In, unique_in, Nat.eqb_eq. split.
    + intros [(H1 & H2)|H]; auto. left. apply once_iff. apply occ_in in Hx.
      assert (0 < count x occ); [|lia]. unfold count. destruct (filter (Nat.eqb x) occ) eqn:E; simpl; [|lia].
      assert (Hf : In x (filter (Nat.eqb x) occ)) by (apply filter_In; split; auto; apply Nat.eqb_refl). rewrite E in Hf. destruct Hf.
    + intros [H|(o & E & _)]; [auto|discriminate].
Qed.
Lemma outputs_err x : output = None -> thrice ts us x -> outputs occ output = Err Throw.
Proof.
  intros -> H. unfold outputs. apply thrice_iff in H as Hc.
  assert (Hb : existsb (fun x => 1 <? count x occ - 1) occ = true).
  { apply existsb_exists. exists x. split; [|apply Nat.ltb_lt; lia]. apply occ_in. destruct H as (a & b & c & _ & H).
    destruct (H a (or_introl eq_refl)) as (H1 & H2). apply occurs_iff. exists a. auto. }
  rewrite Hb. auto.
Qed.

Lemma leaf_spec out t xs : In t us -> nth_error ts t = Some xs -> spec ts us out (Lf t) xs.
Proof.
  intros Ht E. split; [apply Hnd; eapply nth_error_In; eauto|]. intros x. rewrite !occurs_iff. simpl. split.
  - intros Hx. assert (At : at_ ts t x) by (exists xs; auto). split; [exists t; auto|].
    destruct (existsb (fun t' => negb (t' =? t) && memb x (nth t' ts [])) us) eqn:Ex.
    + left. apply existsb_exists in Ex. destruct Ex as (t' & Ht' & Hb). apply andb_prop in Hb. destruct Hb as (H1 & H2).
      apply negb_true_iff in H1. apply Nat.eqb_neq in H1. apply memb_In in H2. exists t'. split; [apply outer_in; split; auto; simpl; intuition|].
      apply at_nth. auto.
    + right. right. exists t. intros t'. split.
      * intros (H1 & H2). destruct (Nat.eq_dec t' t); auto. exfalso. apply not_true_iff_false in Ex. apply Ex. apply existsb_exists.
        exists t'. split; auto. apply andb_true_intro. split; [apply negb_true_iff, Nat.eqb_neq; auto|]. apply memb_In. apply at_nth. auto.
      * intros ->. auto.
  - intros ((t' & [<-|[]] & (xs' & E' & Hx)) & _). congruence.
Qed.

Definition shares_all : Prop := forall a b, In (C a b) cs -> exists x, occurs ts (tensors a) x /\ occurs ts (tensors b) x.

Lemma tm_occurs S x : occurs ts (tensors (tm S)) x <-> occurs ts (leaves S) x.
Proof.
  rewrite !occurs_iff. split; intros (t & H1 & H2); exists t; split; auto.
  - rewrite <- tm_leaves. auto.
  - rewrite tm_leaves. auto.
Qed.
Lemma shares_iff : shares_all <-> (forall q l r, In (Nd q l r) bs -> shares ts l r).
Proof.
  pose proof (rt_cs HRT) as Ecs. split.
  - intros H q l r Hin. assert (Hc : In (tm (Nd q l r)) cs) by (rewrite <- Ecs; apply in_map; auto). simpl in Hc.
    destruct (term_C l r) as [E|E]; rewrite E in Hc; destruct (H _ _ Hc) as (x & H1 & H2); exists x; rewrite <- !tm_occurs; auto.
  - intros H a b Hc. rewrite <- Ecs in Hc. apply in_map_iff in Hc. destruct Hc as (S & E & HS).
    destruct (rt_bs HRT HS) as (_ & q & l & r & ->). destruct (H _ _ _ HS) as (x & H1 & H2). rewrite <- !tm_occurs in *. simpl in E.
    destruct (term_C l r) as [E'|E']; rewrite E' in E; inversion E; subst; eauto.
Qed.

Lemma bs_len : length bs = length p.
Proof. rewrite <- (map_length top), (rt_tops HRT), seq_length. auto. Qed.
Lemma run_build out :
  ((exists ts1, build_tensors chk (map tri bs) (ts ++ repeat [] (length (map tri bs))) (hyper_count occ out) = Ok ts1 /\
     length ts1 = n + length p /\
     (forall i, i < n -> nth_error ts1 i = nth_error ts i) /\
     (forall S, In S bs -> exists X, nth_error ts1 (top S) = Some X /\ spec ts us out S X) /\
     (chk = true -> shares_all)) \/
   (chk = true /\ build_tensors chk (map tri bs) (ts ++ repeat [] (length (map tri bs))) (hyper_count occ out) = Err Throw /\ ~ shares_all)).
Proof.
  destruct (rt_run HRT) as (rest' & Hrun).
  destruct (@perm_split nat us (seq 0 n)) as (un & Pun & Hun); auto using seq_NoDup, us_nodup, Nat.eq_dec.
  { intros t Ht. apply in_seq. apply us_lt in Ht. lia. }
  rewrite map_length, bs_len.
  assert (Efl : forall l, flat_map leaves (map Lf l) = l) by (induction l; simpl; congruence).
  destruct (@build_ok ts us out chk p n _ bs rest' (ts ++ repeat [] (length p)) (hyper_count occ out) (map Lf us) (map Lf un) Hrun)
    as [(ts1 & B1 & B2 & B3 & B4 & B5)|(B1 & B2 & q & l & r & B3 & B4)].
  - rewrite <- map_app. apply Permutation_map. auto.
  - intros S HS t Ht. apply (used_in HRT Hne). destruct (rt_bs HRT HS) as (HS' & _). apply leaf_sub in Ht. apply leaf_sub. eapply sub_trans; eauto.
  - intros S HS. apply in_map_iff in HS. destruct HS as (t & <- & Ht). exists t. simpl. split; auto. apply Hun. auto.
  - rewrite Efl. apply us_nodup.
  - intros t. rewrite Efl. tauto.
  - intros S HS. apply in_map_iff in HS. destruct HS as (t & <- & Ht). simpl. pose proof (us_lt Ht) as Hlt. split; auto.
    exists (nth t ts []). assert (Et : nth_error ts t = Some (nth t ts [])) by (apply nth_error_nth'; auto).
    split; [rewrite nth_error_app1; auto|]. apply leaf_spec; auto.
  - rewrite app_length, repeat_length. auto.
  - intros x. unfold hyper_count. f_equal. f_equal. rewrite occ_count. unfold carriers.
    rewrite filter_map_len. f_equal. apply filter_ext_in. intros t Ht. simpl. rewrite app_nth1; auto. apply us_lt in Ht. auto.
  - left. exists ts1. split; auto. split; [rewrite B2, app_length, repeat_length; auto|]. split; [intros i Hi; rewrite B3 by auto; apply nth_error_app1; auto|].
    split; auto. intros Hc. apply shares_iff. exact (B5 Hc).
  - right. split; auto. split; auto. rewrite shares_iff. intros H. apply B4. eapply H. eauto.
Qed.

Lemma p_len : (length p =? 0) = false.
Proof. apply Nat.eqb_neq. pose proof (plen Hne). lia. Qed.

Lemma main_err1 x : output = None -> thrice ts us x -> pytree_make p ts d output chk = Err Throw.
Proof.
  intros Ho Hx. unfold pytree_make. rewrite p_len. cbn zeta. fold n. rewrite (rt_c HRT). cbn [bind].
  change (used_tensors n (map tri bs)) with us. rewrite uts_ok. cbn [bind]. fold occ. rewrite (outputs_err Ho Hx). auto.
Qed.
Lemma main_err2 : (output = None -> forall x, ~ thrice ts us x) -> chk = true -> ~ shares_all -> pytree_make p ts d output chk = Err Throw.
Proof.
  intros Ho Hc Hs. unfold pytree_make. rewrite p_len. cbn zeta. fold n. rewrite (rt_c HRT). cbn [bind].
  change (used_tensors n (map tri bs)) with us. rewrite uts_ok. cbn [bind]. fold occ.
  destruct (outputs_ok Ho) as (out & Eo & _). rewrite Eo. cbn [bind].
  destruct (run_build out) as [(ts1 & _ & _ & _ & _ & H)|(_ & E & _)]; [exfalso; auto|]. rewrite E. auto.
Qed.

Lemma main_ok : (output = None -> forall x, ~ thrice ts us x) -> (chk = true -> shares_all) ->
  exists t T, pytree_make p ts d output chk = Ok t /\ n_tensors t = length ts /\ tensors_pos t = us /\
    tree_of (nodes (core t)) T /\ term_of us T = root /\ Permutation (contractions us T) cs /\
    NoDup (inds_order t) /\ (forall x, In x (inds_order t) <-> occurs ts (tensors root) x) /\
    (forall S, subtree S T -> forall i, has (core t) (top S) i <->
       exists x, nth_error (inds_order t) i = Some x /\ occurs ts (tensors (term_of us S)) x /\
         ((exists v, In v us /\ ~ In v (tensors (term_of us S)) /\ at_ ts v x) \/ op x)) /\
    (forall i x k, nth_error (inds_order t) i = Some x -> dim_is d x k -> dimension (dims (core t)) i = Z.of_N k).
Proof.
  intros Ho Hs. destruct (outputs_ok Ho) as (out & Eo & Hop).
  destruct (run_build out) as [(ts1 & E1 & L1 & H1 & H2 & _)|(Hc & _ & Hn)]; [|exfalso; auto].
  destruct (nodes_ok HRT Hne) as (zn & ns & Ez & En & Ln & HT).
  set (ps := posl bs) in *. set (rk' := rk bs) in *.
  assert (NR := rt_nd HRT).
  assert (Hps : forall v, In v ps <-> In v (positions R)) by (apply (posl_in HRT Hne)).
  (* the tensor of each position *)
  assert (Hspec : forall S, subtree S R -> nth_error ts1 (top S) = Some (nth (top S) ts1 []) /\ spec ts us out S (nth (top S) ts1 [])).
  { intros S HS. destruct (rt_int HRT HS) as [Hb|(t & -> & Ht)].
    - destruct (H2 S Hb) as (X & EX & SX). rewrite (nth_error_nth _ _ [] EX). auto.
    - simpl. assert (Et : nth_error ts t = Some (nth t ts [])) by (apply nth_error_nth'; auto).
      rewrite <- H1 in Et by auto. rewrite Et. rewrite (nth_error_nth _ _ [] Et). split; auto. apply leaf_spec; [|apply nth_error_nth'; auto].
      apply (used_in HRT Hne). apply leaf_sub. auto. }
  assert (Eg : get_all ts1 ps = Ok (map (fun v => nth v ts1 []) ps)).
  { apply get_all_ok. intros v Hv. apply Hps in Hv. destruct (pos_sub Hv) as (S & HS & <-). destruct (Hspec S HS) as (E & _). eapply nth_error_lt; eauto. }
  set (ts2 := map (fun v => nth v ts1 []) ps) in *. set (order := unique (concat ts2)).
  assert (NO : NoDup order) by apply unique_nodup.
  assert (HO : forall x, In x order <-> In x (concat ts2)) by (intros; apply unique_in).
  assert (Hin2 : forall xs, In xs ts2 -> incl xs order) by (intros xs Hxs x Hx; apply HO; apply in_concat; eauto).
  assert (Hocc : forall x, In x order -> occurs ts (tensors root) x).
  { intros x Hx. apply HO in Hx. apply in_concat in Hx. destruct Hx as (xs & Hxs & Hx). unfold ts2 in Hxs. apply in_map_iff in Hxs.
    destruct Hxs as (v & <- & Hv). apply Hps in Hv. destruct (pos_sub Hv) as (S & HS & <-). destruct (Hspec S HS) as (_ & _ & SX).
    apply SX in Hx. destruct Hx as (Hx & _). apply occurs_iff in Hx. destruct Hx as (t & Ht & At). apply occurs_iff. exists t. split; auto.
    apply (rt_lf HRT). apply leaf_sub in Ht. apply leaf_sub. eapply sub_trans; eauto. }
  assert (Hocc2 : forall x, occurs ts (tensors root) x -> In x order).
  { intros x Hx. apply occurs_iff in Hx. destruct Hx as (t & Ht & xs & Exs & Hx). apply (rt_lf HRT) in Ht. pose proof (rt_lv HRT Ht) as Hlt.
    apply HO. apply in_concat. exists (nth t ts1 []). split.
    - apply in_map_iff. exists t. split; auto. apply Hps. apply leaves_pos. auto.
    - rewrite <- H1 in Exs by auto. rewrite (nth_error_nth _ _ [] Exs). auto. }
  destruct (@dims_of_ok d order) as (ds & Ed & Ld & Hd0 & Hdi). { intros x Hx. apply Hdim. auto. }
  assert (Ex : mapM (rank_all order) ts2 = Ok (map (map (rf order)) ts2)).
  { apply mapM_ok. intros xs Hxs. apply rank_all_ok; auto. }
  assert (Em : max_pos (map (map (rf order)) ts2) = length order) by (apply max_pos_eq; auto).
  destruct (@build_inds_ok (map (map (rf order)) ts2) (length order)) as (bts & Eb & Lb & Hb).
  { intros l Hl i Hi. rewrite <- Em. eapply max_pos_ge; eauto. }
  assert (Lts2 : length ts2 = length ps) by (unfold ts2; apply map_length).
  rewrite map_length, Lts2 in Lb.
  set (T := relabel rk' R) in *.
  set (ct := mkCT ns bts (collapse_dims (DVec ds))).
  assert (Hbit : forall S, subtree S R -> rk' (top S) < length ps /\ length (ix bts (rk' (top S))) = length order /\
     forall i, btest (ix bts (rk' (top S))) i = true <-> exists x, nth_error order i = Some x /\ In x (nth (top S) ts1 [])).
  { intros S HS. assert (Hv : In (top S) (positions R)) by (apply (sub_pos HS), top_pos).
    destruct (rk_ok HRT Hne Hv) as (_ & Er). fold ps rk' in Er. pose proof (nth_error_lt Er) as Hlt. split; auto.
    assert (E2 : nth_error ts2 (rk' (top S)) = Some (nth (top S) ts1 [])) by (unfold ts2; rewrite nth_error_map, Er; auto).
    destruct (Hb (rk' (top S)) (map (rf order) (nth (top S) ts1 []))) as (b & Eb' & Lb' & Hb').
    { rewrite nth_error_map, E2. auto. }
    assert (Eix : ix bts (rk' (top S)) = b) by (apply nth_error_nth; exact Eb'). rewrite Eix. split; auto. intros i. rewrite Hb'. apply rf_in; auto. apply Hin2. eapply nth_error_In; eauto. }
  assert (Hhas : forall S, subtree S R -> forall i, has ct (rk' (top S)) i <-> exists x, nth_error order i = Some x /\ In x (nth (top S) ts1 [])).
  { intros S HS i. destruct (Hbit S HS) as (Hlt & Hl & Hi). rewrite <- Hi. unfold has, ct, ix, btest. simpl.
    assert (En' : nth_error bts (rk' (top S)) = Some (nth (rk' (top S)) bts [])) by (apply nth_error_nth'; lia). rewrite En'. split.
    - intros (b & Eb' & Hb'). inversion Eb'; subst b. apply (nth_error_nth _ _ false Hb').
    - intros Hbi. exists (nth (rk' (top S)) bts []). split; auto.
      destruct (nth_error (nth (rk' (top S)) bts []) i) as [b|] eqn:Ebi; [rewrite (nth_error_nth _ _ false Ebi) in Hbi; subst; auto|].
      apply nth_error_None in Ebi. rewrite nth_overflow in Hbi by auto. discriminate. }
  (* index i at a node, by specification *)
  assert (Hcore : P_Opt.core ns bts (length order)).
  { assert (W : wfl ns) by (eapply tree_of_wfl; eauto). constructor; auto.
    - rewrite Ln. auto.
    - intros v Hv. destruct (tree_of_in HT) as (_ & HT'). apply HT' in Hv. destruct (pos_sub Hv) as (S' & HS' & <-).
      apply relabel_sub in HS'. destruct HS' as (S & HS & ->). rewrite relabel_top. apply Hbit. auto.
    - assert (G : forall v a b q, nth_error ns v = Some (mkNode (Some a) (Some b) q) -> loc (ix bts v) (ix bts a) (ix bts b)).
      { intros v a b q Hnv. destruct (tree_of_in HT) as (_ & HT'). assert (Hv : In v (positions T)) by (apply HT'; eapply nth_error_lt; eauto).
        destruct (pos_sub Hv) as (S' & HS' & <-). destruct HT as (HU & _). destruct (subtree_unfolds HS' HU) as (q' & HU').
        apply relabel_sub in HS'. destruct HS' as (S & HS & ->). destruct S as [t|w l r]; simpl in HU', Hnv.
        - rewrite HU' in Hnv. discriminate.
        - destruct HU' as (E' & _ & _). rewrite E' in Hnv. inversion Hnv; subst a b. rewrite !relabel_top.
          assert (Sl : subtree l R) by (eapply sub_trans; [apply sub_left; constructor|eauto]).
          assert (Sr : subtree r R) by (eapply sub_trans; [apply sub_right; constructor|eauto]).
          destruct (Hbit _ HS) as (_ & _ & Bw). destruct (Hbit _ Sl) as (_ & _ & Bl). destruct (Hbit _ Sr) as (_ & _ & Br). simpl in Bw.
          destruct (Hspec _ HS) as (_ & _ & Xw). destruct (Hspec _ Sl) as (_ & _ & Xl). destruct (Hspec _ Sr) as (_ & _ & Xr). simpl in Xw.
          assert (Hlr : forall t, In t (leaves l) -> In t (leaves r) -> False).
          { pose proof (sub_nodup HS NR) as HN. simpl in HN. inversion HN as [|? ? _ HN']; subst. apply NoDup_app in HN'. destruct HN' as (_ & _ & D).
            intros t T1 T2. apply (D t); apply leaves_pos; auto. }
          assert (Hus : forall S, subtree S R -> forall t, In t (leaves S) -> In t us).
          { intros S0 HS0 t Ht. apply (used_in HRT Hne). apply leaf_sub in Ht. apply leaf_sub. eapply sub_trans; eauto. }
          (* an index of one child only is kept *)
          assert (Keep : forall c o x, subtree c R -> subtree o R -> (c = l /\ o = r \/ c = r /\ o = l) ->
             In x (nth (top c) ts1 []) -> ~ In x (nth (top o) ts1 []) -> In x (nth w ts1 [])).
          { intros c o x Sc So Hco Hx Hnx. destruct (Hspec c Sc) as (_ & _ & Xc). destruct (Hspec o So) as (_ & _ & Xo).
            apply Xc in Hx. destruct Hx as (Hx1 & Hx2).
            assert (Hno : ~ occurs ts (leaves o) x).
            { intros Hxo. apply Hnx. apply Xo. split; auto. left. apply occurs_iff in Hx1. destruct Hx1 as (t & Ht & At). apply occurs_iff.
              exists t. split; auto. apply outer_in. split; [eapply Hus; [exact Sc|auto]|]. intros Ht'.
              destruct Hco as [(-> & ->)|(-> & ->)]; eauto. }
            apply Xw. split.
            - apply occurs_iff in Hx1. destruct Hx1 as (t & Ht & At). apply occurs_iff. exists t. split; auto. apply in_app_iff.
              destruct Hco as [(-> & _)|(-> & _)]; auto.
            - destruct Hx2 as [Hx2|Hx2]; auto. left. apply occurs_iff in Hx2. destruct Hx2 as (t & Ht & At). apply occurs_iff. exists t. split; auto.
              apply outer_in in Ht. destruct Ht as (Ht1 & Ht2). apply outer_in. split; auto. simpl. rewrite in_app_iff.
              assert (Ht3 : ~ In t (leaves o)) by (intros Ht'; apply Hno; apply occurs_iff; eauto).
              destruct Hco as [(-> & ->)|(-> & ->)]; tauto. }
          intros i. split.
          + intros Hx. apply Bw. destruct (btest (ix bts (rk' (top l))) i) eqn:Bil, (btest (ix bts (rk' (top r))) i) eqn:Bir; try discriminate.
            * pose proof (proj1 (Bl i) Bil) as (x & Exi & Hxi). exists x. split; auto. apply (Keep l r); auto. intros Hxr.
              assert (btest (ix bts (rk' (top r))) i = true) by (apply Br; eauto). congruence.
            * pose proof (proj1 (Br i) Bir) as (x & Exi & Hxi). exists x. split; auto. apply (Keep r l); auto. intros Hxr.
              assert (btest (ix bts (rk' (top l))) i = true) by (apply Bl; eauto). congruence.
          + intros Hx. apply Bw in Hx. destruct Hx as (x & Exi & Hxi). apply orb_true_iff.
            apply Xw in Hxi. destruct Hxi as (Hxb & Hxo). apply occurs_iff in Hxb. destruct Hxb as (t & Ht & At). simpl in Ht. apply in_app_iff in Ht.
            assert (HO2 : occurs ts (outer us (Nd w l r)) x -> occurs ts (outer us l) x /\ occurs ts (outer us r) x).
            { intros Hxx. apply occurs_iff in Hxx. destruct Hxx as (t' & Ht' & At'). apply outer_in in Ht'. simpl in Ht'. rewrite in_app_iff in Ht'.
              split; apply occurs_iff; exists t'; split; auto; apply outer_in; tauto. }
            destruct Ht as [Ht|Ht]; [left; apply Bl|right; apply Br]; exists x; split; auto; [apply Xl|apply Xr]; (split; [apply occurs_iff; eauto|tauto]). }
      intros v a b (q & [Hnv|Hnv]); [eapply G; eauto|]. apply loc_sym. eapply G; eauto. }
  assert (Hdok : dims_ok ct = true).
  { assert (Hni : n_inds ct = length order) by (apply (core_n_inds (c := ct)); auto).
    unfold dims_ok. rewrite Hni. apply collapse_pos; auto. }
  assert (Hsh : chk = true -> shared_ok ct).
  { intros Hc. pose proof (proj1 shares_iff (Hs Hc)) as Hsh. clear Hs. unfold shared_ok. simpl.
    assert (G : forall v a b q, nth_error ns v = Some (mkNode (Some a) (Some b) q) -> bintersects (ix bts a) (ix bts b) = true /\ bintersects (ix bts b) (ix bts a) = true).
    { intros v a b q Hnv. destruct (tree_of_in HT) as (_ & HT'). assert (Hv : In v (positions T)) by (apply HT'; eapply nth_error_lt; eauto).
      destruct (pos_sub Hv) as (S' & HS' & <-). destruct HT as (HU & _). destruct (subtree_unfolds HS' HU) as (q' & HU').
      apply relabel_sub in HS'. destruct HS' as (S & HS & ->). destruct S as [t|w l r]; simpl in HU', Hnv; [rewrite HU' in Hnv; discriminate|].
      destruct HU' as (E' & _ & _). rewrite E' in Hnv. inversion Hnv; subst a b. rewrite !relabel_top.
      assert (Sl : subtree l R) by (eapply sub_trans; [apply sub_left; constructor|eauto]).
      assert (Sr : subtree r R) by (eapply sub_trans; [apply sub_right; constructor|eauto]).
      destruct (Hbit _ Sl) as (_ & Ll & Bl). destruct (Hbit _ Sr) as (_ & Lr & Br).
      destruct (Hspec _ Sl) as (_ & _ & Xl). destruct (Hspec _ Sr) as (_ & _ & Xr).
      assert (Hlr : forall t, In t (leaves l) -> In t (leaves r) -> False).
      { pose proof (sub_nodup HS NR) as HN. simpl in HN. inversion HN as [|? ? _ HN']; subst. apply NoDup_app in HN'. destruct HN' as (_ & _ & D).
        intros t T1 T2. apply (D t); apply leaves_pos; auto. }
      assert (Hus : forall S, subtree S R -> forall t, In t (leaves S) -> In t us).
      { intros S0 HS0 t Ht. apply (used_in HRT Hne). apply leaf_sub in Ht. apply leaf_sub. eapply sub_trans; eauto. }
      destruct (rt_int HRT HS) as [Hbs|(t & E'' & _)]; [|discriminate]. destruct (Hsh _ _ _ Hbs) as (x & Ol & Or).
      assert (Il : In x (nth (top l) ts1 [])).
      { apply Xl. split; auto. left. apply occurs_iff in Or. destruct Or as (t & Ht & At). apply occurs_iff. exists t. split; auto. apply outer_in.
        split; [eapply Hus; [exact Sr|auto]|]. intros Ht'. eauto. }
      assert (Ir : In x (nth (top r) ts1 [])).
      { apply Xr. split; auto. left. apply occurs_iff in Ol. destruct Ol as (t & Ht & At). apply occurs_iff. exists t. split; auto. apply outer_in.
        split; [eapply Hus; [exact Sl|auto]|]. intros Ht'. eauto. }
      assert (Hxo : In x order).
      { apply HO. apply in_concat. exists (nth (top l) ts1 []). split; auto. apply in_map_iff. exists (top l). split; auto. apply Hps. apply (sub_pos Sl), top_pos. }
      destruct (In_nth_error _ _ Hxo) as (i & Hi).
      split; apply bintersects_spec; try congruence; exists i; split; (apply Bl || apply Br); eauto. }
    intros v a b (q & [Hnv|Hnv]); [apply (G v a b q Hnv)|apply (G v b a q Hnv)]. }
  assert (Hvalid : ctree_is_valid ct chk = true) by (apply (core_valid (n := length order)); auto).
  assert (Hleaf : forall S, subtree S R -> forall t, In t (leaves S) -> nth (rk' t) us 0 = t).
  { intros S HS t Ht. destruct (@rk_leaf n p cs root bs R HRT Hne t) as (_ & E). { apply leaf_sub in Ht. apply leaf_sub. eapply sub_trans; eauto. }
    apply (nth_error_nth _ _ 0 E). }
  destruct (@contractions_internals us rk' R) as (ET & EC); [apply Hleaf; constructor|]. fold T in ET, EC.
  exists (mkPT ct n us order), T. simpl. split; [|split; [|split; [|split; [|split; [|split; [|split; [|split; [|split]]]]]]]]; auto.
  - unfold pytree_make. rewrite p_len. cbn zeta. fold n. rewrite (rt_c HRT). cbn [bind].
    change (used_tensors n (map tri bs)) with us. rewrite uts_ok. cbn [bind]. fold occ. rewrite Eo. cbn [bind]. rewrite E1. cbn [bind].
    change (sort (unique (flatten3 (map tri bs)))) with ps. rewrite Ez. cbn [bind]. rewrite Eg. cbn [bind]. fold order. rewrite Ed. cbn [bind].
    rewrite En. cbn [bind]. rewrite Ex. cbn [bind]. unfold ctree_make_pos. rewrite make_complete by (exists T; auto). cbn [bind]. rewrite Em, Eb. cbn [bind].
    fold ct. rewrite Hvalid. auto.
  - rewrite ET. apply (rt_tm HRT).
  - rewrite EC, <- (rt_cs HRT). apply Permutation_map. apply NoDup_Permutation; [apply internals_nodup; auto| |].
    + eapply NoDup_map_inv. rewrite (rt_tops HRT). apply seq_NoDup.
    + intros S. rewrite internals_in. split.
      * intros (HS & q & l & r & ->). destruct (rt_int HRT HS) as [H|(t & E & _)]; [auto|discriminate].
      * intros HS. apply (rt_bs HRT HS).
  - intros x. split; auto.
  - intros S' HS' i. apply relabel_sub in HS'. destruct HS' as (S & HS & ->). rewrite relabel_top, Hhas by auto.
    destruct (@contractions_internals us rk' S) as (ES & _); [apply Hleaf; auto|]. rewrite ES.
    destruct (Hspec S HS) as (_ & _ & XS). split; intros (x & Ei & Hx); exists x; (split; [auto|]).
    + apply XS in Hx. destruct Hx as (Hx1 & Hx2). split; [apply tm_occurs; auto|].
      assert (Hu : occurs ts us x).
      { apply occurs_iff in Hx1. destruct Hx1 as (t & Ht & At). apply occurs_iff. exists t. split; auto. apply (used_in HRT Hne).
        apply leaf_sub in Ht. apply leaf_sub. eapply sub_trans; eauto. }
      destruct Hx2 as [Hx2|Hx2]; [left|right; apply Hop; auto]. apply occurs_iff in Hx2. destruct Hx2 as (t & Ht & At). apply outer_in in Ht.
      exists t. rewrite tm_leaves. tauto.
    + destruct Hx as (Hx1 & Hx2). apply (proj1 (tm_occurs S x)) in Hx1. apply XS. split; auto.
      assert (Hu : occurs ts us x).
      { apply occurs_iff in Hx1. destruct Hx1 as (t & Ht & At). apply occurs_iff. exists t. split; auto. apply (used_in HRT Hne).
        apply leaf_sub in Ht. apply leaf_sub. eapply sub_trans; eauto. }
      destruct Hx2 as [(t & H3 & H4 & At)|Hx2]; [left|right; apply Hop; auto]. apply occurs_iff. exists t. split; auto. apply outer_in.
      rewrite tm_leaves in H4. auto.
  - intros i x k Hi Hk. destruct (Hdi i x Hi) as (k' & Ek & Hk'). rewrite (dim_is_fun Hk Hk'). apply (collapse_ok Ek).
Qed.
End WithRoot.
End Main.
