(** ContractionTree.path. *)
From Coq Require Import Permutation Sorted.
From Verif Require Import M_Base M_Tree M_CTree M_Path M_PyTree S_Tree S_Path S_PyTree P_Base P_Path P_Split P_PathMain P_Tree P_Shape P_TreeProps P_TreeMain P_TreeValid P_PyRun.
Set Implicit Arguments.
Unset Strict Implicit.

Local Notation idt := (nat * term)%type.

Definition map3 (f : nat -> nat) (t : triple) : triple := let '(x, y, z) := t in (f x, f y, f z).

Lemma path_step (G : list idt) H tx ta ty tb z c :
  NoDup (map fst G) -> NoDup (alltens (map snd G)) -> Permutation G ((tx, ta) :: (ty, tb) :: H) ->
  exists ix iy G',
    (forall r, path_loop c (map fst G') = Ok r -> path_loop ((tx, ty, z) :: c) (map fst G) = Ok ((ix, iy) :: r)) /\
    (forall e, path_loop c (map fst G') = Err e -> path_loop ((tx, ty, z) :: c) (map fst G) = Err e) /\
    (forall q, perform (map snd G) ((ix, iy) :: q) =
      match perform (map snd G') q with Some (cs, r) => Some (join ta tb :: cs, r) | None => None end) /\
    Permutation G' ((z, join ta tb) :: H).
Proof.
  intros HN HT PG.
  assert (Hx : In (tx, ta) G) by (rewrite PG; simpl; auto). assert (Hy : In (ty, tb) G) by (rewrite PG; simpl; auto).
  destruct (In_nth_error _ _ Hx) as (ix & Nx). destruct (In_nth_error _ _ Hy) as (iy & Ny).
  assert (Fx : nth_error (map fst G) ix = Some tx) by (rewrite nth_error_map, Nx; auto).
  assert (Fy : nth_error (map fst G) iy = Some ty) by (rewrite nth_error_map, Ny; auto).
  assert (Hxy : tx <> ty).
  { intros ->. apply (Permutation_NoDup (Permutation_map fst PG)) in HN. simpl in HN. inversion HN as [|? ? H1 _]; subst. apply H1. simpl. auto. }
  assert (Hi : ix <> iy) by congruence.
  pose proof (index_first Nat.eqb_eq HN Fx) as Ix. pose proof (index_first Nat.eqb_eq HN Fy) as Iy.
  exists ix, iy, (without ix iy G ++ [(z, join ta tb)]).
  assert (Hpop : exists lo hi, (if iy <? ix then (iy, ix) else (ix, iy)) = (lo, hi) /\ exists u v l1,
     pop (map fst G) hi = Ok (u, l1) /\ pop l1 lo = Ok (v, without ix iy (map fst G))).
  { destruct (Nat.ltb_spec iy ix).
    - exists iy, ix. split; auto. destruct (pop_two H0 Fy Fx) as (l1 & P1 & P2). exists tx, ty, l1. rewrite (without_sym _ ix iy). auto.
    - exists ix, iy. split; auto. assert (Hlt : ix < iy) by lia. destruct (pop_two Hlt Fx Fy) as (l1 & P1 & P2). exists ty, tx, l1. auto. }
  destruct Hpop as (lo & hi & El & u & v & l1 & P1 & P2).
  rewrite map_app, <- without_map. simpl map.
  split; [|split; [|split]].
  - intros r Hr. cbn [path_loop]. rewrite Ix. cbn [bind]. rewrite Iy. cbn [bind]. rewrite El, P1. cbn [bind]. rewrite P2. cbn [bind].
    simpl in Hr. rewrite Hr. auto.
  - intros r Hr. cbn [path_loop]. rewrite Ix. cbn [bind]. rewrite Iy. cbn [bind]. rewrite El, P1. cbn [bind]. rewrite P2. cbn [bind].
    simpl in Hr. rewrite Hr. auto.
  - intros q. simpl. destruct (Nat.eqb_spec ix iy); [contradiction|]. rewrite !nth_error_map, Nx, Ny. simpl.
    rewrite map_app, without_map. auto.
  - pose proof (Permutation_trans (Permutation_sym PG) (without_perm Hi Nx Ny)) as PW. apply Permutation_cons_inv in PW. apply Permutation_cons_inv in PW.
    rewrite <- PW. rewrite Permutation_app_comm. auto.
Qed.

Section PathOf.
Variables (f : nat -> nat) (names : list nat).

Definition lvs (S : bt) : list idt := map (fun l => (f l, S_Path.T (nth l names 0))) (leaves S).
Definition node_of (S : bt) : idt := (f (top S), term_of names S).

Lemma lvs_fst S : map fst (lvs S) = map f (leaves S).
Proof. unfold lvs. rewrite map_map. auto. Qed.
Lemma lvs_snd S : Permutation (alltens (map snd (lvs S))) (tensors (term_of names S)).
Proof.
  unfold lvs. rewrite map_map. simpl. induction S as [p|p l IHl r IHr]; simpl; auto.
  rewrite map_app, alltens_app, IHl, IHr, (join_tensors (term_of names l) (term_of names r)). auto.
Qed.

Lemma path_tree S : forall (G H : list idt) c, Permutation G (lvs S ++ H) ->
  NoDup (map f (positions S) ++ map fst H) -> NoDup (alltens (map snd G)) ->
  exists q G', (forall r, path_loop c (map fst G') = Ok r -> path_loop (map (map3 f) (merges S) ++ c) (map fst G) = Ok (q ++ r)) /\
    perform (map snd G) q = Some (contractions names S, map snd G') /\ Permutation G' (node_of S :: H).
Proof.
  induction S as [p|p l IHl r IHr]; intros G H c PG HN HT.
  - exists [], G. simpl. auto.
  - simpl in HN. rewrite map_app in HN. inversion HN as [|? ? HN1 HN2]; subst.
    rewrite <- app_assoc in HN2.
    assert (Hinc : forall S', incl (map f (leaves S')) (map f (positions S'))).
    { intros S' v Hv. apply in_map_iff in Hv. destruct Hv as (w & <- & Hw). apply in_map. apply leaves_pos. auto. }
    assert (Hld : forall S', NoDup (map f (positions S')) -> NoDup (map f (leaves S'))).
    { clear. induction S' as [q|q a IHa b IHb]; simpl; auto. intros HN. inversion HN as [|? ? _ HN']; subst. rewrite map_app in *.
      apply NoDup_app in HN'. destruct HN' as (H1 & H2 & H3). apply NoDup_app. split; auto. split; auto.
      intros x Hx Hy. apply (H3 x).
      - apply in_map_iff in Hx. destruct Hx as (w & <- & Hw). apply in_map. apply leaves_pos. auto.
      - apply in_map_iff in Hy. destruct Hy as (w & <- & Hw). apply in_map. apply leaves_pos. auto. }
    apply NoDup_app in HN2. destruct HN2 as (Nl & HN3 & Dl). apply NoDup_app in HN3. destruct HN3 as (Nr & NH & Dr).
    assert (PG1 : Permutation G (lvs l ++ (lvs r ++ H))).
    { rewrite PG. unfold lvs. simpl. rewrite map_app, <- app_assoc. auto. }
    destruct (IHl G (lvs r ++ H) (map (map3 f) (merges r) ++ [(f (top l), f (top r), f p)] ++ c) PG1) as (q1 & G1 & E1 & F1 & P1); auto.
    { rewrite map_app, lvs_fst. apply NoDup_app. split; auto. split.
      - apply NoDup_app. split; auto. split; auto. intros x Hx Hy. apply (Dr x); auto. apply Hinc; auto.
      - intros x Hx Hy. apply (Dl x Hx). apply in_app_iff. apply in_app_iff in Hy. destruct Hy; auto. left. apply Hinc; auto. }
    destruct (perform_nodup HT F1) as (HT1 & _).
    assert (P1' : Permutation G1 (lvs r ++ (node_of l :: H))).
    { rewrite P1. apply Permutation_middle. }
    destruct (IHr G1 (node_of l :: H) ([(f (top l), f (top r), f p)] ++ c) P1') as (q2 & G2 & E2 & F2 & P2); auto.
    { apply NoDup_app. split; auto. split.
      - simpl. constructor; auto. intros Hx. apply (Dl (f (top l))); [apply in_map, top_pos|]. apply in_app_iff. auto.
      - simpl. intros x Hx [<-|Hy]; [|apply (Dr x); auto]. apply (Dl (f (top l))); [apply in_map, top_pos|]. apply in_app_iff. auto. }
    destruct (perform_nodup HT1 F2) as (HT2 & _).
    assert (P2' : Permutation G2 (node_of l :: node_of r :: H)) by (rewrite P2; apply perm_swap).
    assert (HN2' : NoDup (map fst G2)).
    { eapply Permutation_NoDup; [symmetry; apply (Permutation_map fst P2')|]. simpl. constructor; [|constructor; auto].
      - intros [E|Hx]; apply (Dl (f (top l))); try (apply in_map, top_pos); apply in_app_iff; [left|right; auto].
        simpl in E. rewrite <- E. apply in_map, top_pos.
      - intros Hx. apply (Dr (f (top r))); auto. apply in_map, top_pos. }
    destruct (path_step (f p) c HN2' HT2 P2') as (ix & iy & G3 & E3 & _ & F3 & P3).
    exists (q1 ++ q2 ++ [(ix, iy)]), G3. split; [|split].
    + intros r0 Hr0. specialize (E3 _ Hr0). specialize (E2 _ E3). specialize (E1 _ E2).
      simpl merges. rewrite !map_app, <- !app_assoc. simpl map. etransitivity; [exact E1|]. reflexivity.
    + rewrite perform_app, F1, perform_app, F2, (F3 []). simpl. auto.
    + exact P3.
Qed.
End PathOf.

(** ** The whole function *)
Lemma mapM_ok (A B : Type) (g : A -> res B) (h : A -> B) l : (forall x, In x l -> g x = Ok (h x)) -> mapM g l = Ok (map h l).
Proof.
  induction l as [|a l IH]; simpl; auto. intros H. rewrite (H a) by auto. cbn [bind]. rewrite IH by auto. auto.
Qed.

Lemma merges_pos S t : In t (merges S) -> let '(x, y, z) := t in In x (positions S) /\ In y (positions S) /\ In z (positions S).
Proof.
  destruct t as ((x, y), z). induction S as [p|p l IHl r IHr]; simpl; [tauto|]. rewrite !in_app_iff. simpl.
  intros [H|[H|[E|[]]]].
  - specialize (IHl H). tauto.
  - specialize (IHr H). tauto.
  - inversion E; subst. pose proof (top_pos l). pose proof (top_pos r). tauto.
Qed.

Lemma perm_split (A : Type) (l k : list A) : NoDup l -> NoDup k -> (forall x, In x l -> In x k) ->
  (forall x y : A, {x = y} + {x <> y}) -> exists r, Permutation k (l ++ r) /\ forall x, In x r <-> In x k /\ ~ In x l.
Proof.
  intros HL HK Hin dec. exists (filter (fun x => if in_dec dec x l then false else true) k).
  assert (Hf : forall x, In x (filter (fun x => if in_dec dec x l then false else true) k) <-> In x k /\ ~ In x l).
  { intros x. rewrite filter_In. destruct (in_dec dec x l); split; intros [H1 H2]; auto; try discriminate; tauto. }
  split; auto. apply NoDup_Permutation; auto.
  - apply NoDup_app. split; auto. split; [apply NoDup_filter; auto|]. intros x Hx Hy. apply Hf in Hy. tauto.
  - intros x. rewrite in_app_iff, Hf. destruct (in_dec dec x l); split; intros H; auto. destruct H as [H|H]; auto. tauto.
Qed.

Lemma c22_path_tree (t : pytree) T : tree_of (nodes (core t)) T ->
  length (tensors_pos t) = n_leaves (nodes (core t)) -> NoDup (tensors_pos t) -> (forall v, In v (tensors_pos t) -> v < n_tensors t) ->
  exists p rest untouched, py_path t = Ok p /\ performs (n_tensors t) p (contractions (tensors_pos t) T) rest /\
     Permutation rest (term_of (tensors_pos t) T :: map S_Path.T untouched) /\
     (forall v, In v untouched <-> v < n_tensors t /\ ~ In v (tensors_pos t)).
Proof.
  intros HT HL HN Hlt.
  set (tp := tensors_pos t) in *. set (n := n_tensors t) in *. set (ns := nodes (core t)) in *.
  pose proof (tree_of_size HT) as (SL & SN & S0). pose proof (get_contraction_ok HT) as Ec. destruct HT as (HU & HP & Htop & Hlv).
  assert (Hlv' : forall v, In v (leaves T) <-> v < length tp) by (intros v; rewrite Hlv, HL; tauto).
  set (f := fun v => if v <? length tp then nth v tp 0 else v + (n - n_leaves ns)).
  assert (Hnl : length tp <= n).
  { rewrite <- (seq_length n 0). apply NoDup_incl_length; auto. intros v Hv. apply in_seq. specialize (Hlt v Hv). lia. }
  assert (Hf1 : forall v, v < length tp -> f v = nth v tp 0 /\ f v < n /\ In (f v) tp).
  { intros v Hv. unfold f. destruct (Nat.ltb_spec v (length tp)); [|lia]. split; auto.
    assert (In (nth v tp 0) tp) by (apply nth_In; auto). auto. }
  assert (Hf2 : forall v, length tp <= v -> f v = v + (n - n_leaves ns) /\ n <= f v).
  { intros v Hv. unfold f. destruct (Nat.ltb_spec v (length tp)); [lia|]. split; auto. rewrite <- HL. lia. }
  assert (Hinj : forall v w, f v = f w -> v = w).
  { intros v w E. destruct (Nat.lt_ge_cases v (length tp)) as [Hv|Hv], (Nat.lt_ge_cases w (length tp)) as [Hw|Hw].
    - destruct (Hf1 v Hv) as (E1 & _). destruct (Hf1 w Hw) as (E2 & _). rewrite E1, E2 in E. eapply NoDup_nth; eauto.
    - destruct (Hf1 v Hv) as (_ & E1 & _). destruct (Hf2 w Hw) as (_ & E2). lia.
    - destruct (Hf1 w Hw) as (_ & E1 & _). destruct (Hf2 v Hv) as (_ & E2). lia.
    - destruct (Hf2 v Hv) as (E1 & _). destruct (Hf2 w Hw) as (E2 & _). lia. }
  assert (Hres : forall v, rescale n (n_leaves ns) tp v = Ok (f v)).
  { intros v. unfold rescale, f. destruct (Nat.ltb_spec v (length tp)); auto. apply get_some. apply nth_error_nth'. auto. }
  assert (NdT : NoDup (positions T)) by (eapply Permutation_NoDup; [symmetry; exact HP|apply seq_NoDup]).
  destruct (@perm_split nat (map f (leaves T)) (seq 0 n)) as (un & Pun & Hun); auto using seq_NoDup, Nat.eq_dec.
  { apply FinFun.Injective_map_NoDup; [exact Hinj|]. apply leaves_nodup. auto. }
  { intros x Hx. apply in_map_iff in Hx. destruct Hx as (v & <- & Hv). apply Hlv' in Hv. apply in_seq. destruct (Hf1 v Hv). lia. }
  set (G := map (fun v => (v, S_Path.T v)) (seq 0 n)).
  assert (EG1 : map fst G = seq 0 n) by (apply istart_fst). assert (EG2 : map snd G = map S_Path.T (seq 0 n)) by (apply istart_snd).
  set (H := map (fun v => (v, S_Path.T v)) un).
  assert (PG : Permutation G (lvs f tp T ++ H)).
  { unfold G, H. rewrite (Permutation_map (fun v => (v, S_Path.T v)) Pun), map_app. apply Permutation_app_tail. unfold lvs. rewrite map_map.
    erewrite map_ext_in; [reflexivity|]. intros v Hv. simpl. apply Hlv' in Hv. destruct (Hf1 v Hv) as (E & _). rewrite E. auto. }
  destruct (@path_tree f tp T G H [] PG) as (q & G' & E1 & E2 & E3).
  - unfold H. rewrite istart_fst. apply NoDup_app. split; [apply FinFun.Injective_map_NoDup; auto|].
    assert (Nun : NoDup (map f (leaves T) ++ un)) by (eapply Permutation_NoDup; [exact Pun|apply seq_NoDup]).
    apply NoDup_app in Nun. destruct Nun as (_ & N2 & _). split; auto. intros x Hx Hy. apply in_map_iff in Hx. destruct Hx as (v & <- & Hv).
    apply Hun in Hy. destruct Hy as (H1 & H2). apply H2. apply in_map. apply Hlv'. apply in_seq in H1.
    destruct (Nat.lt_ge_cases v (length tp)); auto. destruct (Hf2 v); auto. lia.
  - rewrite EG2, alltens_start. apply seq_NoDup.
  - exists q, (map snd G'), un. split; [|split; [|split]].
    + unfold py_path. fold ns n tp. rewrite Ec. cbn [bind].
      rewrite (mapM_ok (h := map3 f)).
      * cbn [bind]. specialize (E1 [] eq_refl). rewrite EG1, !app_nil_r in E1. exact E1.
      * intros ((x, y), z) _. cbn beta. rewrite !Hres. auto.
    + unfold performs. rewrite <- EG2. exact E2.
    + rewrite (Permutation_map snd E3). simpl. unfold H. rewrite istart_snd. auto.
    + intros v. rewrite Hun, in_seq. split; intros (H1 & H2); split; try lia.
      * intros Hv. apply H2. destruct (In_nth _ _ 0 Hv) as (i & Hi & <-). apply in_map_iff. exists i. split; [apply Hf1; auto|]. apply Hlv'. auto.
      * intros Hv. apply H2. apply in_map_iff in Hv. destruct Hv as (w & <- & Hw). apply Hlv' in Hw. destruct (Hf1 w Hw) as (_ & _ & Hi). auto.
Qed.
