(** Final forms of the lemmas on Python contraction trees. *)
From Coq Require Import Permutation Sorted.
From Verif Require Import M_Base M_Bitset M_Tree M_CTree M_Cost S_Tree S_Opt P_Base P_Tree P_Shape P_TreeProps P_TreeMain P_TreeValid P_Bitset P_Opt P_InfMem M_Path M_PyTree S_Path S_PyTree P_Path P_Split P_PathMain P_PyRun P_PyPath P_PyBuild P_PyTens P_PyMain.
Set Implicit Arguments.
Unset Strict Implicit.

Lemma lt_sorted l : StronglySorted le l -> NoDup l -> StronglySorted lt l.
Proof.
  induction 1 as [|a l H IH F]; intros HN; constructor; inversion HN as [|? ? N1 N2]; subst; auto.
  rewrite Forall_forall in F |- *. intros x Hx. specialize (F x Hx). assert (a <> x) by (intros ->; auto). lia.
Qed.
Lemma occurs_ext ts l k x : (forall v, In v l <-> In v k) -> (occurs ts l x <-> occurs ts k x).
Proof. intros H. split; intros (t & xs & H1 & H2); exists t, xs; [rewrite <- H|rewrite H]; auto. Qed.
Lemma once_ext ts l k x : (forall v, In v l <-> In v k) -> (only_once ts l x <-> only_once ts k x).
Proof.
  intros H. split; intros (t & Ht); exists t; intros t'; [rewrite <- (H t')|rewrite (H t')]; auto.
Qed.
Lemma thrice_ext ts l k x : (forall v, In v l <-> In v k) -> (thrice ts l x <-> thrice ts k x).
Proof.
  intros H. split; intros (a & b & c & HN & Ht); exists a, b, c; (split; [auto|]); intros t Hin; destruct (Ht t Hin) as (H1 & H2); split; auto; apply H; auto.
Qed.

Lemma c21_tree ts p cs rest root d output chk :
  (forall xs, In xs ts -> NoDup xs) ->
  performs (length ts) p cs rest -> p <> [] -> In root rest ->
  (forall c, In c cs -> incl (tensors c) (tensors root)) ->
  (forall x, occurs ts (tensors root) x -> exists k, dim_is d x k /\ k <> 0%N) ->
  (output = None -> forall x, ~ thrice ts (tensors root) x) ->
  (chk = true -> forall a b, In (C a b) cs -> exists x, occurs ts (tensors a) x /\ occurs ts (tensors b) x) ->
  exists t T, pytree_make p ts d output chk = Ok t /\
    n_tensors t = length ts /\
    StronglySorted lt (tensors_pos t) /\ (forall v, In v (tensors_pos t) <-> In v (tensors root)) /\
    tree_of (nodes (core t)) T /\
    term_of (tensors_pos t) T = root /\ Permutation (contractions (tensors_pos t) T) cs /\
    NoDup (inds_order t) /\ (forall x, In x (inds_order t) <-> occurs ts (tensors root) x) /\
    (forall S, subtree S T -> forall i, has (core t) (top S) i <->
       exists x, nth_error (inds_order t) i = Some x /\
         occurs ts (tensors (term_of (tensors_pos t) S)) x /\
         ((exists v xs, In v (tensors root) /\ ~ In v (tensors (term_of (tensors_pos t) S)) /\ nth_error ts v = Some xs /\ In x xs) \/
          only_once ts (tensors root) x \/ exists o, output = Some o /\ In x o)) /\
    (forall i x k, nth_error (inds_order t) i = Some x -> dim_is d x k -> dimension (dims (core t)) i = Z.of_N k).
Proof.
  intros Hnd Hp Hne Hr Hall Hdim Ho Hs. destruct (build_root Hp Hr Hall Hne) as (bs & R & HRT).
  pose proof (us_root Hne HRT) as Hus.
  destruct (@main_ok ts p cs rest root d output chk Hnd Hp Hne Hall Hdim bs R HRT) as (t & T & E & E1 & E2 & H1 & H2 & H3 & H4 & H4' & H5 & H6); auto.
  { intros En x Hx. apply (Ho En x). eapply thrice_ext; [|exact Hx]. intros v. symmetry. apply Hus. }
  exists t, T. rewrite E2. split; auto. split; auto. split; [apply lt_sorted; [apply sort_sorted|apply used_nodup]|]. split; auto.
  split; auto. split; auto. split; auto. split; auto. split; auto. split; auto.
  intros S HS i. rewrite (H5 S HS). split; intros (x & Ex & Hx & Hx2); exists x; (split; [auto|split; [auto|]]).
  - destruct Hx2 as [(v & G1 & G2 & xs & G3 & G4)|[Hx2|Hx2]]; auto.
    + left. exists v, xs. split; [apply Hus; auto|auto].
    + right. left. eapply once_ext; [|exact Hx2]. intros v. symmetry. apply Hus.
  - destruct Hx2 as [(v & xs & G1 & G2 & G3 & G4)|[Hx2|Hx2]].
    + left. exists v. split; [apply Hus; auto|]. split; auto. exists xs. auto.
    + right. left. eapply once_ext; [|exact Hx2]. intros v. apply Hus.
    + right. right. auto.
Qed.

Lemma c21_hyper_raises ts p cs rest root d chk x :
  (forall xs, In xs ts -> NoDup xs) ->
  performs (length ts) p cs rest -> p <> [] -> In root rest ->
  (forall c, In c cs -> incl (tensors c) (tensors root)) ->
  thrice ts (tensors root) x -> pytree_make p ts d None chk = Err Throw.
Proof.
  intros Hnd Hp Hne Hr Hall Hx. destruct (build_root Hp Hr Hall Hne) as (bs & R & HRT). pose proof (us_root Hne HRT) as Hus.
  eapply (@main_err1 ts p cs root d None chk Hnd Hne bs R HRT); auto. eapply thrice_ext; [|exact Hx]. intros v. symmetry. symmetry. apply Hus.
Qed.

Lemma c21_unshared_raises ts p cs rest root d output a b :
  (forall xs, In xs ts -> NoDup xs) ->
  performs (length ts) p cs rest -> p <> [] -> In root rest ->
  (forall c, In c cs -> incl (tensors c) (tensors root)) ->
  (output = None -> forall x, ~ thrice ts (tensors root) x) ->
  In (C a b) cs -> (forall x, ~ (occurs ts (tensors a) x /\ occurs ts (tensors b) x)) ->
  pytree_make p ts d output true = Err Throw.
Proof.
  intros Hnd Hp Hne Hr Hall Ho Hc Hx. destruct (build_root Hp Hr Hall Hne) as (bs & R & HRT). pose proof (us_root Hne HRT) as Hus.
  apply (@main_err2 ts p cs rest root d output true Hnd Hp Hne Hall bs R HRT); auto.
  - intros En x Ht. apply (Ho En x). eapply thrice_ext; [|exact Ht]. intros v. symmetry. apply Hus.
  - intros Hall'. destruct (Hall' a b Hc) as (x & H). apply (Hx x H).
Qed.

Lemma contractions_incl names T : forall c, In c (contractions names T) -> incl (tensors c) (tensors (term_of names T)).
Proof.
  induction T as [t|p l IHl r IHr]; simpl; [tauto|]. intros c Hc v Hv.
  rewrite (join_tensors (term_of names l) (term_of names r)). apply in_app_iff. apply in_app_iff in Hc. destruct Hc as [Hc|Hc].
  - left. apply (IHl c Hc v Hv).
  - apply in_app_iff in Hc. destruct Hc as [Hc|[<-|[]]].
    + right. apply (IHr c Hc v Hv).
    + rewrite (join_tensors (term_of names l) (term_of names r)) in Hv. apply in_app_iff in Hv. auto.
Qed.

Lemma c22_rebuild (t : pytree) T ts d output :
  tree_of (nodes (core t)) T -> 1 < n_leaves (nodes (core t)) ->
  length (tensors_pos t) = n_leaves (nodes (core t)) -> NoDup (tensors_pos t) -> (forall v, In v (tensors_pos t) -> v < n_tensors t) ->
  n_tensors t = length ts ->
  (forall xs, In xs ts -> NoDup xs) ->
  (forall x, occurs ts (tensors_pos t) x -> exists k, dim_is d x k /\ k <> 0%N) ->
  (output = None -> forall x, ~ thrice ts (tensors_pos t) x) ->
  exists p t' T', py_path t = Ok p /\ pytree_make p ts d output false = Ok t' /\
    tree_of (nodes (core t')) T' /\
    term_of (tensors_pos t') T' = term_of (tensors_pos t) T /\
    Permutation (contractions (tensors_pos t') T') (contractions (tensors_pos t) T).
Proof.
  intros HT H2 HL HN Hlt Hn Hnd Hdim Ho.
  destruct (c22_path_tree HT HL HN Hlt) as (p & rest & un & E & Hp & Hperm & _).
  assert (Hten : forall v, In v (tensors (term_of (tensors_pos t) T)) <-> In v (tensors_pos t)).
  { destruct HT as (_ & HP & _ & Hlv).
    assert (G : forall S v, In v (tensors (term_of (tensors_pos t) S)) <-> exists i, In i (leaves S) /\ nth i (tensors_pos t) 0 = v).
    { induction S as [q|q l IHl r IHr]; intros v.
      - simpl. split; [intros [<-|[]]; exists q; auto|intros (i & [<-|[]] & <-); auto].
      - cbn [term_of]. rewrite (join_tensors _ _). rewrite in_app_iff, IHl, IHr. simpl. split.
        + intros [(i & H1 & H3)|(i & H1 & H3)]; exists i; rewrite in_app_iff; auto.
        + intros (i & H1 & H3). apply in_app_iff in H1. destruct H1; eauto. }
    intros v. rewrite G. split.
    - intros (i & Hi & <-). apply nth_In. rewrite HL. apply Hlv in Hi. exact Hi.
    - intros Hv. destruct (In_nth _ _ 0 Hv) as (i & Hi & Ei). exists i. split; auto. apply Hlv. rewrite HL in Hi. exact Hi. }
  rewrite Hn in Hp.
  destruct (@c21_tree ts p _ rest (term_of (tensors_pos t) T) d output false Hnd Hp) as (t' & T' & E' & _ & _ & _ & G1 & G2 & G3 & _).
  - intros ->. unfold performs in Hp. simpl in Hp. inversion Hp as [[Hc Hr]].
    pose proof (tree_of_size HT) as (SL & _). destruct T as [q|q l r]; simpl in *; [lia|].
    destruct (contractions (tensors_pos t) l); [destruct (contractions (tensors_pos t) r)|]; discriminate.
  - rewrite Hperm. simpl. auto.
  - apply contractions_incl.
  - intros x Hx. apply Hdim. eapply occurs_ext; [|exact Hx]. intros v. symmetry. apply Hten.
  - intros En x Hx. apply (Ho En x). eapply thrice_ext; [|exact Hx]. intros v. symmetry. apply Hten.
  - discriminate.
  - exists p, t', T'. auto.
Qed.

Lemma c22_roundtrip ts p cs rest root d output chk :
  (forall xs, In xs ts -> NoDup xs) ->
  performs (length ts) p cs rest -> p <> [] -> In root rest ->
  (forall c, In c cs -> incl (tensors c) (tensors root)) ->
  (forall x, occurs ts (tensors root) x -> exists k, dim_is d x k /\ k <> 0%N) ->
  (output = None -> forall x, ~ thrice ts (tensors root) x) ->
  (chk = true -> forall a b, In (C a b) cs -> exists x, occurs ts (tensors a) x /\ occurs ts (tensors b) x) ->
  exists t q cs' rest', pytree_make p ts d output chk = Ok t /\ py_path t = Ok q /\
    performs (length ts) q cs' rest' /\ Permutation cs' cs.
Proof.
  intros Hnd Hp Hne Hr Hall Hdim Ho Hs.
  destruct (@c21_tree ts p cs rest root d output chk) as (t & T & E & En & Hsrt & Hin & HT & Et & Hc & _); auto.
  assert (HN : NoDup (tensors_pos t)).
  { clear -Hsrt. induction Hsrt as [|a l H IH F]; constructor; auto. rewrite Forall_forall in F. intros Ha. specialize (F a Ha). lia. }
  destruct (build_root Hp Hr Hall Hne) as (bs & R & HRT).
  assert (Hlt : forall v, In v (tensors_pos t) -> v < length ts).
  { intros v Hv. apply Hin in Hv. apply (rt_lf HRT) in Hv. apply (rt_lv HRT). auto. }
  destruct (@main_ok ts p cs rest root d output chk Hnd Hp Hne Hall Hdim bs R HRT) as (t2 & T2 & E2 & _ & Eu & HT2 & _); auto.
  { intros Eo x Hx. apply (Ho Eo x). eapply thrice_ext; [|exact Hx]. intros v. symmetry. apply (us_root Hne HRT). }
  rewrite E in E2. inversion E2; subst t2. clear E2.
  assert (HL : length (tensors_pos t) = n_leaves (nodes (core t))).
  { pose proof (tree_of_size HT) as (SL & _). rewrite <- SL.
    assert (Permutation (tensors_pos t) (map (fun i => nth i (tensors_pos t) 0) (leaves T))) as PP; [|rewrite (Permutation_length PP), map_length; auto].
    assert (Hten : Permutation (tensors (term_of (tensors_pos t) T)) (map (fun i => nth i (tensors_pos t) 0) (leaves T))).
    { clear. induction T as [q|q l IHl r IHr]; simpl; auto. rewrite (join_tensors _ _), IHl, IHr, map_app. auto. }
    rewrite <- Hten, Et. apply NoDup_Permutation; auto. rewrite <- (rt_tm HRT). 
    eapply Permutation_NoDup; [symmetry; apply tm_leaves|]. apply leaves_nodup, (rt_nd HRT). }
  destruct (@c22_path_tree t T HT HL HN) as (q & rest' & un & Eq & Hq & Hr' & Hun).
  { rewrite En. auto. }
  rewrite En in *. exists t, q, (contractions (tensors_pos t) T), rest'. split; auto.
Qed.
