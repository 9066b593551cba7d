(** Proofs about loading a list of indices. *)
From Verif Require Import P_Base P_Opt P_PyMain.
From Verif Require Import M_Base M_Path M_PyTree M_OSet M_Tensor M_TnApp S_OSet S_TnApp.
From Verif Require Import P_Split P_Fuse P_PyBuild P_OSet P_Array P_ContractMain P_Decompose P_RandMain P_Symbols P_TnApp.
Set Implicit Arguments. Unset Strict Implicit.

Lemma numbered_from (obj : list (Z * list nat)) : forall k i e, In (i, e) (combine (seq k (length obj)) obj) <-> k <= i /\ nth_error obj (i - k) = Some e.
Proof.
  induction obj as [|a obj IH]; intros k i e; simpl; [split; [tauto|intros [_ H]; destruct (i - k); discriminate]|].
  rewrite IH. split.
  - intros [H|[H1 H2]]; [inversion H; subst; rewrite Nat.sub_diag; auto|]. split; [lia|]. replace (i - k) with (Datatypes.S (i - Datatypes.S k)) by lia. auto.
  - intros [H1 H2]. destruct (Nat.eq_dec k i) as [->|Hn]; [left; rewrite Nat.sub_diag in H2; inversion H2; auto|]. right. split; [lia|]. replace (i - k) with (Datatypes.S (i - Datatypes.S k)) in H2 by lia. auto.
Qed.
Lemma numbered_in obj i e : In (i, e) (numbered obj) <-> nth_error obj i = Some e.
Proof. unfold numbered. rewrite numbered_from, Nat.sub_0_r. intuition lia. Qed.
Lemma numbered_nodup obj : NoDup (map fst (numbered obj)).
Proof.
  unfold numbered. assert (E : forall k, map fst (combine (seq k (length obj)) obj) = seq k (length obj)) by (induction obj as [|a obj IH]; intros k; simpl; [auto|f_equal; auto]).
  rewrite E. apply seq_NoDup.
Qed.

Section Load.
Variable K : Type.

Lemma load_ok (obj : list (Z * list nat)) o s :
  (load_inds K obj o s = Err Throw /\ ~ loadable obj o s) \/
  exists ns n, load_inds K obj o s = Ok (ns, n) /\ loadable obj o s /\
    set_like (names (numbered obj)) ns (fun t => In t (names (numbered obj)) /\ t <> o /\ t <> s) /\ length (n_list n) = length ns /\
    (forall k t, nth_error ns k = Some t -> exists T, nth_error (n_list n) k = Some T /\ t_inds T = listed (numbered obj) t /\ t_array T = None) /\
    (forall i d, dict_get (n_dims n) i = Ok d <-> exists l, nth_error obj i = Some (d, l)) /\
    (forall i, In i (n_out n) <-> In i (listed (numbered obj) o)) /\ (forall i, In i (n_sparse n) <-> In i (listed (numbered obj) s)) /\
    (forall T k x, In T (n_list n) -> nth_error (t_inds T) k = Some x -> exists d, nth_error (t_dims T) k = Some d /\ dict_get (n_dims n) x = Ok d).
Proof.
  unfold load_inds. fold (numbered obj). destruct (existsb (fun e => match snd e with [] => true | _ => false end) obj) eqn:E0.
  { left. split; auto. intros (_ & H). apply existsb_exists in E0. destruct E0 as ((d, l) & Hi & E). simpl in E. destruct l; [|discriminate]. apply In_nth_error in Hi. destruct Hi as (i & Hi).
    destruct (H i d [] Hi) as (_ & t & [] & _). }
  assert (NE : forall i d l, nth_error obj i = Some (d, l) -> l <> []).
  { intros i d l Hi ->. assert (existsb (fun e : Z * list nat => match snd e with [] => true | _ => false end) obj = true); [|congruence]. apply existsb_exists. exists (d, []). split; auto. eapply nth_error_In; eauto. }
  destruct (Nat.eq_dec o s) as [->|Hos].
  { left. split; [unfold read_inds; rewrite Nat.eqb_refl; auto|]. intros (H & _). auto. }
  destruct (read_ok (numbered_nodup obj) Hos) as (r & -> & HS & HG & HK & HD & NO & HO & NS & HSP). cbn [bind].
  set (dim := fun i => match nth_error obj i with Some (d, _) => d | None => 0%Z end).
  assert (DG : forall i d, dict_get (r_dims r) i = Ok d <-> exists l, nth_error obj i = Some (d, l)).
  { intros i d. rewrite HD. split; intros (l & H); exists l; apply numbered_in; auto. }
  assert (DI : forall t xs, In (t, xs) (r_map r) -> t <> o /\ t <> s /\ In t (names (numbered obj)) /\ xs = listed (numbered obj) t).
  { intros t xs H. apply HG. apply dict_get_in; auto. apply HS. }
  assert (LD : forall t i, In i (listed (numbered obj) t) -> dict_get (r_dims r) i = Ok (dim i)).
  { intros t i H. apply listed_in in H. destruct H as (d & l & H & _). apply numbered_in in H. apply DG. exists l. unfold dim. rewrite H. auto. }
  set (f := fun e : nat * list nat => let! ds := mapM (dict_get (r_dims r)) (snd e) in make_tensor (K := K) (snd e) (DMany ds) None).
  assert (F : forall t xs, In (t, xs) (r_map r) -> f (t, xs) = if existsb (fun d => (d <? 1)%Z) (map dim xs) then Err Throw else Ok (mkT xs (map dim xs) None)).
  { intros t xs H. destruct (DI t xs H) as (_ & _ & _ & ->). unfold f; cbn [snd]. rewrite (@mapM_ok _ _ _ dim) by (intros; eapply LD; eauto). cbn [bind]. unfold make_tensor. cbn [bind].
    rewrite map_length, Nat.eqb_refl. cbn [negb]. reflexivity. }
  assert (REAL : forall i d l t, nth_error obj i = Some (d, l) -> In t l -> t <> o -> t <> s -> exists xs, In (t, xs) (r_map r) /\ In i xs).
  { intros i d l t Hi Ht H1 H2. exists (listed (numbered obj) t). split.
    - apply dict_get_key. apply HG. split; auto. split; auto. split; auto. unfold names. apply in_flat_map. exists (i, (d, l)). split; auto. apply numbered_in; auto.
    - apply listed_in. exists d, l. split; auto. apply numbered_in; auto. }
  destruct (existsb (fun e => existsb (fun d => (d <? 1)%Z) (map dim (snd e))) (r_map r)) eqn:EB.
  { left. apply existsb_exists in EB. destruct EB as ((t, xs) & Hi & EB). cbn [snd] in EB. split.
    - fold f. rewrite (@mapM_err _ _ f (r_map r) (t, xs)); auto.
      + rewrite (F t xs Hi), EB. auto.
      + intros (u, ys) Hu. rewrite (F u ys Hu). destruct (existsb (fun d => (d <? 1)%Z) (map dim ys)); [right; reflexivity|left; eexists; reflexivity].
    - intros (_ & H). apply existsb_exists in EB. destruct EB as (d & Hd & L). apply Z.ltb_lt in L. apply in_map_iff in Hd. destruct Hd as (i & <- & Hd).
      destruct (DI t xs Hi) as (_ & _ & _ & ->). apply listed_in in Hd. destruct Hd as (d & l & Hl & _). apply numbered_in in Hl. destruct (H i d l Hl) as [H1 _]. unfold dim in L. rewrite Hl in L. lia. }
  assert (GE : forall t xs, In (t, xs) (r_map r) -> existsb (fun d => (d <? 1)%Z) (map dim xs) = false).
  { intros t xs H. destruct (existsb (fun d => (d <? 1)%Z) (map dim xs)) eqn:E; auto. assert (existsb (fun e => existsb (fun d => (d <? 1)%Z) (map dim (snd e))) (r_map r) = true); [|congruence]. apply existsb_exists. exists (t, xs). auto. }
  fold f. set (ts := map (fun e : nat * list nat => mkT (K := K) (snd e) (map dim (snd e)) None) (r_map r)).
  assert (EM : mapM f (r_map r) = Ok ts).
  { apply mapM_ok. intros (t, xs) H. rewrite (F t xs H), (GE t xs H). auto. }
  rewrite EM. cbn [bind].
  assert (TT : forall T, In T ts -> exists t, In (t, t_inds T) (r_map r) /\ t_dims T = map dim (t_inds T) /\ t_array T = None).
  { intros T H. unfold ts in H. apply in_map_iff in H. destruct H as ((t, xs) & <- & H). exists t. auto. }
  assert (AG : agreed ts dim). { intros T H. destruct (TT T H) as (t & _ & H' & _). auto. }
  assert (IO : forall i, index_of ts i <-> exists d l t, nth_error obj i = Some (d, l) /\ In t l /\ t <> o /\ t <> s).
  { intros i. split.
    - intros (T & HT & Hi). destruct (TT T HT) as (t & Ht & _). destruct (DI _ _ Ht) as (H1 & H2 & _ & E). rewrite E in Hi. apply listed_in in Hi. destruct Hi as (d & l & Hl & Hi). apply numbered_in in Hl. exists d, l, t. auto.
    - intros (d & l & t & Hl & Ht & H1 & H2). destruct (REAL i d l t) as (xs & Hx & Hi); auto. exists (mkT xs (map dim xs) None). split; auto. unfold ts. apply in_map_iff. exists (t, xs). auto. }
  assert (HL : forall T, In T ts -> length (t_dims T) = length (t_inds T)). { intros T H. destruct (TT T H) as (t & _ & -> & _). apply map_length. }
  assert (LO : forall t i, In i (listed (numbered obj) t) <-> exists d l, nth_error obj i = Some (d, l) /\ In t l).
  { intros t i. rewrite listed_in. split; intros (d & l & H1 & H2); exists d, l; split; auto; apply numbered_in; auto. }
  destruct (@make_network_ok K ts (Some (r_out r)) (Some (r_sparse r)) HL) as [[-> HV]|(n & -> & HV & EL & _ & HI & HDm & _ & Hout & _ & Hsp)]; cbn [bind].
  - left. split; auto. intros (_ & H). apply HV. split; [exists dim; auto|]. split; [discriminate|]. split.
    + intros o' x Ho Hx. inversion Ho; subst o'. apply HO, LO in Hx. destruct Hx as (d & l & Hl & _). destruct (H x d l Hl) as (_ & t & H1 & H2 & H3). apply IO. exists d, l, t. auto.
    + intros o' x Ho Hx. inversion Ho; subst o'. apply HSP, LO in Hx. destruct Hx as (d & l & Hl & _). destruct (H x d l Hl) as (_ & t & H1 & H2 & H3). apply IO. exists d, l, t. auto.
  - right. exists (map fst (r_map r)), n. split; auto.
    assert (LOAD : loadable obj o s).
    { split; auto. intros i d l Hi. assert (I : index_of ts i).
      { assert (NE' := NE i d l Hi). destruct l as [|t l]; [congruence|]. clear NE'. destruct HV as (_ & _ & V1 & V2).
        destruct (Nat.eq_dec t o) as [->|Hto].
        { apply (V1 (r_out r)); auto. apply HO, LO. exists d, (o :: l). split; auto. left; auto. }
        destruct (Nat.eq_dec t s) as [->|Hts].
        { apply (V2 (r_sparse r)); auto. apply HSP, LO. exists d, (s :: l). split; auto. left; auto. }
        apply IO. exists d, (t :: l), t. repeat split; auto. left; auto. }
      apply IO in I. destruct I as (d' & l' & t & Hi' & Ht & H1 & H2). rewrite Hi in Hi'. inversion Hi'; subst d' l'. split; [|eauto].
      destruct (REAL i d l t) as (xs & Hx & Hix); auto. specialize (GE t xs Hx). apply (proj1 (dims_ge (map dim xs))) with (d := d) in GE; auto. apply in_map_iff. exists i. split; auto. unfold dim. rewrite Hi. auto. }
    split; auto. split; auto. rewrite EL. split; [unfold ts; rewrite !map_length; auto|].
    split. { intros k t Hk. rewrite nth_error_map in Hk. destruct (nth_error (r_map r) k) as [(t', xs)|] eqn:E; simpl in Hk; [|discriminate]. inversion Hk; subst t'.
      exists (mkT xs (map dim xs) None). split; [unfold ts; rewrite nth_error_map, E; auto|]. cbn [t_inds t_array]. split; auto. apply nth_error_In in E. destruct (DI _ _ E) as (_ & _ & _ & ->). auto. }
    assert (DN : forall i d, dict_get (n_dims n) i = Ok d <-> exists l, nth_error obj i = Some (d, l)).
    { intros i d. rewrite (HDm dim AG). split.
      - intros (I & ->). apply IO in I. destruct I as (d' & l & t & Hi & _). exists l. unfold dim. rewrite Hi. auto.
      - intros (l & Hi). split; [|unfold dim; rewrite Hi; auto]. destruct LOAD as (_ & H). destruct (H i d l Hi) as (_ & t & H1 & H2 & H3). apply IO. exists d, l, t. auto. }
    split; auto. split; [intros i; rewrite Hout; apply HO|].
    split. { intros i. rewrite Hsp. split; [intros (x & Hx & H); inversion Hx; subst; apply HSP; auto|intros H; exists (r_sparse r); split; auto; apply HSP; auto]. }
    intros T k x HT Hk. exists (dim x). rewrite (AG T HT). split; [rewrite nth_error_map, Hk; auto|]. rewrite (HDm dim AG). split; auto. exists T. split; auto. eapply nth_error_In; eauto.
Qed.
End Load.
