(** contract: accepted inputs and the result. *)
From Coq Require Import List Arith ZArith NArith Bool Lia Permutation.
Import ListNotations.
From Verif Require Import P_Base P_Opt P_PyMain.
From Verif Require Import M_Base M_Path M_PyTree M_OSet M_Tensor M_Contract S_Path S_Random S_Network S_PyTree S_Fuse S_Tensor S_Contract.
From Verif Require Import P_Path P_Split P_PathMain P_PyBuild P_PyTens P_RandColor P_RandLoop P_RandComp P_RandMain P_Forest P_Fuse P_OSet P_Sum P_Array P_Tensordot P_Contract.
Set Implicit Arguments.
Unset Strict Implicit.
Local Open Scope nat_scope.

Lemma forall2_len (A B : Type) (P : A -> B -> Prop) l k : Forall2 P l k -> length l = length k.
Proof. intros H. induction H; simpl; auto. Qed.
(** ** The dimensions *)
Lemma list_eqb_ok l : forall k, list_eqb l k = true <-> l = k.
Proof.
  induction l as [|x l IH]; intros [|y k]; simpl; try (split; congruence). rewrite andb_true_iff, Nat.eqb_eq, IH. split; [intros [-> ->]|intros E; inversion E]; auto.
Qed.
Lemma dict_get_none (V : Type) (d : list (nat * V)) x : (exists v, dict_get d x = Ok v) \/ dict_get d x = Err Throw.
Proof. induction d as [|(k, v) d IH]; simpl; auto. destruct (x =? k); eauto. Qed.
Lemma sizes_spec d xs : (exists ks, sizes d xs = Ok ks /\ ks = map (fun x => match dict_get d x with Ok k => k | Err _ => 0 end) xs) \/ exists e, sizes d xs = Err e.
Proof.
  unfold sizes. induction xs as [|x xs IH]; simpl; [eauto|]. destruct (dict_get d x) as [k|e]; cbn [bind]; [|eauto].
  destruct IH as [(ks & -> & ->)|(e & ->)]; cbn [bind]; eauto.
Qed.
Lemma map2_forallb (A B : Type) (f : A -> B -> bool) l : forall k, length l = length k -> forallb id (map2 f l k) = true <-> Forall2 (fun a b => f a b = true) l k.
Proof.
  induction l as [|a l IH]; intros [|b k] E; simpl in *; try discriminate; [split; constructor|]. rewrite andb_true_iff, IH by lia. unfold id. split.
  - intros [H1 H2]. constructor; auto.
  - intros H. inversion H; subst. auto.
Qed.
Lemma dict_of_keys (V : Type) (l : list (nat * V)) x : In x (map fst (dict_of l)) <-> In x (map fst l).
Proof.
  unfold dict_of. assert (H : forall d, In x (map fst (fold_left (fun d e => dict_set d (fst e) (snd e)) l d)) <-> In x (map fst d) \/ In x (map fst l)).
  { induction l as [|(k, v) l IH]; intros d; simpl; [tauto|]. rewrite IH.
    assert (E : In x (map fst (dict_set d k v)) <-> In x (map fst d) \/ k = x).
    { clear. induction d as [|(j, u) d IH]; simpl; [tauto|]. destruct (Nat.eqb_spec k j); simpl; [subst; tauto|]. rewrite IH. tauto. }
    rewrite E. tauto. }
  rewrite H. simpl. tauto.
Qed.
Lemma dict_of_nodup (V : Type) (l : list (nat * V)) : NoDup (map fst (dict_of l)).
Proof.
  unfold dict_of. assert (H : forall d, NoDup (map fst d) -> NoDup (map fst (fold_left (fun d e => dict_set d (fst e) (snd e)) l d))).
  { induction l as [|(k, v) l IH]; intros d Hd; simpl; auto. apply IH. clear IH.
    assert (E : forall x, In x (map fst (dict_set d k v)) -> In x (map fst d) \/ k = x).
    { intros x. clear Hd. induction d as [|(j, u) d IH]; simpl; [tauto|]. destruct (Nat.eqb_spec k j); simpl; [subst; tauto|]. intros [->|Hx]; auto. apply IH in Hx. tauto. }
    clear E. induction d as [|(j, u) d IH]; simpl; [repeat constructor; auto|]. inversion Hd; subst. destruct (Nat.eqb_spec k j); simpl; [subst; constructor; auto|].
    constructor; auto. intros Hj. assert (G : forall x, In x (map fst (dict_set d k v)) -> In x (map fst d) \/ k = x).
    { clear. intros x. induction d as [|(j, u) d IH]; simpl; [tauto|]. destruct (Nat.eqb_spec k j); simpl; [subst; tauto|]. intros [->|Hx]; auto. apply IH in Hx. tauto. }
    apply G in Hj. destruct Hj; auto. }
  apply H. constructor.
Qed.

Section Dims.
Variable K : Type.
Variable ts : list (list nat).

Lemma pairs_spec (dim : nat -> nat) (l : list (nda K)) : shaped dim l ts ->
  (forall k v, In (k, v) (concat (map2 (fun a xs => combine xs (shape a)) l ts)) -> v = dim k) /\
  map fst (concat (map2 (fun a xs => combine xs (shape a)) l ts)) = concat ts.
Proof.
  intros H. induction H as [|a xs l ts' E H IH]; simpl; [split; [tauto|auto]|]. destruct IH as [I1 I2]. split.
  - intros k v Hi. apply in_app_iff in Hi. destruct Hi as [Hi|Hi]; auto. rewrite E in Hi. apply (combine_in Hi).
  - rewrite map_app, I2. f_equal. rewrite E. apply combine_keys.
Qed.
Lemma dims_of_val d order ds : dims_of d order = Ok ds <-> Forall2 (fun x k => dim_is d x k) order ds.
Proof.
  revert ds. induction order as [|x order IH]; intros ds; simpl.
  - split; [intros E; inversion E; constructor|]. intros H. inversion H. auto.
  - assert (Hx : forall k, match d with PyDict l => dict_get l x | PyInt k => Ok k end = Ok k <-> dim_is d x k).
    { intros k. unfold dim_is. destruct d; [tauto|]. split; [intros E; inversion E; auto|intros ->; auto]. }
    destruct (match d with PyDict l => dict_get l x | PyInt k => Ok k end) as [k|e]; cbn [bind].
    + split.
      * intros H. destruct (dims_of d order) as [r|] eqn:E; [|discriminate]. cbn [bind] in H. inversion H; subst. constructor; [apply Hx; auto|]. apply IH. auto.
      * intros H. inversion H as [|? k' ? r H1 H2]; subst. apply IH in H2. rewrite H2. cbn [bind]. apply Hx in H1. inversion H1. auto.
    + split; [discriminate|]. intros H. inversion H as [|? k' ? r H1 H2]; subst. apply Hx in H1. discriminate.
Qed.
Lemma dim_is_fun d x k j : dim_is d x k -> dim_is d x j -> k = j.
Proof. unfold dim_is. destruct d; congruence. Qed.

Lemma check_dims_ok (arrays : option (list (nda K))) dims : (dims_fit ts arrays dims /\ check_dims ts arrays dims = Ok tt) \/
  (~ dims_fit ts arrays dims /\ exists e, check_dims ts arrays dims = Err e).
Proof.
  unfold check_dims, dims_fit. destruct arrays as [l|].
  2:{ destruct dims as [d|]; [|right; split; eauto]. destruct (dims_of_spec d (concat ts)) as [(ds & E)|(E & x & Hx & Hk)]; rewrite E; cbn [bind].
      - left. split; auto. intros t x H. apply (dims_of_ok_all E). apply in_concat_has. eauto.
      - right. split; [|eauto]. intros H. apply in_concat_has in Hx. destruct Hx as (t & Hx). destruct (H t x Hx) as (k & Hk'). apply (Hk k Hk'). }
  cbv zeta. unfold array_dims. set (ps := concat (map2 (fun a xs => combine xs (shape a)) l ts)).
  set (fits := fun (a : nda K) xs => match sizes (dict_of ps) xs with Ok k => list_eqb (shape a) k | Err _ => false end).
  set (dm := fun x => match dict_get (dict_of ps) x with Ok k => k | Err _ => 0 end).
  assert (E1 : (length l =? length ts) && forallb id (map2 fits l ts) = true <-> exists dim, shaped dim l ts).
  { rewrite andb_true_iff, Nat.eqb_eq. split.
    - intros [E1 E2]. rewrite map2_forallb in E2 by auto. exists dm. unfold shaped. revert E2. apply forall2_impl. intros a xs. unfold fits.
      destruct (sizes_spec (dict_of ps) xs) as [(ks & -> & ->)|(e & ->)]; [|discriminate]. intros E3. apply list_eqb_ok in E3. auto.
    - intros (dim & H). assert (El : length l = length ts) by (unfold shaped in H; apply forall2_len in H; auto). split; auto. apply map2_forallb; auto.
      destruct (pairs_spec H) as [P1 P2]. fold ps in P1, P2.
      assert (Hd : forall x, In x (concat ts) -> dict_get (dict_of ps) x = Ok (dim x)). { intros x Hx. apply (dict_of_get P1). rewrite P2. auto. }
      unfold shaped in H.
      assert (H2 : Forall2 (fun (a : nda K) xs => shape a = map dim xs /\ incl xs (concat ts)) l ts).
      { clear -H. assert (G : forall l' ts', incl ts' ts -> Forall2 (fun (a : nda K) xs => shape a = map dim xs) l' ts' -> Forall2 (fun (a : nda K) xs => shape a = map dim xs /\ incl xs (concat ts)) l' ts').
        { intros l' ts' Hi F. induction F; constructor.
          - split; auto. intros z Hz. apply in_concat. exists y. split; auto. apply Hi. simpl. auto.
          - apply IHF. intros z Hz. apply Hi. simpl. auto. }
        apply G; auto. intros z; auto. }
      revert H2. apply forall2_impl. intros a xs [E Hi]. unfold fits. rewrite (sizes_ok (dim := dim)) by (intros x Hx; apply Hd, Hi; auto). apply list_eqb_ok. auto. }
  destruct ((length l =? length ts) && forallb id (map2 fits l ts)) eqn:Eb; cbn [negb].
  2:{ right. split; [|eauto]. intros H. assert (false = true); [|discriminate]. apply E1. destruct dims as [d|]; [|auto]. destruct H as (dim & H & _). eauto. }
  destruct (proj1 E1 eq_refl) as (dim & H). clear E1 Eb. destruct dims as [d|]; [|left; eauto].
  destruct (pairs_spec H) as [P1 P2]. fold ps in P1, P2.
  assert (Hd : forall x, In x (concat ts) -> dict_get (dict_of ps) x = Ok (dim x)). { intros x Hx. apply (dict_of_get P1). rewrite P2. auto. }
  assert (Hk : forall x, In x (map fst (dict_of ps)) <-> exists t, has ts t x). { intros x. rewrite dict_of_keys, P2. apply in_concat_has. }
  assert (Hv : forall x k, In (x, k) (dict_of ps) -> k = dim x).
  { intros x k Hi. pose proof (dict_get_in (dict_of_nodup ps) Hi) as E. assert (Hx : In x (map fst (dict_of ps))) by (apply in_map_iff; exists (x, k); auto).
    apply Hk in Hx. apply in_concat_has in Hx. rewrite (Hd x Hx) in E. congruence. }
  assert (Hany : forall dim' : nat -> nat, shaped dim' l ts -> forall t x, has ts t x -> dim' x = dim x).
  { intros dim' H' t x Hx. assert (Hx' : In x (concat ts)) by (apply in_concat_has; eauto). destruct (pairs_spec H') as [P1' P2']. fold ps in P1', P2'.
    assert (E : dict_get (dict_of ps) x = Ok (dim' x)) by (apply (dict_of_get P1'); rewrite P2'; auto). rewrite (Hd x Hx') in E. congruence. }
  destruct (dims_of_spec d (map fst (dict_of ps))) as [(ds & E)|(E & x & Hx & Hn)]; rewrite E; cbn [bind].
  2:{ right. split; [|eauto]. intros (dim' & _ & H2). apply Hk in Hx. destruct Hx as (t & Hx). apply (Hn (N.of_nat (dim' x))). apply (H2 t); auto. }
  apply dims_of_val in E.
  assert (Eb : forallb id (map2 (fun k e => (k =? N.of_nat (snd e))%N) ds (dict_of ps)) = true <-> forall x, In x (map fst (dict_of ps)) -> dim_is d x (N.of_nat (dim x))).
  { revert Hv E. generalize (dict_of ps) as D. clear. intros D Hv E. revert ds E. induction D as [|(x, k) D IH]; intros ds E; simpl in E; inversion E as [|? k' ? ds' E1 E2]; subst; simpl; [tauto|].
    rewrite andb_true_iff, IH by (auto; intros y j Hj; apply Hv; simpl; auto). rewrite (Hv x k) by (simpl; auto). unfold id. rewrite N.eqb_eq. split.
    - intros [-> H] y [<-|Hy]; auto.
    - intros H'. split; [|auto]. apply (dim_is_fun E1). auto. }
  destruct (forallb id _).
  - left. split; auto. exists dim. split; auto. intros t x Hx. apply Eb; auto. apply Hk. eauto.
  - right. split; [|eauto]. intros (dim' & H1 & H2). assert (false = true); [|discriminate]. apply Eb. intros x Hx. apply Hk in Hx. destruct Hx as (t & Hx).
    rewrite <- (Hany dim' H1 t x Hx). apply (H2 t); auto.
Qed.
End Dims.

(** ** The output *)
Definition outs (output : option (list nat)) : list nat := match output with Some o => o | None => [] end.
Lemma lonely_count' ts x : (forall xs, In xs ts -> NoDup xs) -> lonely ts x -> count x (concat ts) - 1 = 0.
Proof.
  intros HN (t & Ht). destruct (Nat.eq_dec (count x (concat ts) - 1) 0) as [|N]; auto. exfalso.
  set (l := filter (fun t => memb x (nth t ts [])) (seq 0 (length ts))).
  assert (El : count x (concat ts) = length l).
  { unfold l. rewrite <- count_concat.
    - f_equal. f_equal. clear. induction ts as [|xs ts IH]; auto. simpl. f_equal. rewrite <- seq_shift, map_map. auto.
    - intros u Hu. apply in_seq in Hu. apply HN. apply nth_In. lia. }
  assert (Nl : NoDup l) by (apply NoDup_filter', seq_NoDup).
  assert (Il : forall u, In u l -> u = t). { intros u. unfold l. rewrite filter_In, in_seq, memb_In. intros [H1 H2]. apply Ht. apply has_nth. split; auto. lia. }
  rewrite El in N. destruct l as [|a [|b l']]; simpl in N; try lia. inversion Nl as [|? ? N1 _]. apply N1. left. rewrite (Il a), (Il b); simpl; auto.
Qed.

Section Main.
Variable K : Type.
Variable A : alg K.
Hypothesis SR : semiring A.
Variable arr : list nat -> list nat.
Hypothesis Harr : forall l, Permutation (arr l) l.
Variable ts : list (list nat).
Hypothesis HN : forall xs, In xs ts -> NoDup xs.
Variable p : path.
Variable output : option (list nat).

Lemma perform_lens : forall p l, (exists cs rest, perform l p = Some (cs, rest)) \/ perform l p = None.
Proof. intros q l. destruct (perform l q) as [(cs, rest)|]; eauto. Qed.

Definition out_of : list nat := match output with Some o => unique o | None => filter (fun x => count x (concat ts) - 1 =? 0) (unique (concat ts)) end.
Lemma out_of_in x : output_fits ts output -> In x out_of <-> is_output ts output x.
Proof.
  unfold out_of, is_output, output_fits. destruct output as [o|]; intros H; [apply unique_in|]. rewrite filter_In, unique_in, Nat.eqb_eq. split.
  - intros [H1 H2]. apply lonely_count; auto.
  - intros H1. split; [|apply lonely_count'; auto]. apply in_concat_has. destruct H1 as (t & Ht). exists t. apply Ht. auto.
Qed.
Lemma stays_out_of l x : stays ts out_of l x <-> stays ts (outs output) l x.
Proof.
  unfold out_of, outs. destruct output as [o|].
  - unfold stays. rewrite unique_in. tauto.
  - apply stays_lonely_out. intros y. rewrite filter_In, unique_in, Nat.eqb_eq. intros [H1 H2]. apply lonely_count; auto.
Qed.

Lemma contract_ok arrays dims (dim : nat -> nat) : (forall l, arrays = Some l -> Forall (@well_shaped K) l) -> (forall l, arrays = Some l -> dims_fit ts arrays dims -> shaped dim l ts) ->
  (dims_fit ts arrays dims /\ output_fits ts output /\ exists cs rest, performs (length ts) p cs rest /\
     exists F h ar', contract A arr p ts output arrays dims = Ok (map fst F, filter (fun x => memb x (concat (map fst F))) out_of, ar') /\ map snd F = rest /\
        fgood ts out_of F h /\ (ar' = None <-> arrays = None) /\
        forall l, arrays = Some l -> values A dim ts l ar' F) \/
  (~ (dims_fit ts arrays dims /\ output_fits ts output /\ exists cs rest, performs (length ts) p cs rest) /\
     exists e, contract A arr p ts output arrays dims = Err e).
Proof.
  intros HW HS. unfold contract. destruct (check_dims_ok ts arrays dims) as [[D E]|[D (e & E)]]; rewrite E; cbn [bind]; [|right; split; [tauto|eauto]].
  cbv zeta.
  assert (Eo : (output_fits ts output /\ match output with None => if existsb (fun x => 1 <? count x (concat ts) - 1) (unique (concat ts)) then Err Throw
       else Ok (filter (fun x => count x (concat ts) - 1 =? 0) (unique (concat ts))) | Some o => Ok (unique o) end = Ok out_of /\ forallb (fun x => memb x (concat ts)) out_of = true) \/
     (~ output_fits ts output /\ (match output with None => if existsb (fun x => 1 <? count x (concat ts) - 1) (unique (concat ts)) then Err Throw
       else Ok (filter (fun x => count x (concat ts) - 1 =? 0) (unique (concat ts))) | Some o => Ok (unique o) end = Err Throw \/
        (match output with None => if existsb (fun x => 1 <? count x (concat ts) - 1) (unique (concat ts)) then Err Throw
       else Ok (filter (fun x => count x (concat ts) - 1 =? 0) (unique (concat ts))) | Some o => Ok (unique o) end = Ok out_of /\ forallb (fun x => memb x (concat ts)) out_of = false)))).
  { unfold out_of, output_fits. destruct output as [o|].
    - destruct (forallb (fun x => memb x (concat ts)) (unique o)) eqn:E1.
      + left. rewrite forallb_forall in E1. split; [|auto]. intros x Hx. apply in_concat_has. apply memb_In. apply E1. apply unique_in. auto.
      + right. split; auto. intros H. apply not_true_iff_false in E1. apply E1. apply forallb_forall. intros x Hx. rewrite unique_in in Hx. apply memb_In, in_concat_has. auto.
    - destruct (existsb (fun x => 1 <? count x (concat ts) - 1) (unique (concat ts))) eqn:E1.
      + right. split; auto. intros H. apply existsb_exists in E1. destruct E1 as (x & H1 & H2). apply Nat.ltb_lt in H2. apply (H x). apply three_has; auto.
      + left. split; [|split; auto].
        * intros x Hx. apply three_has in Hx; auto. apply not_true_iff_false in E1. apply E1. apply existsb_exists. exists x. split; [|apply Nat.ltb_lt; auto].
          apply unique_in, in_concat_has. apply three_has in Hx; auto. destruct Hx as (a & _ & _ & _ & Hx & _). eauto.
        * apply forallb_forall. intros x Hx. apply filter_In in Hx. destruct Hx as [Hx _]. rewrite unique_in in Hx. apply memb_In. auto. }
  destruct Eo as [(O1 & O2 & O3)|(O1 & [O2|[O2 O3]])]; [|rewrite O2; cbn [bind]; right; split; [tauto|eauto]|rewrite O2; cbn [bind]; rewrite O3; cbn [negb]; right; split; [tauto|eauto]].
  rewrite O2; cbn [bind]; rewrite O3. cbn [negb].
  assert (G : fgood ts out_of (fstart ts) (fun x => count x (concat ts) - 1)).
  { apply fgood_start; auto. intros x. rewrite count_tensors; auto. }
  assert (V : values A dim ts (match arrays with Some l => l | None => [] end) arrays (fstart ts)).
  { destruct arrays as [l|]; cbn [values]; auto. specialize (HW l eq_refl). specialize (HS l eq_refl D). unfold shaped in HS.
    assert (Ll : length l = length ts) by (apply forall2_len in HS; auto).
    assert (Hn : forall i a X t, nth_error l i = Some a -> nth_error (fstart ts) i = Some (X, t) -> is_value A dim ts l a (X, t)).
    { intros i a X t E1 E2. assert (EX : nth_error ts i = Some X) by (rewrite <- (fstart_fst ts) at 1; rewrite nth_error_map, E2; auto).
      assert (Et : t = S_Path.T i).
      { assert (E3 : nth_error (map snd (fstart ts)) i = Some t) by (rewrite nth_error_map, E2; auto). rewrite fstart_snd, nth_error_map in E3.
        assert (L : i < length ts) by (apply nth_error_Some; congruence). rewrite (nth_error_nth' (seq 0 (length ts)) 0) in E3 by (rewrite seq_length; auto). rewrite seq_nth in E3 by auto. simpl in E3. congruence. }
      subst t. unfold is_value. cbn [fst snd tensors]. split; [|split].
      - rewrite Forall_forall in HW. apply HW. eapply nth_error_In; eauto.
      - apply (forall2_nth HS E1 EX).
      - intros v Hv. assert (Ei : inner ts X (S_Path.T i) = []).
        { destruct (inner ts X (S_Path.T i)) as [|y r] eqn:Ey; auto. exfalso. assert (Iy : In y (inner ts X (S_Path.T i))) by (rewrite Ey; simpl; auto).
          apply (in_inner dim) in Iy. destruct Iy as ((u & [<-|[]] & (ys & U1 & U2)) & N). rewrite EX in U1. inversion U1; subst. auto. }
        rewrite Ei. simpl. unfold product. simpl. rewrite (nth_error_nth _ _ _ E1), (nth_error_nth _ _ _ EX). destruct SR. rewrite SRmul_comm, SRmul_1_l. auto. }
    clear -Hn Ll. rewrite <- (fstart_len ts) in Ll. revert Hn Ll. generalize (is_value A dim ts l) as P. intros P. generalize (fstart ts) as F. induction l as [|a l IH]; intros [|(X, t) F] Hn Ll; simpl in *; try discriminate; constructor.
    - apply (Hn 0); auto.
    - apply IH; auto. intros i b Y u E1 E2. apply (Hn (S i)); auto. }
  pose proof (loop_ok SR (dim := dim) Harr p G V) as L. rewrite fstart_fst in L. rewrite fstart_snd in L. unfold performs.
  destruct (perform (map S_Path.T (seq 0 (length ts))) p) as [(cs, rest)|].
  - left. split; auto. split; auto. exists cs, rest. split; auto. destruct L as (F & h & ar' & L1 & L2 & L3 & L4 & L5). exists F, h, ar'. rewrite L1. cbn [bind].
    split; auto. split; auto. split; auto. split; auto. intros l ->. auto.
  - right. destruct L as (e & L). rewrite L. cbn [bind]. split; [|eauto]. intros (_ & _ & cs & rest & H). discriminate.
Qed.
End Main.
