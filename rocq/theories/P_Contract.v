(** contract: the invariant of the loop. *)
From Coq Require Import List Arith ZArith NArith Bool Lia Permutation Ring.
Import ListNotations.
From Verif Require Import P_Base P_Opt P_PyMain.
From Verif Require Import M_Base M_Path M_PyTree M_OSet M_Tensor M_Contract S_Path S_Random S_Network S_PyTree S_Fuse S_Tensor S_Contract.
From Verif Require Import P_Path P_Split P_PathMain P_PyBuild P_PyTens P_RandColor P_RandLoop P_RandComp P_RandMain P_Forest P_Fuse P_OSet P_Sum P_Array P_Tensordot.
Set Implicit Arguments.
Unset Strict Implicit.
Local Open Scope nat_scope.

Lemma forall2_nth (A B : Type) (P : A -> B -> Prop) l k : Forall2 P l k -> forall i a b, nth_error l i = Some a -> nth_error k i = Some b -> P a b.
Proof. intros H. induction H; intros [|i] a b E1 E2; simpl in *; try discriminate; [congruence|eauto]. Qed.
Lemma forall2_nth_l (A B : Type) (P : A -> B -> Prop) l k : Forall2 P l k -> forall i b, nth_error k i = Some b -> exists a, nth_error l i = Some a /\ P a b.
Proof. intros H. induction H; intros [|i] b E; simpl in *; try discriminate; [inversion E; subst; eauto|eauto]. Qed.
Lemma forall2_without (A B : Type) (P : A -> B -> Prop) l k : Forall2 P l k -> forall x y, Forall2 P (without x y l) (without x y k).
Proof.
  intros H x y. unfold without. generalize 0. induction H as [|a b l k Hab H IH]; intros i; simpl; [constructor|]. destruct ((i =? x) || (i =? y)); auto. 
Qed.

Section Loop.
Variable K : Type.
Variable A : alg K.
Hypothesis SR : semiring A.
Let SR1 : semi_ring_theory (zero A) (one A) (add A) (mul A) eq := SR.
Add Ring KR : SR1.
Variable dim : nat -> nat.
Variable arr : list nat -> list nat.
Hypothesis Harr : forall l, Permutation (arr l) l.
Variable ts : list (list nat).
Variable out : list nat.
Variable arrays : list (nda K).
Notation so := (sum_over A dim).
Notation prd := (product A arrays ts).

Definition inds (l : list nat) : list nat := concat (map (fun t => nth t ts []) l).
Definition inner (X : list nat) (a : term) : list nat := filter (fun x => negb (memb x X)) (unique (inds (tensors a))).

Lemma inds_app l k : inds (l ++ k) = inds l ++ inds k.
Proof. unfold inds. rewrite map_app, concat_app. auto. Qed.
Lemma in_inds l x : In x (inds l) <-> exists t, In t l /\ has ts t x.
Proof.
  unfold inds. rewrite in_concat. split.
  - intros (xs & H & Hx). apply in_map_iff in H. destruct H as (t & <- & Ht). exists t. split; auto. apply has_nth. split; auto.
    destruct (Nat.lt_ge_cases t (length ts)); auto. rewrite nth_overflow in Hx by auto. destruct Hx.
  - intros (t & Ht & Hx). apply has_nth in Hx. exists (nth t ts []). split; [|tauto]. apply in_map_iff. eauto.
Qed.
Lemma prd_app l k v : prd (l ++ k) v = mul A (prd l v) (prd k v).
Proof. unfold product. induction l as [|t l IH]; simpl; [ring|]. rewrite IH. ring. Qed.
Lemma prd_perm l k v : Permutation l k -> prd l v = prd k v.
Proof.
  intros H. induction H; auto.
  - change (mul A (entry_at A (nth x arrays (mkA [] [])) (nth x ts []) v) (prd l v) = mul A (entry_at A (nth x arrays (mkA [] [])) (nth x ts []) v) (prd l' v)). rewrite IHPermutation. auto.
  - unfold product. simpl. ring.
  - congruence.
Qed.
Lemma prd_depends l : depends_on (inds l) (prd l).
Proof.
  intros v w H. unfold product. f_equal. apply map_ext_in. intros t Ht. apply entry_depends. intros x Hx. apply H. unfold inds. apply in_concat.
  exists (nth t ts []). split; auto. apply in_map_iff. eauto.
Qed.
Lemma in_inner X a x : In x (inner X a) <-> (exists t, In t (tensors a) /\ has ts t x) /\ ~ In x X.
Proof. unfold inner. rewrite filter_In, unique_in, in_inds, negb_true_iff, memb_nIn. tauto. Qed.
Lemma n_inner X a : NoDup (inner X a).
Proof. apply NoDup_filter', unique_nodup. Qed.

Definition is_value (az : nda K) (f : list nat * term) : Prop := tensor A dim az (fst f) (so (inner (fst f) (snd f)) (prd (tensors (snd f)))).

Lemma tensor_ext a zs f g : (forall v, in_range dim zs v -> f v = g v) -> tensor A dim a zs f -> tensor A dim a zs g.
Proof. intros H (T1 & T2 & T3). split; auto. split; auto. intros v Hv. rewrite T3 by auto. auto. Qed.

Lemma value_step F h X a Y b W hyper ax ay az zs : fgood ts out F h -> Permutation F ((X, a) :: (Y, b) :: W) ->
  (forall x, In x hyper <-> In x X /\ In x Y /\ (1 < h x \/ In x out)) ->
  is_value ax (X, a) -> is_value ay (Y, b) -> tensordot A ax X ay Y hyper = Ok (az, zs) -> is_value az (zs, join a b).
Proof.
  intros H P Hh Ta Tb E. pose proof (fgood_perm P H) as G.
  destruct (fg_item G (or_introl eq_refl)) as [NX HX]. destruct (fg_item G (or_intror (or_introl eq_refl))) as [NY HY].
  assert (Dj : forall t, In t (tensors a) -> In t (tensors b) -> False).
  { pose proof (fg_nodup G) as ND. unfold alls in ND. simpl in ND. apply NoDup_app in ND. destruct ND as (_ & _ & D). intros t T1 T2. apply (D t T1). apply in_app_iff. auto. }
  assert (Ha : forall x, In x (inds (tensors b)) -> ~ In x (inner X a)).
  { intros x Hx I. apply in_inds in Hx. destruct Hx as (u & U1 & U2). apply in_inner in I. destruct I as ((t & T1 & T2) & N). apply N, HX.
    split; [exists t; auto|]. right. right. exists u. split; [eapply has_lt; eauto|]. split; auto. intros U3. apply (Dj u); auto. }
  assert (Hb : forall x, In x (inds (tensors a)) -> ~ In x (inner Y b)).
  { intros x Hx I. apply in_inds in Hx. destruct Hx as (u & U1 & U2). apply in_inner in I. destruct I as ((t & T1 & T2) & N). apply N, HY.
    split; [exists t; auto|]. right. right. exists u. split; [eapply has_lt; eauto|]. split; auto. intros U3. apply (Dj u); auto. }
  assert (Hhy : forall x, In x hyper -> In x X /\ In x Y) by (intros x Hx; apply Hh in Hx; tauto).
  destruct (tensordot_ok SR NX NY Hhy Ta Tb) as (az' & E1 & _ & T). rewrite E in E1. inversion E1; subst az' zs. clear E1.
  unfold is_value. cbn [fst snd]. revert T. set (zs := _ ++ _ ++ _). cbn [fst snd]. intros T. apply (tensor_ext (f := so (slist X Y hyper) (fun w => mul A (so (inner X a) (prd (tensors a)) w) (so (inner Y b) (prd (tensors b)) w)))); auto.
  intros v _. transitivity (so (slist X Y hyper) (so (inner X a ++ inner Y b) (prd (tensors (join a b)))) v).
  - apply so_ext. intros w _ _. rewrite (@so_mul _ A SR dim) with (xs := inds (tensors a)) (ys := inds (tensors b)); auto; try apply prd_depends.
    apply so_ext. intros u _ _. rewrite (prd_perm u (join_tensors a b)). rewrite prd_app. auto.
  - rewrite <- so_app. apply (@so_perm _ A SR dim) with (xs := inds (tensors (join a b))); [apply prd_depends|].
    assert (Xo : forall x, In x X -> In x (inds (tensors a))) by (intros x Hx; apply HX in Hx; apply in_inds; destruct Hx; auto).
    assert (Yo : forall x, In x Y -> In x (inds (tensors b))) by (intros x Hx; apply HY in Hx; apply in_inds; destruct Hx; auto).
    assert (Is : forall x, In x (slist X Y hyper) <-> In x X /\ In x Y /\ ~ In x hyper).
    { intros x. unfold slist. rewrite !filter_In, negb_true_iff, memb_nIn, memb_In. tauto. }
    apply NoDup_Permutation.
    + apply nodup3; auto.
      * apply NoDup_filter', NoDup_filter'; auto.
      * apply n_inner. * apply n_inner.
      * intros x Hx. apply Ha. apply Yo. apply Is in Hx. tauto.
      * intros x Hx. apply Hb. apply Xo. apply Is in Hx. tauto.
      * intros x Hx. apply Hb. apply in_inds. apply in_inner in Hx. tauto.
    + apply n_inner.
    + intros x. rewrite !in_app_iff, Is, !in_inner. pose proof (Ha x) as Ha'. pose proof (Hb x) as Hb'. pose proof (Xo x) as Xo'. pose proof (Yo x) as Yo'.
      rewrite in_inds, in_inner in Ha', Hb'. rewrite in_inds in Xo', Yo'.
      assert (J : (exists t, In t (tensors (join a b)) /\ has ts t x) <-> (exists t, In t (tensors a) /\ has ts t x) \/ (exists t, In t (tensors b) /\ has ts t x)).
      { split.
        - intros (t & T1 & T2). rewrite in_tens_join in T1. destruct T1; [left|right]; eauto.
        - intros [(t & T1 & T2)|(t & T1 & T2)]; exists t; rewrite in_tens_join; auto. }
      rewrite J. unfold zs. rewrite !in_app_iff. unfold hlist, only. rewrite unique_in, !filter_In, !negb_true_iff, !memb_nIn. specialize (Hhy x).
      destruct (in_dec Nat.eq_dec x X), (in_dec Nat.eq_dec x Y), (in_dec Nat.eq_dec x hyper); tauto.
Qed.

(** The indices of the new tensor. *)
Lemma arr_in l x : In x (arr l) <-> In x l.
Proof. split; apply Permutation_in; [|symmetry]; apply Harr. Qed.
Lemma inds_step X Y hyper : NoDup X -> NoDup Y -> (forall x, In x hyper -> In x X /\ In x Y) -> exists zs, tensordot_inds X Y hyper = Ok zs /\ NoDup zs /\
  forall x, In x zs <-> (In x X /\ ~ In x Y) \/ (In x Y /\ ~ In x X) \/ In x hyper.
Proof.
  intros NX NY H. unfold tensordot_inds. rewrite (group_ok hyper NX NY).
  assert (E : forallb (fun x => memb x X && memb x Y) hyper = true).
  { apply forallb_forall. intros x Hx. apply H in Hx. rewrite andb_true_iff, !memb_In. auto. }
  rewrite E. cbn [bind]. unfold new_inds. cbn [g_hyper g_x g_y]. pose proof (n_z (hyper := hyper) dim NX NY H) as Nz.
  rewrite union3 by exact Nz. eexists. split; [reflexivity|]. split; [exact Nz|]. intros x. rewrite !in_app_iff. unfold hlist, only.
  rewrite unique_in, !filter_In, !negb_true_iff, !memb_nIn. tauto.
Qed.

Definition values (ar : option (list (nda K))) (F : list (list nat * term)) : Prop :=
  match ar with None => True | Some L => Forall2 is_value L F end.

Lemma loop_ok p : forall F h ar, fgood ts out F h -> values ar F ->
  match perform (map snd F) p with
  | Some (cs, rest) => exists F' h' ar', contract_loop A arr out p (map fst F) ar h = Ok (map fst F', ar') /\ map snd F' = rest /\ fgood ts out F' h' /\ values ar' F' /\ (ar' = None <-> ar = None)
  | None => exists e, contract_loop A arr out p (map fst F) ar h = Err e
  end.
Proof.
  induction p as [|(x, y) p IH]; intros F h ar H V.
  { simpl. exists F, h, ar. split; auto. split; auto. split; auto. split; auto. tauto. }
  assert (ND : NoDup (alltens (map snd F))) by exact (fg_nodup H).
  cbn [contract_loop]. destruct (Nat.eq_dec x y) as [->|Hn].
  { unfold sort2. rewrite Nat.leb_refl. simpl perform. rewrite !Nat.eqb_refl. eauto. }
  destruct (sort2_spec Hn) as (lo & hi & Es & Hlt & Hc). rewrite Es.
  destruct (Nat.eqb_spec lo hi) as [|_]; [lia|].
  assert (Ep : perform (map snd F) ((x, y) :: p) = perform (map snd F) ((lo, hi) :: p)).
  { destruct Hc as [[-> ->]|[-> ->]]; auto. apply perform_sort. auto. }
  rewrite Ep. clear Ep Es Hc Hn x y. cbn [perform]. destruct (Nat.eqb_spec lo hi) as [|_]; [lia|].
  rewrite !nth_error_map. destruct (nth_error F hi) as [(Y, b)|] eqn:Ehi.
  2:{ destruct (nth_error F lo) as [(X, a)|]; simpl; rewrite pop_none by (rewrite map_length; apply nth_error_None; auto); cbn [bind]; eauto. }
  destruct (nth_error F lo) as [(X, a)|] eqn:Elo.
  2:{ apply nth_error_None in Elo. assert (hi < length F) by (apply nth_error_Some; congruence). lia. }
  cbn [option_map snd].
  assert (Efl : nth_error (map fst F) lo = Some X) by (rewrite nth_error_map, Elo; auto).
  assert (Efh : nth_error (map fst F) hi = Some Y) by (rewrite nth_error_map, Ehi; auto).
  destruct (pop_two Hlt Efl Efh) as (l1 & P1 & P2). rewrite P1. cbn [bind]. rewrite P2. cbn [bind]. cbv zeta.
  rewrite without_map. rewrite without_map. set (W := without lo hi F).
  assert (PF : Permutation F ((X, a) :: (Y, b) :: W)) by (apply without_perm; auto; lia).
  pose proof (fgood_perm PF H) as G. destruct (fg_item G (or_introl eq_refl)) as [NX HX]. destruct (fg_item G (or_intror (or_introl eq_refl))) as [NY HY].
  set (shared := filter (fun s => memb s Y) (unique X)). set (hyper := filter (fun s => (1 <? h s) || memb s out) shared).
  assert (Is : forall s, In s shared <-> In s X /\ In s Y) by (intros s; unfold shared; rewrite filter_In, unique_in, memb_In; tauto).
  assert (Ih : forall s, In s (arr hyper) <-> In s X /\ In s Y /\ (1 < h s \/ In s out)).
  { intros s. rewrite arr_in. unfold hyper. rewrite filter_In, Is, orb_true_iff, Nat.ltb_lt, memb_In. tauto. }
  assert (Hhy : forall s, In s (arr hyper) -> In s X /\ In s Y) by (intros s Hs; apply Ih in Hs; tauto).
  destruct (inds_step NX NY Hhy) as (zs & Ez & Nz & Iz).
  assert (Iz' : forall s, In s zs <-> (In s X /\ ~ In s Y) \/ (In s Y /\ ~ In s X) \/ (In s X /\ In s Y /\ (1 < h s \/ In s out))).
  { intros s. rewrite Iz, Ih. tauto. }
  set (h' := fun s => h s - (if memb s shared then 1 else 0)).
  assert (Hh' : forall s, h' s = h s - (if memb s X && memb s Y then 1 else 0)).
  { intros s. unfold h'. replace (memb s shared) with (memb s X && memb s Y); auto.
    apply eq_true_iff_eq. rewrite andb_true_iff, !memb_In, Is. tauto. }
  destruct (fgood_step H PF Nz Iz' Hh') as [G' Hpos].
  assert (G2 : fgood ts out (W ++ [(zs, join a b)]) h') by (refine (fgood_perm _ G'); apply Permutation_cons_append).
  assert (Epos : existsb (fun s => h s =? 0) shared = false).
  { apply not_true_is_false. intros E. apply existsb_exists in E. destruct E as (s & Hs & E). apply Is in Hs. destruct Hs as [S1 S2].
    destruct (Hpos s S1 S2) as [Hp _]. apply Nat.eqb_eq in E. lia. }
  rewrite Epos.
  assert (Em1 : map fst W ++ [zs] = map fst (W ++ [(zs, join a b)])) by (rewrite map_app; auto).
  assert (Em2 : map snd W ++ [join a b] = map snd (W ++ [(zs, join a b)])) by (rewrite map_app; auto).
  destruct ar as [L|].
  - destruct (forall2_nth_l V Elo) as (ax & Ax & Vx). destruct (forall2_nth_l V Ehi) as (ay & Ay & Vy).
    destruct (pop_two Hlt Ax Ay) as (L1 & Q1 & Q2). rewrite Q1. cbn [bind]. rewrite Q2. cbn [bind].
    destruct (tensordot_ok SR NX NY Hhy Vx Vy) as (az & Et & Ei & _).
    assert (Et' : tensordot A ax X ay Y (arr hyper) = Ok (az, zs)). { rewrite Et. rewrite Ez in Ei. inversion Ei. auto. }
    rewrite Et'. cbn [bind]. pose proof (value_step H PF Ih Vx Vy Et') as Vz.
    assert (V' : values (Some (without lo hi L ++ [az])) (W ++ [(zs, join a b)])).
    { cbn [values]. apply Forall2_app; [apply forall2_without; auto|]. constructor; auto. }
    specialize (IH _ _ _ G2 V'). rewrite Em1, Em2. destruct (perform _ p) as [(cs, rest)|]; auto.
    destruct IH as (F' & h'' & ar' & I1 & I2 & I3 & I4 & I5). exists F', h'', ar'. split; [exact I1|]. split; auto. split; auto. split; auto.
    rewrite I5. split; discriminate.
  - rewrite Ez. cbn [bind]. specialize (IH _ _ None G2 I). rewrite Em1, Em2. destruct (perform _ p) as [(cs, rest)|]; auto.
Qed.
End Loop.
