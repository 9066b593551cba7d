(** fuse: the invariant of the loop. *)
From Coq Require Import List Arith ZArith NArith Bool Lia Permutation.
Import ListNotations.
From Verif Require Import P_Base P_Opt P_PyMain.
From Verif Require Import M_Base M_Path M_PyTree M_Random M_Fuse S_Path S_Random S_Network P_Base P_Path P_Split P_PathMain P_PyBuild P_PyTens P_PyMain S_PyTree S_Fuse P_RandColor P_RandLoop P_RandComp P_RandMain P_Forest.
Set Implicit Arguments.
Unset Strict Implicit.
Local Open Scope nat_scope.

(** ** Dicts *)
Lemma dict_get_in (V : Type) (d : list (nat * V)) k v : NoDup (map fst d) -> In (k, v) d -> dict_get d k = Ok v.
Proof.
  induction d as [|(k', v') d IH]; simpl; intros HN H; [destruct H|]. inversion HN as [|? ? N1 N2]; subst. destruct (Nat.eqb_spec k k') as [->|Hn].
  - destruct H as [E|H]; [congruence|]. exfalso. apply N1. apply in_map_iff. exists (k', v). auto.
  - apply IH; auto. destruct H as [E|H]; [congruence|auto].
Qed.
Lemma dict_get_key (V : Type) (d : list (nat * V)) k v : dict_get d k = Ok v -> In (k, v) d.
Proof.
  induction d as [|(k', v') d IH]; simpl; [discriminate|]. destruct (Nat.eqb_spec k k') as [->|Hn]; [intros E; inversion E; auto|]. auto.
Qed.
Lemma dict_set_keys (V : Type) (d : list (nat * V)) k v : In k (map fst d) -> map fst (dict_set d k v) = map fst d.
Proof.
  induction d as [|(k', v') d IH]; simpl; [intros []|]. destruct (Nat.eqb_spec k k') as [->|Hn]; simpl; auto.
  intros [E|H]; [congruence|]. f_equal. auto.
Qed.
Lemma dict_pop_ok (V : Type) (d : list (nat * V)) k v : NoDup (map fst d) -> dict_get d k = Ok v ->
  exists d', dict_pop d k = Ok (v, d') /\ NoDup (map fst d') /\ (forall j, dict_get d' j = if j =? k then Err Throw else dict_get d j) /\
    (forall j, In j (map fst d') -> In j (map fst d)) /\ Permutation d ((k, v) :: d').
Proof.
  induction d as [|(k', v') d IH]; simpl; [discriminate|]. intros HN. inversion HN as [|? ? N1 N2]; subst. destruct (Nat.eqb_spec k k') as [->|Hn].
  - intros E. inversion E; subst. exists d. split; auto. split; auto. split; [|split; auto].
    intros j. destruct (Nat.eqb_spec j k'); auto. subst j. clear -N1. induction d as [|(a, b) d IH]; simpl in *; auto.
    destruct (Nat.eqb_spec k' a); [subst; tauto|]. auto.
  - intros E. destruct (IH N2 E) as (d' & E1 & E2 & E3 & E4 & E5). rewrite E1. cbn [bind]. exists ((k', v') :: d'). split; auto. split; [|split; [|split]].
    + simpl. constructor; auto.
    + intros j. simpl. destruct (Nat.eqb_spec j k'); auto. subst. destruct (Nat.eqb_spec k' k); auto. congruence.
    + intros j. simpl. intros [H|H]; auto.
    + rewrite E5. apply perm_swap.
Qed.
Lemma move_all_ok zs px py tz : forall d, NoDup zs -> (forall x, In x zs -> exists l, dict_get d x = Ok l) ->
  exists d', move_all zs px py tz d = Ok d' /\ map fst d' = map fst d /\
    forall x, dict_get d' x = if memb x zs then match dict_get d x with Ok l => Ok (filter (fun t => negb (memb t [px; py; tz])) l ++ [tz]) | Err e => Err e end else dict_get d x.
Proof.
  induction zs as [|x zs IH]; intros d HN H; cbn [move_all]; [exists d; auto|]. inversion HN as [|? ? N1 N2]; subst.
  destruct (H x (or_introl eq_refl)) as (l & E). rewrite E. cbn [bind].
  destruct (IH (dict_set d x (filter (fun t => negb (memb t [px; py; tz])) l ++ [tz]))) as (d' & E1 & E2 & E3); auto.
  { intros y Hy. rewrite dict_get_set. destruct (y =? x); [eauto|]. apply H. right. auto. }
  exists d'. split; auto. split.
  - rewrite E2. apply dict_set_keys. apply in_map_iff. exists (x, l). split; auto. apply dict_get_key. auto.
  - intros y. rewrite E3, dict_get_set. unfold memb at 1 4. simpl. fold (memb y zs). destruct (Nat.eqb_spec y x) as [->|Hn]; simpl.
    + rewrite (proj2 (memb_nIn x zs)) by auto. rewrite E. auto.
    + auto.
Qed.
Lemma del_all_ok (V : Type) xs : forall (d : list (nat * V)), NoDup xs -> NoDup (map fst d) -> (forall x, In x xs -> exists l, dict_get d x = Ok l) ->
  exists d', del_all xs d = Ok d' /\ NoDup (map fst d') /\ forall x, dict_get d' x = if memb x xs then Err Throw else dict_get d x.
Proof.
  induction xs as [|x xs IH]; intros d HN HD H; cbn [del_all]; [exists d; auto|]. inversion HN as [|? ? N1 N2]; subst.
  destruct (H x (or_introl eq_refl)) as (l & E). destruct (dict_pop_ok HD E) as (d1 & E1 & E2 & E3 & _). rewrite E1. cbn [bind].
  destruct (IH d1) as (d2 & F1 & F2 & F3); auto.
  { intros y Hy. rewrite E3. destruct (Nat.eqb_spec y x); [subst; tauto|]. apply H. right. auto. }
  exists d2. split; auto. split; auto. intros y. rewrite F3, E3. unfold memb at 2. simpl. fold (memb y xs). destruct (y =? x); destruct (memb y xs); auto.
Qed.

(** ** The linear path *)
Lemma incr_order loc i j x y : incr loc -> nth_error loc i = Some x -> nth_error loc j = Some y -> i < j <-> x < y.
Proof.
  intros HI Hi Hj. split; [intros H; apply (HI _ _ _ _ H Hi Hj)|]. intros H. destruct (Nat.lt_trichotomy i j) as [K|[K|K]]; auto.
  - subst. rewrite Hi in Hj. inversion Hj. lia.
  - pose proof (HI _ _ _ _ K Hj Hi). lia.
Qed.
Lemma nth_index (l : list nat) i x : NoDup l -> nth_error l i = Some x -> index Nat.eqb x l = Ok i.
Proof. intros HN H. apply (index_first Nat.eqb_eq HN H). Qed.

Lemma without_app (A : Type) (l k : list A) lo hi : lo < length l -> hi < length l -> without lo hi (l ++ k) = without lo hi l ++ k.
Proof.
  unfold without. assert (H : forall i, lo < i + length l -> hi < i + length l -> without_from i lo hi (l ++ k) = without_from i lo hi l ++ k).
  { induction l as [|a l IH]; intros i H1 H2; simpl in *.
    - apply without_above; lia.
    - rewrite IH by lia. destruct ((i =? lo) || (i =? hi)); auto. }
  intros H1 H2. apply H; auto.
Qed.

Lemma nth_error_firstn_lt (A : Type) (l : list A) : forall k i, i < k -> nth_error (firstn k l) i = nth_error l i.
Proof. induction l as [|a l IH]; intros [|k] [|i] H; simpl; auto; try lia. apply IH. lia. Qed.
Lemma renorm_ok (l : list (nat * nat * list nat)) : forall loc q loc' k, 
  lin (map (fun c => (fst (fst (fst c)), snd (fst (fst c)), snd c)) (combine l (seq k (length l)))) loc q loc' ->
  incr (loc ++ seq k (length l)) -> renormalize l (loc ++ seq k (length l)) = Ok q.
Proof.
  induction l as [|((px, py), zs) l IH]; intros loc q loc' k H HI.
  - inversion H; subst. auto.
  - simpl in H. inversion H as [|x y z p loc0 i j lo hi q0 loc1 HI0 Hi Hj Hn Hs Hl]; subst.
    cbn [renormalize]. cbn [length seq] in *. set (L := loc ++ k :: seq (S k) (length l)) in *.
    assert (Li : i < length loc) by (apply nth_error_Some; congruence). assert (Lj : j < length loc) by (apply nth_error_Some; congruence).
    assert (Hi' : nth_error L i = Some px) by (unfold L; rewrite nth_error_app1; auto).
    assert (Hj' : nth_error L j = Some py) by (unfold L; rewrite nth_error_app1; auto).
    pose proof (incr_order HI Hi' Hj') as O1. pose proof (incr_order HI Hj' Hi') as O2.
    destruct (sort2_spec Hn) as (lo' & hi' & Es & Hlt & Hc). rewrite Hs in Es. inversion Es; subst lo' hi'.
    assert (exists u v, sort2 px py = (u, v) /\ nth_error L lo = Some u /\ nth_error L hi = Some v) as (u & v & Euv & Eu & Ev).
    { unfold sort2. destruct Hc as [[-> ->]|[-> ->]].
      - exists px, py. split; auto. destruct (Nat.leb_spec px py); auto. lia.
      - exists py, px. split; auto. destruct (Nat.leb_spec px py); auto. lia. }
    rewrite Euv. pose proof (incr_nodup HI) as ND. rewrite (nth_index ND Ev). cbn [bind].
    destruct (pop_two Hlt Eu Ev) as (l1 & E1 & E2). rewrite E1. cbn [bind].
    assert (Eu1 : nth_error l1 lo = Some u).
    { rewrite (pop_ok Ev) in E1. inversion E1. rewrite nth_error_app1; [rewrite nth_error_firstn_lt; auto|]. rewrite firstn_length.
      assert (hi < length L) by (apply nth_error_Some; congruence). lia. }
    assert (ND1 : NoDup l1).
    { rewrite (pop_ok Ev) in E1. assert (El1 : l1 = firstn hi L ++ skipn (S hi) L) by congruence. rewrite El1. assert (EL : L = firstn hi L ++ v :: skipn (S hi) L).
      { clear -Ev. revert Ev. generalize hi. induction L as [|a L IH]; intros [|h] Ev; simpl in *; try discriminate; [congruence|]. f_equal. auto. }
      assert (ND' : NoDup (firstn hi L ++ v :: skipn (S hi) L)) by (rewrite <- EL; exact ND). exact (NoDup_remove_1 _ _ _ ND'). }
    rewrite (nth_index ND1 Eu1). cbn [bind]. rewrite E2. cbn [bind].
    assert (EW : without lo hi L = (without lo hi loc ++ [k]) ++ seq (S k) (length l)).
    { unfold L. rewrite without_app; [rewrite <- app_assoc; auto| |]; destruct Hc as [[-> ->]|[-> ->]]; auto. }
    rewrite EW. rewrite (IH (without lo hi loc ++ [k]) q0 loc' (S k)); auto.
    rewrite <- EW. unfold without. apply incr_without_from. auto.
Qed.

Definition trip (l : list (nat * nat * list nat)) (k : nat) : list triple :=
  map (fun c => (fst (fst (fst c)), snd (fst (fst c)), snd c)) (combine l (seq k (length l))).
Lemma trip_snoc l : forall k px py zs, trip (l ++ [(px, py, zs)]) k = trip l k ++ [(px, py, k + length l)].
Proof.
  induction l as [|c l IH]; intros k px py zs; unfold trip in *; simpl; [rewrite Nat.add_0_r; auto|]. f_equal. rewrite IH. rewrite Nat.add_succ_r. auto.
Qed.

Lemma stays_ext ts out l k x : (forall t, In t l <-> In t k) -> stays ts out l x <-> stays ts out k x.
Proof.
  intros H. unfold stays. split; intros [(t & A & B) D]; (split; [exists t; split; auto; apply H; auto|]); destruct D as [D|[D|(u & D0 & D1 & D2)]]; auto; right; right;
    exists u; (split; [auto|split; [|auto]]); intros K; apply D1; apply H; auto.
Qed.

Section Loop.
Variable R : Type.
Variable g : prng R.
Hypothesis Hg : prng_ok g.
Variable lg : N -> Z.
Variable dim : nat -> N.
Variable max_width : Z.
Variables exclude out : list nat.
Variable ts : list (list nat).
Let n := length ts.

Notation gitem := (nat * (list nat * term))%type.
Definition good_fused (c : term) (zs : list nat) : Prop :=
  (exists a b, c = C a b /\ share ts (tensors a) (tensors b)) /\ NoDup zs /\ (forall x, In x zs <-> stays ts out (tensors c) x) /\
  (fwidth lg dim zs <= max_width)%Z /\ (forall t x, In x exclude -> In t (tensors c) -> ~ has ts t x).

Record finv (s : fstate) (G : list gitem) (q : path) (cs : list term) : Prop := {
  v_ts : Permutation (f_ts s) (map (fun e => (fst e, fst (snd e))) G);
  v_good : fgood ts out (map snd G) (f_h s);
  v_i2t : forall x, 0 < cnt (map snd G) x -> exists l, dict_get (f_i2t s) x = Ok l /\ NoDup l /\
     forall t, In t l <-> exists X a, In (t, (X, a)) G /\ In x X;
  v_keys : NoDup (map fst (f_i2t s));
  v_next : f_next s = n + length (f_merged s);
  v_ids : forall id, In id (map fst G) -> id < f_next s;
  v_lin : lin (trip (f_merged s) n) (seq 0 n) q (map fst G);
  v_incr : incr (map fst G);
  v_perf : performs n q cs (map (fun e => snd (snd e)) G);
  v_res : Forall2 good_fused cs (map snd (f_merged s));
  v_excl : forall id X a, In (id, (X, a)) G -> (exists t, a = S_Path.T t) \/ (forall t x, In x exclude -> In t (tensors a) -> ~ has ts t x);
  v_inds : forall x, In x (f_inds s) -> ~ In x exclude
}.

Lemma fused_inds_ok tx ty hyper : NoDup (fused_inds tx ty hyper out) /\
  ((forall y, In y hyper -> In y tx /\ In y ty) -> forall x, In x (fused_inds tx ty hyper out) <-> (In x tx /\ ~ In x ty) \/ (In x ty /\ ~ In x tx) \/ (In x tx /\ In x ty /\ (In x hyper \/ In x out))).
Proof.
  unfold fused_inds. split; [apply unique_nodup|]. intros Hh x. rewrite unique_in, in_app_iff, !filter_In, !orb_true_iff, !andb_true_iff, !orb_true_iff, !negb_true_iff, !memb_nIn, !memb_In.
  destruct (in_dec Nat.eq_dec x tx), (in_dec Nat.eq_dec x ty); specialize (Hh x); tauto.
Qed.

Lemma gin_fst (G : list gitem) id v : In (id, v) G -> In id (map fst G).
Proof. intros H. apply in_map_iff. exists (id, v). auto. Qed.
Lemma gin_cnt (G : list gitem) x : cnt (map snd G) x = length (filter (fun e => memb x (fst (snd e))) G).
Proof. unfold cnt. induction G as [|(i, v) G IH]; simpl; auto. destruct (memb x (fst v)); simpl; auto. Qed.

Lemma finv_step s G q cs x px py tx ty l : finv s G q cs -> 0 < f_h s x -> dict_get (f_i2t s) x = Ok l -> In px l -> In py l -> px <> py ->
  dict_get (f_ts s) px = Ok tx -> dict_get (f_ts s) py = Ok ty ->
  let shared := filter (fun y => memb y ty) (unique tx) in
  let hyper := filter (fun y => 1 <? f_h s y) shared in
  let tz := fused_inds tx ty hyper out in
  let h' := fun y => f_h s y - (if memb y shared then 1 else 0) in
  In x shared /\ (forall y, In y shared -> 0 < f_h s y) /\
  (existsb (fun y => memb y exclude) (tx ++ ty) = false -> (fwidth lg dim tz <= max_width)%Z ->
   exists d1 d2 ts1 ts2 G' q' cs', move_all tz px py (f_next s) (f_i2t s) = Ok d1 /\
     del_all (filter (fun y => negb (memb y hyper) && negb (memb y out)) shared) d1 = Ok d2 /\
     dict_pop (f_ts s) px = Ok (tx, ts1) /\ dict_pop ts1 py = Ok (ty, ts2) /\ length G = S (length G') /\
     finv (mkF (dict_set ts2 (f_next s) tz) d2 h' (S (f_next s)) (f_inds s ++ shared) (f_merged s ++ [(px, py, tz)])) G' q' cs').
Proof.
  intros I Hx El Hpx Hpy Hne Etx Ety. cbv zeta.
  assert (Hcx : 0 < cnt (map snd G) x). { rewrite (fg_h (v_good I)) in Hx. lia. }
  destruct (v_i2t I Hcx) as (l' & El' & NDl & Hl). rewrite El in El'. inversion El'; subst l'. clear El'.
  apply Hl in Hpx, Hpy. destruct Hpx as (X & a & Gx & Xx). destruct Hpy as (Y & b & Gy & Yx).
  assert (NDts : NoDup (map fst (f_ts s))).
  { apply (Permutation_NoDup (l := map fst G)); [|apply incr_nodup, I]. symmetry. rewrite (Permutation_map fst (v_ts I)), map_map. auto. }
  assert (Etx' : tx = X).
  { assert (H : dict_get (f_ts s) px = Ok X). { apply dict_get_in; auto. apply (Permutation_in _ (Permutation_sym (v_ts I))). apply in_map_iff. exists (px, (X, a)). auto. } congruence. }
  assert (Ety' : ty = Y).
  { assert (H : dict_get (f_ts s) py = Ok Y). { apply dict_get_in; auto. apply (Permutation_in _ (Permutation_sym (v_ts I))). apply in_map_iff. exists (py, (Y, b)). auto. } congruence. }
  subst tx ty. set (shared := filter (fun y => memb y Y) (unique X)).
  assert (Hsh : forall y, In y shared <-> In y X /\ In y Y) by (intros y; unfold shared; rewrite filter_In, unique_in, memb_In; tauto).
  assert (Nsh : NoDup shared) by (apply NoDup_filter', unique_nodup).
  set (hyper := filter (fun y => 1 <? f_h s y) shared).
  assert (Hhy : forall y, In y hyper <-> In y X /\ In y Y /\ 1 < f_h s y) by (intros y; unfold hyper; rewrite filter_In, Hsh, Nat.ltb_lt; tauto).
  set (tz := fused_inds X Y hyper out). set (h' := fun y => f_h s y - (if memb y shared then 1 else 0)).
  destruct (fused_inds_ok X Y hyper) as [Nz Hz0]. fold tz in Nz, Hz0.
  assert (Hz : forall y, In y tz <-> (In y X /\ ~ In y Y) \/ (In y Y /\ ~ In y X) \/ (In y X /\ In y Y /\ (1 < f_h s y \/ In y out))).
  { intros y. rewrite Hz0 by (intros w; rewrite Hhy; tauto). rewrite Hhy. tauto. }
  (* positions *)
  assert (Gx' : In px (map fst G)) by (eapply gin_fst; eauto). assert (Gy' : In py (map fst G)) by (eapply gin_fst; eauto).
  apply In_nth_error in Gx', Gy'. destruct Gx' as (i & Ei). destruct Gy' as (j & Ej).
  assert (Hij : i <> j) by congruence. destruct (sort2_spec Hij) as (lo & hi & Es & Hlt & Hc).
  pose proof (incr_nodup (v_incr I)) as NG.
  assert (Fi : nth_error G i = Some (px, (X, a))). { destruct (nth_map_fst Ei) as (v & F). rewrite F. f_equal. f_equal. apply (fst_inj NG (nth_error_In _ _ F) Gx). }
  assert (Fj : nth_error G j = Some (py, (Y, b))). { destruct (nth_map_fst Ej) as (v & F). rewrite F. f_equal. f_equal. apply (fst_inj NG (nth_error_In _ _ F) Gy). }
  set (W := without lo hi G).
  assert (PG : Permutation G ((px, (X, a)) :: (py, (Y, b)) :: W)).
  { unfold W. destruct Hc as [[-> ->]|[-> ->]]; [apply without_perm; auto|]. rewrite without_sym. apply without_perm; auto. }
  assert (PG2 : Permutation (map snd G) ((X, a) :: (Y, b) :: map snd W)) by (rewrite (Permutation_map snd PG); auto).
  (* the term *)
  set (ab := if i <? j then (a, b) else (b, a)). set (c := join (fst ab) (snd ab)).
  assert (Hh'eq : forall y, h' y = f_h s y - (if memb y X && memb y Y then 1 else 0)).
  { intros y. unfold h'. f_equal. replace (memb y shared) with (memb y X && memb y Y); auto. apply eq_true_iff_eq. rewrite andb_true_iff, !memb_In, Hsh. tauto. }
  destruct (fgood_step (h' := h') (v_good I) PG2 Nz Hz Hh'eq) as [FG0 FS].
  assert (Hc2 : Permutation (tensors c) (tensors (join a b))).
  { unfold c, ab. rewrite join_tensors. destruct (i <? j); simpl; rewrite join_tensors; auto. apply Permutation_app_comm. }
  assert (Hmem : forall t, In t (tensors c) <-> In t (tensors a) \/ In t (tensors b)).
  { intros t. rewrite <- in_tens_join. split; apply Permutation_in; auto. apply Permutation_sym; auto. }
  split; [apply Hsh; auto|]. split; [intros y Hy; apply Hsh in Hy; apply FS; tauto|].
  intros Hex Hw.
  assert (Hex2 : forall y, In y X \/ In y Y -> ~ In y exclude).
  { intros y Hy Hye. assert (existsb (fun y => memb y exclude) (X ++ Y) = true); [|congruence]. apply existsb_exists. exists y. rewrite in_app_iff, memb_In. auto. }
  assert (FG : fgood ts out ((tz, c) :: map snd W) h').
  { assert (ST : forall x, stays ts out (tensors c) x <-> stays ts out (tensors (join a b)) x).
    { intros y. apply stays_ext. intros t. split; apply Permutation_in; auto. apply Permutation_sym. auto. }
    constructor.
    - rewrite <- (fg_perm FG0). unfold alls. simpl. apply Permutation_app_tail. auto.
    - intros Z d [E|Hd]; [|apply (fg_item FG0); right; auto]. inversion E; subst Z d. split; auto. intros y. rewrite ST.
      apply (fg_item FG0 (or_introl eq_refl)).
    - intros y. rewrite (fg_h FG0 y). rewrite !cnt_cons. auto. }
  assert (HWG : forall e, In e W -> In e G) by (intros e He; apply (Permutation_in _ (Permutation_sym PG)); right; right; auto).
  assert (HGW : forall e, In e G -> e = (px, (X, a)) \/ e = (py, (Y, b)) \/ In e W).
  { intros e He. apply (Permutation_in _ PG) in He. destruct He as [<-|[<-|He]]; auto. }
  assert (ND : NoDup (px :: py :: map fst W)).
  { apply (Permutation_NoDup (l := map fst G)); auto. change (px :: py :: map fst W) with (map fst ((px, (X, a)) :: (py, (Y, b)) :: W)). apply Permutation_map. auto. }
  assert (HWn : forall id v, In (id, v) W -> id <> px /\ id <> py).
  { intros id v H. inversion ND as [|? ? A1 A2]; subst. inversion A2 as [|? ? B1 B2]; subst. apply gin_fst in H. split; intros ->; auto. apply A1. right. auto. }
  assert (Hidlt : forall id v, In (id, v) G -> id < f_next s) by (intros id v H; apply (v_ids I); eapply gin_fst; eauto).
  destruct (move_all_ok px py (f_next s) (d := f_i2t s) Nz) as (d1 & M1 & M2 & M3).
  { intros y Hy. assert (Hcy : 0 < cnt (map snd G) y).
    { apply (proj2 (cnt_pos ts _ _)). assert (K : In y X \/ In y Y) by (apply Hz in Hy; tauto).
      destruct K as [K|K]; [exists X, a|exists Y, b]; split; auto; apply in_map_iff; [exists (px, (X, a))|exists (py, (Y, b))]; auto. }
    destruct (v_i2t I Hcy) as (ly & E & _). eauto. }
  destruct (@del_all_ok _ (filter (fun y => negb (memb y hyper) && negb (memb y out)) shared) d1) as (d2 & D1 & D2 & D3).
  { apply NoDup_filter'; auto. } { rewrite M2. apply I. }
  { intros y Hy. apply filter_In in Hy. destruct Hy as [Hy _]. apply Hsh in Hy. rewrite M3.
    destruct (v_i2t I (x := y)) as (ly & E & _). { apply (proj2 (cnt_pos ts _ _)). exists X, a. split; [apply in_map_iff; exists (px, (X, a)); auto|tauto]. }
    rewrite E. destruct (memb y tz); eauto. }
  destruct (dict_pop_ok NDts Etx) as (ts1 & P1 & P2 & P3 & P4 & P5).
  assert (Ety1 : dict_get ts1 py = Ok Y) by (rewrite P3; destruct (Nat.eqb_spec py px); congruence).
  destruct (dict_pop_ok P2 Ety1) as (ts2 & Q1 & Q2 & Q3 & Q4 & Q5).
  set (G' := W ++ [(f_next s, (tz, c))]).
  assert (Pts2 : Permutation ts2 (map (fun e => (fst e, fst (snd e))) W)).
  { apply Permutation_cons_inv with (a := (py, Y)). apply Permutation_cons_inv with (a := (px, X)).
    rewrite <- Q5, <- P5. rewrite (v_ts I). rewrite (Permutation_map (fun e => (fst e, fst (snd e))) PG). auto. }
  exists d1, d2, ts1, ts2, G', (q ++ [(lo, hi)]), (cs ++ [c]). split; auto. split; auto. split; auto. split; auto.
  split; [rewrite (Permutation_length PG); unfold G'; rewrite app_length; simpl; lia|].
  assert (PG' : Permutation (map snd G') ((tz, c) :: map snd W)).
  { unfold G'. rewrite map_app. simpl. symmetry. apply Permutation_cons_append. }
  assert (HG' : forall id v, In (id, v) G' <-> In (id, v) W \/ (id = f_next s /\ v = (tz, c))).
  { intros id v. unfold G'. rewrite in_app_iff. simpl. split; [intros [H|[H|[]]]; auto; inversion H; auto|intros [H|[-> ->]]; auto]. }
  constructor; cbn [f_ts f_i2t f_h f_next f_inds f_merged].
  - rewrite dict_set_new.
    + unfold G'. rewrite map_app. simpl. apply Permutation_app_tail. auto.
    + intros K. apply Q4, P4 in K. rewrite (Permutation_map fst (v_ts I)), map_map in K. apply in_map_iff in K. destruct K as ((id, v) & E & K). simpl in E. subst id.
      apply Hidlt in K. lia.
  - apply (fgood_perm (Permutation_sym PG')). auto.
  - intros y Hy. rewrite (cnt_perm y PG'), cnt_cons in Hy.
    assert (Hcy : 0 < cnt (map snd G) y).
    { rewrite (cnt_perm y PG2), !cnt_cons. destruct (memb y tz) eqn:M; [|lia]. apply memb_In, Hz in M.
      destruct (memb y X) eqn:MX; [lia|]. apply memb_nIn in MX. rewrite (proj2 (memb_In y Y)) by tauto. lia. }
    destruct (v_i2t I Hcy) as (ly & E & NDy & Hly). rewrite D3, M3, E.
    assert (Hdel : memb y (filter (fun y => negb (memb y hyper) && negb (memb y out)) shared) = true -> 0 < cnt (map snd W) y -> False).
    { intros K KW. apply memb_In in K. apply filter_In in K. destruct K as [K1 K2]. apply Hsh in K1. rewrite andb_true_iff, !negb_true_iff, !memb_nIn, Hhy in K2.
      destruct K2 as [K2 _]. apply K2. split; [tauto|]. split; [tauto|]. rewrite (fg_h (v_good I)), (cnt_perm y PG2), !cnt_cons.
      rewrite (proj2 (memb_In y X)), (proj2 (memb_In y Y)) by tauto. lia. }
    destruct (memb y tz) eqn:MZ.
    + assert (ND0 : memb y (filter (fun y => negb (memb y hyper) && negb (memb y out)) shared) = false).
      { apply memb_nIn. intros K. apply memb_In in MZ. apply Hz in MZ. apply filter_In in K. destruct K as [K1 K2]. apply Hsh in K1.
        rewrite andb_true_iff, !negb_true_iff, !memb_nIn, Hhy in K2. tauto. }
      rewrite ND0. eexists. split; [reflexivity|]. split.
      * apply NoDup_app. split; [apply NoDup_filter'; auto|]. split; [repeat constructor; simpl; tauto|].
        intros t A [<-|[]]. apply filter_In in A. destruct A as [_ A]. apply negb_true_iff, memb_nIn in A. simpl in A. tauto.
      * intros t. rewrite in_app_iff, filter_In, negb_true_iff, memb_nIn, Hly. split.
        -- intros [[(Z & d & A & B) N3]|[<-|[]]].
           ++ exists Z, d. split; auto. apply HG'. left. apply HGW in A. simpl in N3. destruct A as [A|[A|A]]; auto; inversion A; subst; tauto.
           ++ exists tz, c. rewrite HG'. apply memb_In in MZ. auto.
        -- intros (Z & d & A & B). apply HG' in A. destruct A as [A|[-> A]]; [left|right; left; auto]. pose proof (HWn _ _ A) as [A1 A2]. pose proof (Hidlt _ _ (HWG _ A)).
           split; [exists Z, d; auto|]. simpl. intros [K|[K|[K|[]]]]; try congruence. lia.
    + destruct (memb y (filter (fun y => negb (memb y hyper) && negb (memb y out)) shared)) eqn:ND0; [exfalso; apply (Hdel eq_refl); lia|].
      assert (NX : ~ In y X /\ ~ In y Y).
      { apply memb_nIn in ND0. apply memb_nIn in MZ. rewrite filter_In, Hsh, andb_true_iff, !negb_true_iff, !memb_nIn, Hhy in ND0. rewrite Hz in MZ.
        destruct (in_dec Nat.eq_dec y X), (in_dec Nat.eq_dec y Y), (in_dec Nat.eq_dec y out), (lt_dec 1 (f_h s y)); tauto. }
      exists ly. split; auto. split; auto. intros t. rewrite Hly. split.
      * intros (Z & d & A & B). exists Z, d. split; auto. apply HG'. left. apply HGW in A. destruct A as [A|[A|A]]; auto; inversion A; subst; tauto.
      * intros (Z & d & A & B). apply HG' in A. destruct A as [A|[_ A]]; [exists Z, d; auto|]. inversion A; subst Z d. apply memb_nIn in MZ. tauto.
  - auto.
  - rewrite app_length, (v_next I). simpl. lia.
  - intros id H. apply in_map_iff in H. destruct H as ((id', v) & <- & H). apply HG' in H. simpl. destruct H as [H|[-> _]]; auto. apply HWG, Hidlt in H. lia.
  - rewrite trip_snoc, <- (v_next I). unfold G'. rewrite map_app. simpl. unfold W. rewrite <- without_map. eapply lin_snoc; eauto; apply I.
  - unfold G'. rewrite map_app. simpl. unfold W. rewrite <- without_map. apply incr_app; [apply incr_without_from, I|].
    intros id H. rewrite without_map in H. apply in_map_iff in H. destruct H as ((id', v) & <- & H). apply HWG, Hidlt in H. auto.
  - unfold performs. rewrite perform_app. pose proof (v_perf I) as HP. unfold performs in HP. rewrite HP. simpl.
    destruct (Nat.eqb_spec lo hi); [lia|]. rewrite !nth_error_map.
    assert (El2 : nth_error G lo = Some (if i <? j then (px, (X, a)) else (py, (Y, b))) /\ nth_error G hi = Some (if i <? j then (py, (Y, b)) else (px, (X, a)))).
    { destruct Hc as [[-> ->]|[-> ->]]; destruct (Nat.ltb_spec i j); auto; lia. }
    destruct El2 as [-> ->]. simpl.
    assert (Ec : join (snd (snd (if i <? j then (px, (X, a)) else (py, (Y, b))))) (snd (snd (if i <? j then (py, (Y, b)) else (px, (X, a))))) = c).
    { unfold c, ab. destruct (i <? j); auto. }
    rewrite Ec. rewrite without_map. fold W. unfold G'. rewrite map_app. auto.
  - rewrite map_app. simpl. apply Forall2_app; [apply I|]. constructor; [|constructor]. destruct (FS x Xx Yx) as [_ SH].
    split; [|split; [auto|split; [|split; [auto|]]]].
    + unfold c, ab. destruct (i <? j); cbn [fst snd]; unfold join.
      * destruct (first_tensor a <=? first_tensor b); [exists a, b|exists b, a]; split; auto using share_sym.
      * destruct (first_tensor b <=? first_tensor a); [exists b, a|exists a, b]; split; auto using share_sym.
    + apply (fg_item FG (or_introl eq_refl)).
    + assert (Hone : forall id Z d, In (id, (Z, d)) G -> (forall y, In y Z -> ~ In y exclude) -> forall t y, In y exclude -> In t (tensors d) -> ~ has ts t y).
      { intros id Z d A B t y Hy Ht Hh. destruct (v_excl I A) as [(u & ->)|K]; [|apply (K t y); auto]. simpl in Ht. destruct Ht as [<-|[]].
        apply (B y); auto. destruct (fg_item (v_good I) (X := Z) (a := S_Path.T u)) as [_ F]. { apply in_map_iff. exists (id, (Z, S_Path.T u)). auto. }
        apply F. apply stays_one. auto. }
      intros t y Hy Ht. apply Hmem in Ht. destruct Ht as [Ht|Ht]; [apply (Hone px X a)|apply (Hone py Y b)]; auto.
  - intros id Z d H. apply HG' in H. destruct H as [H|[_ H]]; [apply (v_excl I) with id Z; auto|]. inversion H; subst Z d. right.
    intros t y Hy Ht Hh.
    assert (Hone : forall id Z d, In (id, (Z, d)) G -> (forall y, In y Z -> ~ In y exclude) -> forall t y, In y exclude -> In t (tensors d) -> ~ has ts t y).
      { intros id' Z d A B t' y' Hy' Ht' Hh'. destruct (v_excl I A) as [(u & ->)|K]; [|apply (K t' y'); auto]. simpl in Ht'. destruct Ht' as [<-|[]].
        apply (B y'); auto. destruct (fg_item (v_good I) (X := Z) (a := S_Path.T u)) as [_ F]. { apply in_map_iff. exists (id', (Z, S_Path.T u)). auto. }
        apply F. apply stays_one. auto. }
    apply Hmem in Ht. destruct Ht as [Ht|Ht]; [apply (Hone px X a Gx) in Hh|apply (Hone py Y b Gy) in Hh]; auto.
  - intros y Hy. apply in_app_iff in Hy. destruct Hy as [Hy|Hy]; [apply (v_inds I); auto|]. apply Hsh in Hy. apply Hex2. tauto.
Qed.

Lemma pop_lt (A : Type) (l : list A) i : i < length l -> exists x l', pop l i = Ok (x, l') /\ length l = S (length l').
Proof.
  intros H. destruct (nth_error l i) as [x|] eqn:E; [|apply nth_error_None in E; lia]. exists x. eexists. split; [apply (pop_ok E)|].
  rewrite app_length, firstn_length, skipn_length. lia.
Qed.

Lemma fuse_loop_ok fuel : forall avail s r G q cs, finv s G q cs -> length avail + length G < fuel ->
  exists s' G' q' cs', fuse_loop g lg dim max_width exclude out fuel avail s r = Ok s' /\ finv s' G' q' cs'.
Proof.
  induction fuel as [|f IH]; intros avail s r G q cs I Hf; [lia|]. cbn [fuse_loop].
  destruct avail as [|x0 av0] eqn:Eav; [exists s, G, q, cs; auto|]. rewrite <- Eav in *.
  assert (Hl : 0 < length avail) by (subst avail; simpl; lia). destruct Hg as [Hr Hs].
  pose proof (Hr r (length avail) Hl) as Hi. destruct (randrange g r (length avail)) as [i r1]. simpl in Hi.
  destruct (pop_lt Hi) as (x & av & E & L). rewrite E. cbn [bind].
  destruct (Nat.eqb_spec (f_h s x) 0) as [Z|Z]; [apply (IH _ _ _ G q cs); auto; lia|].
  assert (Hc : 2 <= cnt (map snd G) x). { rewrite (fg_h (v_good I)) in Z. lia. }
  destruct (v_i2t I (x := x)) as (l & El & NDl & Hll); [lia|]. rewrite El. cbn [bind].
  assert (L2 : 2 <= length l).
  { rewrite gin_cnt in Hc. pose proof (@NoDup_incl_length nat (map fst (filter (fun e => memb x (fst (snd e))) G)) l) as W. rewrite map_length in W.
    assert (N1 : NoDup (map fst (filter (fun e => memb x (fst (snd e))) G))).
    { pose proof (incr_nodup (v_incr I)) as NG. clear -NG. induction G as [|(id, v) G IH]; simpl in *; auto. inversion NG as [|? ? A B]; subst.
      destruct (memb x (fst v)); simpl; auto. constructor; auto. intros K. apply A. apply in_map_iff in K. destruct K as (e & E & K). apply filter_In in K.
      apply in_map_iff. exists e. tauto. }
    assert (incl (map fst (filter (fun e => memb x (fst (snd e))) G)) l); [|specialize (W N1 H); lia].
    intros t Ht. apply in_map_iff in Ht. destruct Ht as ((id, (X, a)) & <- & Ht). apply filter_In in Ht. simpl in Ht. rewrite memb_In in Ht. apply Hll. exists X, a. auto. }
  destruct (Nat.ltb_spec (length l) 2); [lia|].
  pose proof (Hs r1 (length l) ltac:(lia)) as Hab. destruct (sample2 g r1 (length l)) as [[a b] r2]. simpl in Hab. destruct Hab as (La & Lb & Nab).
  rewrite (get_nth 0 La). cbn [bind]. rewrite (get_nth 0 Lb). cbn [bind]. set (px := nth a l 0). set (py := nth b l 0).
  assert (Hpx : In px l) by (apply nth_In; auto). assert (Hpy : In py l) by (apply nth_In; auto).
  assert (Hne : px <> py). { intros K. apply Nab. apply (proj1 (NoDup_nth l 0) NDl); auto. }
  assert (Hget : forall p, In p l -> exists t, dict_get (f_ts s) p = Ok t).
  { intros p Hp. apply Hll in Hp. destruct Hp as (X & d & A & B). exists X. apply dict_get_in.
    - apply (Permutation_NoDup (l := map fst G)); [|apply incr_nodup, I]. symmetry. rewrite (Permutation_map fst (v_ts I)), map_map. auto.
    - apply (Permutation_in _ (Permutation_sym (v_ts I))). apply in_map_iff. exists (p, (X, d)). auto. }
  destruct (Hget px Hpx) as (tx & Etx). destruct (Hget py Hpy) as (ty & Ety). rewrite Etx. cbn [bind]. rewrite Ety. cbn [bind].
  destruct (finv_step I (x := x) (l := l) (px := px) (py := py) ltac:(lia) El Hpx Hpy Hne Etx Ety) as (S1 & S2 & S3).
  destruct (existsb (fun y => memb y exclude) (tx ++ ty)) eqn:Ex; [apply (IH _ _ _ G q cs); auto; lia|]. cbv zeta.
  set (shared := filter (fun y => memb y ty) (unique tx)) in *. rewrite (proj2 (memb_In x shared)) by auto. cbn [negb].
  destruct (existsb (fun y => f_h s y =? 0) shared) eqn:Ex2.
  { exfalso. apply existsb_exists in Ex2. destruct Ex2 as (y & A & B). apply Nat.eqb_eq in B. pose proof (S2 y A). lia. }
  set (hyper := filter (fun y => 1 <? f_h s y) shared) in *. set (tz := fused_inds tx ty hyper out) in *.
  destruct (Z.ltb_spec max_width (fwidth lg dim tz)) as [HW|HW]; [apply (IH _ _ _ G q cs); auto; lia|].
  destruct (S3 eq_refl HW) as (d1 & d2 & ts1 & ts2 & G' & q' & cs' & M1 & M2 & M3 & M4 & M5 & I').
  rewrite M1. cbn [bind]. rewrite M2. cbn [bind]. rewrite M3. cbn [bind]. rewrite M4. cbn [bind].
  apply (IH _ _ _ G' q' cs'); auto. match goal with |- context [if ?c then av else _] => destruct c end; [lia|]. rewrite app_length. simpl. lia.
Qed.
End Loop.

(** ** The start *)
Lemma in_concat_has ts x : In x (concat ts) <-> exists t, has ts t x.
Proof.
  rewrite in_concat. split.
  - intros (xs & A & B). apply In_nth_error in A. destruct A as (t & A). exists t, xs. auto.
  - intros (t & xs & A & B). exists xs. split; auto. apply nth_error_In with t. auto.
Qed.
Lemma has_nth ts t x : has ts t x <-> t < length ts /\ In x (nth t ts []).
Proof.
  split.
  - intros (xs & A & B). split; [apply nth_error_Some; congruence|]. rewrite (nth_error_nth _ _ _ A). auto.
  - intros [A B]. exists (nth t ts []). split; auto. apply nth_error_nth'. auto.
Qed.
Lemma adjacency_ok ts : NoDup (map fst (adjacency ts)) /\ forall x, In x (concat ts) ->
  exists l, dict_get (adjacency ts) x = Ok l /\ NoDup l /\ forall t, In t l <-> has ts t x.
Proof.
  unfold adjacency. assert (E : map fst (map (fun x => (x, filter (fun t => memb x (nth t ts [])) (seq 0 (length ts)))) (unique (concat ts))) = unique (concat ts)).
  { rewrite map_map. simpl. apply map_id. }
  split; [rewrite E; apply unique_nodup|]. intros x Hx. exists (filter (fun t => memb x (nth t ts [])) (seq 0 (length ts))). split; [|split].
  - apply dict_get_in; [rewrite E; apply unique_nodup|]. apply in_map_iff. exists x. rewrite unique_in. auto.
  - apply NoDup_filter', seq_NoDup.
  - intros t. rewrite filter_In, in_seq, memb_In, has_nth. intuition lia.
Qed.
Lemma count_tensors ts x : (forall xs, In xs ts -> NoDup xs) -> count x (concat ts) = length (filter (memb x) ts).
Proof.
  induction ts as [|xs ts IH]; intros H; auto. simpl. rewrite count_app, IH by (intros; apply H; simpl; auto).
  rewrite count_nodup by (apply H; simpl; auto). destruct (memb x xs); auto.
Qed.
Lemma combine_seq_in (A : Type) (l : list A) : forall k i a, In (i, a) (combine (seq k (length l)) l) <-> exists j, i = k + j /\ nth_error l j = Some a.
Proof.
  induction l as [|b l IH]; intros k i a; simpl.
  - split; [tauto|]. intros ([|j] & _ & E); discriminate.
  - rewrite IH. split.
    + intros [E|(j & -> & E)]; [inversion E; subst; exists 0; split; auto; lia|]. exists (S j). split; auto. lia.
    + intros ([|j] & -> & E); simpl in E; [left; f_equal; [lia|congruence]|right]. exists j. split; auto. lia.
Qed.
Lemma combine_fst (A B : Type) : forall (l : list A) (k : list B), length l = length k -> map fst (combine l k) = l.
Proof. induction l as [|a l IH]; intros [|b k] H; simpl in *; auto; try lia. f_equal. auto. Qed.
Lemma combine_snd (A B : Type) : forall (l : list A) (k : list B), length l = length k -> map snd (combine l k) = k.
Proof. induction l as [|a l IH]; intros [|b k] H; simpl in *; auto; try lia. f_equal. auto. Qed.

Definition fitems (ts : list (list nat)) : list (nat * (list nat * term)) := combine (seq 0 (length ts)) (fstart ts).
Lemma fstart_len ts : length (fstart ts) = length ts.
Proof. rewrite <- (map_length fst), fstart_fst. auto. Qed.
Lemma fitems_in ts id X a : In (id, (X, a)) (fitems ts) <-> nth_error ts id = Some X /\ a = S_Path.T id.
Proof.
  unfold fitems. rewrite <- (fstart_len ts), combine_seq_in. split.
  - intros (j & -> & E). simpl. split.
    + rewrite <- (fstart_fst ts) at 1. rewrite nth_error_map, E. auto.
    + assert (E2 : nth_error (map snd (fstart ts)) j = Some a) by (rewrite nth_error_map, E; auto). rewrite fstart_snd, nth_error_map in E2.
      destruct (nth_error (seq 0 (length ts)) j) as [k|] eqn:E3; [|discriminate]. apply nth_error_nth with (d := 0) in E3.
      assert (j < length ts). { rewrite <- fstart_len. apply nth_error_Some. congruence. }
      rewrite seq_nth in E3 by auto. simpl in *. congruence.
  - intros [E ->]. exists id. split; auto. assert (L : id < length ts) by (apply nth_error_Some; congruence). rewrite <- fstart_len in L.
    destruct (nth_error (fstart ts) id) as [(X', a')|] eqn:E1; [|apply nth_error_None in E1; lia].
    assert (E2 : nth_error (map snd (fstart ts)) id = Some a') by (rewrite nth_error_map, E1; auto).
    assert (E3 : nth_error (map fst (fstart ts)) id = Some X') by (rewrite nth_error_map, E1; auto).
    rewrite fstart_fst in E3. rewrite fstart_snd, nth_error_map in E2. rewrite fstart_len in L. rewrite (nth_error_nth' (seq 0 (length ts)) 0) in E2 by (rewrite seq_length; auto).
    rewrite seq_nth in E2 by auto. simpl in E2. congruence.
Qed.

Lemma finv_start lg dim mw exclude out ts h : (forall xs, In xs ts -> NoDup xs) -> (forall x, h x = count x (concat ts) - 1) ->
  finv lg dim mw exclude out ts (mkF (combine (seq 0 (length ts)) ts) (adjacency ts) h (length ts) [] []) (fitems ts) [] [].
Proof.
  intros HN Hh. assert (Es : map snd (fitems ts) = fstart ts) by (unfold fitems; apply combine_snd; rewrite seq_length, fstart_len; auto).
  assert (Ef : map fst (fitems ts) = seq 0 (length ts)) by (unfold fitems; apply combine_fst; rewrite seq_length, fstart_len; auto).
  destruct (adjacency_ok ts) as [A1 A2].
  constructor; cbn [f_ts f_i2t f_h f_next f_inds f_merged]; auto.
  - replace (map (fun e => (fst e, fst (snd e))) (fitems ts)) with (combine (seq 0 (length ts)) ts); auto. rewrite <- (fstart_fst ts) at 2. unfold fitems.
    generalize (fstart ts) as F. generalize (seq 0 (length ts)) as l. induction l as [|a l IH]; intros [|b F]; simpl; auto. f_equal. auto.
  - rewrite Es. apply fgood_start; auto. intros x. rewrite Hh, count_tensors; auto.
  - intros x Hx. rewrite Es in Hx. apply (proj1 (cnt_pos ts _ _)) in Hx. destruct Hx as (X & a & B & D). apply fstart_in in B. destruct B as (t & B & ->).
    destruct (A2 x) as (l & E1 & E2 & E3). { apply in_concat_has. exists t, X. auto. } exists l. split; auto. split; auto. intros u. rewrite E3. split.
    + intros (Y & F1 & F2). exists Y, (S_Path.T u). rewrite fitems_in. auto.
    + intros (Y & b & F1 & F2). apply fitems_in in F1. exists Y. tauto.
  - intros id. rewrite Ef, in_seq. lia.
  - rewrite Ef. constructor.
  - rewrite Ef. apply incr_seq.
  - unfold performs. simpl. f_equal. f_equal. transitivity (map snd (map snd (fitems ts))); [rewrite Es, fstart_snd; auto|apply map_map].
  - constructor.
  - intros id X a H. apply fitems_in in H. left. exists id. tauto.
Qed.

Lemma dims_of_spec d order : (exists ds, dims_of d order = Ok ds) \/
  (dims_of d order = Err Throw /\ exists x, In x order /\ forall k, ~ dim_is d x k).
Proof.
  induction order as [|x order IH]; simpl; [eauto|].
  assert (H : (exists k, match d with PyDict l => dict_get l x | PyInt k => Ok k end = Ok k) \/
     (match d with PyDict l => dict_get l x | PyInt k => Ok k end = Err Throw /\ forall k, ~ dim_is d x k)).
  { clear IH. unfold dim_is. destruct d as [l|k]; [|left; eauto]. induction l as [|(j, v) l IHl]; simpl; [right; split; auto; discriminate|]. destruct (x =? j); [left; exists v; auto|exact IHl]. }
  destruct H as [(k & ->)|(-> & H)]; cbn [bind]; [|right; split; auto; exists x; auto].
  destruct IH as [(ds & ->)|(-> & y & Hy & Hk)]; cbn [bind]; [left; eauto|right]. split; auto. exists y. auto.
Qed.
Lemma dims_of_ok_all d order ds : dims_of d order = Ok ds -> forall x, In x order -> exists k, dim_is d x k.
Proof.
  revert ds. induction order as [|y order IH]; simpl; intros ds H x; [tauto|].
  destruct (match d with PyDict l => dict_get l y | PyInt k => Ok k end) as [k|] eqn:E; [|discriminate]. cbn [bind] in H.
  destruct (dims_of d order) as [r|] eqn:E2; [|discriminate]. intros [<-|Hx]; [|apply (IH r); auto]. exists k. unfold dim_is. destruct d; auto. inversion E. auto.
Qed.

Lemma stays_lonely_out ts out l x : (forall y, In y out -> lonely ts y) -> stays ts out l x <-> stays ts [] l x.
Proof. intros H. unfold stays. split; intros [A [B|B]]; split; auto. destruct B. Qed.

Lemma three_has ts x : (forall xs, In xs ts -> NoDup xs) -> 1 < count x (concat ts) - 1 <-> in_three ts x.
Proof.
  intros HN. set (l := filter (fun t => memb x (nth t ts [])) (seq 0 (length ts))).
  assert (El : count x (concat ts) = length l).
  { unfold l. rewrite <- count_concat.
    - f_equal. f_equal. clear. induction ts as [|xs ts IH]; auto. simpl. f_equal. rewrite <- seq_shift, map_map. auto.
    - intros t Ht. apply in_seq in Ht. apply HN. apply nth_In. lia. }
  assert (Nl : NoDup l) by (apply NoDup_filter', seq_NoDup).
  assert (Il : forall t, In t l <-> has ts t x). { intros t. unfold l. rewrite filter_In, in_seq, memb_In, has_nth. intuition lia. }
  rewrite El. split.
  - intros H. destruct (three Nl) as (a & b & c & A & B); [lia|]. exists a, b, c. split; auto. rewrite <- !Il. repeat split; apply B; simpl; auto.
  - intros (a & b & c & A & B). pose proof (NoDup_incl_length A (l' := l)) as W. simpl in W. assert (3 <= length l); [|lia]. apply W.
    rewrite <- !Il in B. intros t [<-|[<-|[<-|[]]]]; tauto.
Qed.
Lemma lonely_count ts x : (forall xs, In xs ts -> NoDup xs) -> In x (concat ts) -> count x (concat ts) - 1 = 0 -> lonely ts x.
Proof.
  intros HN Hx Hc. set (l := filter (fun t => memb x (nth t ts [])) (seq 0 (length ts))).
  assert (El : count x (concat ts) = length l).
  { unfold l. rewrite <- count_concat.
    - f_equal. f_equal. clear. induction ts as [|xs ts IH]; auto. simpl. f_equal. rewrite <- seq_shift, map_map. auto.
    - intros t Ht. apply in_seq in Ht. apply HN. apply nth_In. lia. }
  assert (Il : forall t, In t l <-> has ts t x). { intros t. unfold l. rewrite filter_In, in_seq, memb_In, has_nth. intuition lia. }
  apply in_concat_has in Hx. destruct Hx as (t & Ht). apply Il in Ht. rewrite El in Hc.
  destruct l as [|u [|v l']] eqn:E; simpl in Hc; [destruct Ht| |lia]. exists u. intros w. rewrite <- Il. simpl. intuition congruence.
Qed.

Lemma forall2_impl (A B : Type) (P Q : A -> B -> Prop) : (forall a b, P a b -> Q a b) -> forall l k, Forall2 P l k -> Forall2 Q l k.
Proof. intros H l k F. induction F; constructor; auto. Qed.

Theorem fuse_ok (R : Type) (g : prng R) lg ts d max_width output exclude r : prng_ok g -> (forall xs, In xs ts -> NoDup xs) ->
  (fuse_rejects ts d output exclude /\ fuse g lg ts d max_width output exclude r = Err Throw) \/
  (~ fuse_rejects ts d output exclude /\ exists p fs cs rest, fuse g lg ts d max_width output exclude r = Ok (p, fs) /\ performs (length ts) p cs rest /\
     Forall2 (fun c zs => (exists a b, c = C a b /\ share ts (tensors a) (tensors b)) /\
       NoDup zs /\ (forall x, In x zs <-> stays ts (match output with Some o => o | None => [] end) (tensors c) x) /\
       (forall w, total_width lg d zs w -> (w <= max_width)%Z) /\ (exists w, total_width lg d zs w) /\
       (forall t x, In x exclude -> In t (tensors c) -> ~ has ts t x)) cs fs).
Proof.
  intros Hg HN. unfold fuse. cbv zeta. set (all := unique (concat ts)).
  assert (Hall : forall x, In x all <-> exists t, has ts t x) by (intros x; unfold all; rewrite unique_in; apply in_concat_has).
  assert (Hsub : forall l, forallb (fun x => memb x all) l = true \/ forallb (fun x => memb x all) l = false /\ exists x, In x l /\ forall t, ~ has ts t x).
  { intros l. destruct (forallb (fun x => memb x all) l) eqn:E; auto. right. split; auto. rewrite <- not_true_iff_false, forallb_forall in E.
    induction l as [|x l IH]; [exfalso; apply E; intros x []|]. destruct (in_dec Nat.eq_dec x all) as [I|I].
    - destruct IH as (y & A & B); [|exists y; simpl; auto]. intros K. apply E. intros y [<-|Hy]; [apply memb_In; auto|auto].
    - exists x. split; [left; auto|]. intros t Ht. apply I. apply Hall. eauto. }
  assert (Hsub2 : forall l, forallb (fun x => memb x all) l = true -> forall x, In x l -> exists t, has ts t x).
  { intros l E x Hx. rewrite forallb_forall in E. apply E, memb_In, Hall in Hx. auto. }
  destruct (Hsub exclude) as [E1|[E1 X1]]; rewrite E1; cbn [negb]; [|left; split; auto; left; auto].
  destruct (dims_of_spec d all) as [(ds & E2)|[E2 X2]]; rewrite E2; cbn [bind]; [|left; split; auto].
  2:{ right. left. destruct X2 as (x & A & B). exists x. apply Hall in A. auto. }
  set (out := match output with Some o => o | None => filter (fun x => count x (concat ts) - 1 =? 0) all end).
  set (bad := match output with None => existsb (fun x => 1 <? count x (concat ts) - 1) all | Some _ => false end).
  assert (Eout : match output with None => if existsb (fun x => 1 <? count x (concat ts) - 1) all then Err Throw else Ok (filter (fun x => count x (concat ts) - 1 =? 0) all) | Some o => Ok o end
     = if bad then Err Throw else Ok out). { unfold bad, out. destruct output; auto. }
  rewrite Eout.
  assert (X3 : bad = true <-> output = None /\ exists x, in_three ts x).
  { unfold bad. destruct output as [o|]; [split; [discriminate|intros [K _]; discriminate]|]. rewrite existsb_exists. split.
    - intros (x & A & B). split; auto. exists x. apply (three_has _ HN). apply Nat.ltb_lt. auto.
    - intros (_ & x & A). exists x. split; [|apply Nat.ltb_lt, (three_has _ HN); auto]. apply Hall. destruct A as (a & _ & _ & _ & A & _). eauto. }
  destruct bad; cbn [bind].
  { left. split; auto. right. right. left. apply X3. auto. }
  destruct (Hsub out) as [E4|[E4 X4]]; rewrite E4; cbn [negb].
  2:{ left. split; auto. right. right. right. destruct X4 as (x & A & B). unfold out in A. destruct output as [o|]; [exists o; split; auto; exists x; auto|].
      apply filter_In in A. destruct A as [A _]. apply Hall in A. destruct A as (t & A). exfalso. apply (B t A). }
  right. split.
  { intros [(x & A & B)|[(x & (t & A) & B)|[A|(o & -> & x & A & B)]]].
    - destruct (Hsub2 _ E1 x A) as (t & Ht). apply (B t Ht).
    - destruct (@dims_of_ok_all d all ds E2 x) as (k & Hk); [apply Hall; eauto|apply (B k Hk)].
    - apply X3 in A. discriminate.
    - destruct (Hsub2 _ E4 x A) as (t & Ht). apply (B t Ht). }
  cbv beta. set (h := fun x => count x (concat ts) - 1).
  set (avail := filter (fun x => negb (memb x exclude) && negb (count x (concat ts) - 1 =? 0)) all).
  pose proof (@finv_start lg (dim_at d) max_width exclude out ts h HN (fun x => eq_refl)) as I0.
  assert (Lf : length (fitems ts) = length ts) by (unfold fitems; rewrite combine_length, seq_length, fstart_len; lia).
  destruct (fuse_loop_ok Hg (fuel := S (length avail + length ts)) (avail := avail) r I0) as (s & G & q & cs & E & I); [lia|].
  rewrite E. cbn [bind].
  destruct (existsb (fun x => memb x exclude) (f_inds s)) eqn:E5.
  { exfalso. apply existsb_exists in E5. destruct E5 as (x & A & B). apply memb_In in B. apply (v_inds I A B). }
  assert (E6 : renormalize (f_merged s) (seq 0 (f_next s)) = Ok q).
  { rewrite (v_next I), seq_app. simpl. apply renorm_ok with (loc' := map fst G); [apply (v_lin I)|]. rewrite <- seq_app. apply incr_seq. }
  rewrite E6. cbn [bind]. exists q, (map snd (f_merged s)), cs, (map (fun e => snd (snd e)) G). split; auto. split; [apply (v_perf I)|].
  eapply forall2_impl; [|apply (v_res I)]. intros c zs (A1 & A2 & A3 & A4 & A5).
  assert (Hocc : forall x, In x zs -> In x all). { intros x Hx. apply A3 in Hx. destruct Hx as ((t & _ & Hx) & _). apply Hall. eauto. }
  split; auto. split; auto. split; [|split; [|split; [|auto]]].
  - intros x. rewrite A3. unfold out. destruct output as [o|]; [tauto|]. apply stays_lonely_out. intros y Hy. apply filter_In in Hy.
    destruct Hy as [H1 H2]. apply Nat.eqb_eq in H2. apply lonely_count; auto. apply Hall in H1. apply in_concat_has; auto.
  - intros w Hw. enough (w = fwidth lg (dim_at d) zs) by lia. clear -Hw. unfold fwidth. induction Hw as [|x k zs w Hd Hw IH]; auto. simpl. rewrite <- IH. f_equal.
    f_equal. unfold dim_at, dim_is in *. destruct d; [rewrite Hd|]; auto.
  - clear A1 A2 A3 A4 A5. induction zs as [|x zs IH]; [exists 0%Z; constructor|]. destruct IH as (w & Hw); [intros; apply Hocc; right; auto|].
    destruct (@dims_of_ok_all d all ds E2 x) as (k & Hk); [apply Hocc; left; auto|]. eexists. constructor; eauto.
Qed.

Corollary fuse_raises (R : Type) (g : prng R) lg ts d max_width output exclude r : prng_ok g -> (forall xs, In xs ts -> NoDup xs) ->
  fuse g lg ts d max_width output exclude r = Err Throw <-> fuse_rejects ts d output exclude.
Proof.
  intros Hg HN. destruct (@fuse_ok R g lg ts d max_width output exclude r Hg HN) as [[A B]|(A & p & fs & cs & rest & B & _)]; [tauto|].
  rewrite B. split; [discriminate|tauto].
Qed.
Corollary fuse_accepts (R : Type) (g : prng R) lg ts d max_width output exclude r : prng_ok g -> (forall xs, In xs ts -> NoDup xs) ->
  ~ fuse_rejects ts d output exclude ->
  exists p fs cs rest, fuse g lg ts d max_width output exclude r = Ok (p, fs) /\ performs (length ts) p cs rest /\
    Forall2 (fun c zs => (exists a b, c = C a b /\ share ts (tensors a) (tensors b)) /\
      NoDup zs /\ (forall x, In x zs <-> stays ts (match output with Some o => o | None => [] end) (tensors c) x) /\
      (forall w, total_width lg d zs w -> (w <= max_width)%Z) /\ (exists w, total_width lg d zs w) /\
      (forall t x, In x exclude -> In t (tensors c) -> ~ has ts t x)) cs fs.
Proof. intros Hg HN H. destruct (@fuse_ok R g lg ts d max_width output exclude r Hg HN) as [[A B]|(A & B)]; [tauto|auto]. Qed.
Corollary fuse_outputs (R : Type) (g : prng R) lg ts d max_width o exclude r p fs : prng_ok g -> (forall xs, In xs ts -> NoDup xs) ->
  fuse g lg ts d max_width (Some o) exclude r = Ok (p, fs) ->
  exists cs rest, performs (length ts) p cs rest /\
    Forall2 (fun c zs => forall x, In x o -> (exists t, In t (tensors c) /\ has ts t x) -> In x zs) cs fs.
Proof.
  intros Hg HN H. destruct (@fuse_ok R g lg ts d max_width (Some o) exclude r Hg HN) as [[A B]|(A & p' & fs' & cs & rest & B & P & F)]; [congruence|].
  rewrite B in H. inversion H; subst p' fs'. exists cs, rest. split; auto. eapply forall2_impl; [|apply F]. intros c zs (_ & _ & K & _) x Hx Ht.
  apply K. split; auto.
Qed.
Lemma fuse_repeated : exists ts d, (~ fuse_rejects ts d None []) /\
  forall (R : Type) (g : prng R) lg max_width r, prng_ok g -> fuse g lg ts d max_width None [] r = Err Throw.
Proof.
  exists [[0; 0]], (PyInt 2). split.
  - intros [(x & [] & _)|[(x & _ & B)|[(_ & x & a & b & c & A & (xs & B & _) & (ys & D & _) & _)|(o & E & _)]]]; [apply (B 2%N); simpl; auto| |discriminate].
    assert (Ha : a < 1) by (apply (nth_error_Some [[0; 0]]); congruence). assert (Hb : b < 1) by (apply (nth_error_Some [[0; 0]]); congruence).
    inversion A as [|? ? A1 A2]; subst. apply A1. left. lia.
  - intros R g lg mw r [H _]. unfold fuse. simpl. pose proof (H r 1 ltac:(lia)) as Hi. destruct (randrange g r 1) as [i r1]. simpl in Hi.
    assert (i = 0) as -> by lia. reflexivity.
Qed.
