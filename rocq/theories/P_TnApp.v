(** Proofs about read_inds, Tensor and TensorNetwork. *)
From Verif Require Import P_Base P_Opt P_PyMain.
From Verif Require Import M_Base M_Path M_PyTree M_OSet M_Tensor M_TnApp S_OSet S_TnApp.
From Verif Require Import P_Split P_Fuse P_PyBuild P_OSet P_Array P_ContractMain P_Decompose P_Symbols.
Set Implicit Arguments. Unset Strict Implicit.

(** ** read_inds *)
Definition uses (m : list item) : list (nat * nat) := flat_map (fun e => map (fun t => (t, fst e)) (snd (snd e))) m.
Definition add_use (tm : list (nat * list nat)) (p : nat * nat) := append_to tm (fst p) (snd p).

Lemma fold_uses m : forall tm, fold_left read_item m tm = fold_left add_use (uses m) tm.
Proof.
  induction m as [|(i, (d, ts)) m IH]; intros tm; simpl; auto. rewrite fold_left_app, IH. f_equal. unfold read_item; cbn [fst snd].
  generalize tm. induction ts as [|t ts IH']; intros tm'; simpl; auto.
Qed.
Lemma names_uses m : map fst (uses m) = names m.
Proof.
  unfold uses, names. induction m as [|(i, (d, ts)) m IH]; simpl; auto. rewrite map_app, IH, map_map. simpl. rewrite map_id. auto.
Qed.
Lemma listed_uses m t : map snd (filter (fun p => t =? fst p) (uses m)) = listed m t.
Proof.
  unfold uses, listed. induction m as [|(i, (d, ts)) m IH]; simpl; auto. rewrite filter_app, map_app, IH. f_equal.
  induction ts as [|u ts IH']; simpl; auto. destruct (Nat.eqb_spec t u) as [E1|E1], (Nat.eq_dec u t) as [Hx|Hx]; simpl; try congruence; f_equal; auto.
Qed.

Lemma unique_aux_snoc l x : forall seen, unique_aux seen (l ++ [x]) = unique_aux seen l ++ (if memb x (seen ++ l) then [] else [x]).
Proof.
  induction l as [|y l IH]; intros seen; simpl.
  - rewrite app_nil_r. destruct (memb x seen); auto.
  - destruct (memb y seen) eqn:E.
    + rewrite IH. f_equal. assert (M : memb x (seen ++ y :: l) = memb x (seen ++ l)); [|rewrite M; auto].
      apply eq_true_iff_eq. rewrite !memb_In, !in_app_iff. simpl. apply memb_In in E. intuition subst; auto.
    + simpl. rewrite IH. do 2 f_equal. assert (M : memb x (seen ++ y :: l) = memb x (y :: seen ++ l)); [|rewrite M; auto].
      apply eq_true_iff_eq. rewrite !memb_In. simpl. rewrite !in_app_iff. simpl. tauto.
Qed.
Lemma unique_snoc l x : unique (l ++ [x]) = if memb x l then unique l else unique l ++ [x].
Proof. unfold unique. rewrite unique_aux_snoc. simpl app. destruct (memb x l); auto. apply app_nil_r. Qed.

Lemma fold_ok ps : let tm := fold_left add_use ps [] in
  map fst tm = unique (map fst ps) /\
  forall t, dict_get tm t = if memb t (map fst ps) then Ok (map snd (filter (fun p => t =? fst p) ps)) else Err Throw.
Proof.
  induction ps as [|(t, i) ps IH] using rev_ind; [simpl; split; auto|]. intros tm. subst tm. rewrite fold_left_app. cbn [fold_left]. destruct IH as (IK & IG).
  set (tm := fold_left add_use ps []) in *. unfold add_use, append_to; cbn [fst snd]. rewrite map_app. cbn [map fst]. split.
  - rewrite unique_snoc. destruct (memb t (map fst ps)) eqn:E.
    + rewrite dict_set_keys; auto. rewrite IK. apply unique_in, memb_In; auto.
    + rewrite dict_set_new, map_app, IK; auto. rewrite IK, unique_in. apply memb_nIn; auto.
  - intros u. rewrite dict_get_set, !IG, filter_app, map_app. unfold memb at 3. rewrite existsb_app. fold (memb u (map fst ps)). simpl. rewrite orb_false_r.
    destruct (Nat.eqb_spec u t) as [->|Hn]; simpl.
    + rewrite orb_true_r. destruct (memb t (map fst ps)) eqn:E; auto. f_equal. f_equal. symmetry.
      apply memb_nIn in E. clear - E. induction ps as [|(a, b) ps IH]; simpl in *; auto. destruct (Nat.eqb_spec t a); [subst; tauto|]. apply IH; tauto.
    + rewrite orb_false_r, app_nil_r. auto.
Qed.

Lemma pop_list_ok tm t : NoDup (map fst tm) -> exists tm', pop_list tm t = (match dict_get tm t with Ok xs => xs | Err _ => [] end, tm') /\
  map fst tm' = filter (fun u => negb (t =? u)) (map fst tm) /\ NoDup (map fst tm') /\ forall u, dict_get tm' u = if u =? t then Err Throw else dict_get tm u.
Proof.
  intros HN. unfold pop_list. destruct (dict_get_none tm t) as [(xs & E)|E].
  - destruct (@dict_pop_ok _ tm t xs HN E) as (d' & E' & N' & HG & _). rewrite E', E. exists d'. repeat split; auto.
    clear - HN E'. revert d' E'. induction tm as [|(k, v) tm IH]; simpl in *; [discriminate|]. inversion HN as [|? ? N1 N2]; subst. intros d'. destruct (Nat.eqb_spec t k) as [->|Hn].
    + intros H; inversion H; subst; simpl. clear - N1. induction (map fst d') as [|a l IH]; simpl in *; auto. destruct (Nat.eqb_spec k a); [subst; tauto|]. simpl. f_equal. apply IH; tauto.
    + destruct (dict_pop tm t) as [(w, r)|]; cbn [bind]; [|discriminate]. intros H; inversion H; subst; simpl. f_equal. auto.
  - assert (A : ~ In t (map fst tm)). { intros H. apply in_map_iff in H. destruct H as ((k, v) & <- & H). simpl in *. rewrite (dict_get_in HN H) in E. discriminate. }
    rewrite dict_pop_none, E; auto. exists tm. repeat split; auto.
    + clear - A. induction (map fst tm) as [|a l IH]; simpl in *; auto. destruct (Nat.eqb_spec t a); [subst; tauto|]. simpl. f_equal. apply IH; tauto.
    + intros u. destruct (Nat.eqb_spec u t) as [->|]; auto.
Qed.

Lemma listed_in m t i : In i (listed m t) <-> exists d ts, In (i, (d, ts)) m /\ In t ts.
Proof.
  unfold listed. rewrite in_flat_map. split.
  - intros ((j, (d, ts)) & H & Hi). simpl in Hi. pose proof (repeat_spec _ _ _ Hi). subst. exists d, ts. split; auto.
    destruct (in_dec Nat.eq_dec t ts) as [|Hn]; auto. apply (count_occ_not_In Nat.eq_dec) in Hn. rewrite Hn in Hi. destruct Hi.
  - intros (d & ts & H & Ht). exists (i, (d, ts)). split; auto. simpl. apply (count_occ_In Nat.eq_dec) in Ht. destruct (count_occ Nat.eq_dec ts t); [lia|]. left; auto.
Qed.
Lemma listed_nil m t : listed m t = [] <-> ~ In t (names m).
Proof.
  unfold names. rewrite in_flat_map. split.
  - intros E ((i, (d, ts)) & H & Ht). assert (In i (listed m t)) by (apply listed_in; eauto). rewrite E in *. auto.
  - intros H. destruct (listed m t) as [|i l] eqn:E; auto. exfalso. assert (In i (listed m t)) as Hi by (rewrite E; left; auto). apply listed_in in Hi. destruct Hi as (d & ts & Hm & Ht). apply H. exists (i, (d, ts)); auto.
Qed.

Lemma ordered_filter f l r : ordered_by l r -> ordered_by l (filter f r).
Proof.
  intros [H1 H2]. split; [intros x Hx; apply filter_In in Hx; destruct Hx; auto|].
  intros i j x y a b Hij Hi Hj. assert (P : exists i' j', i' < j' /\ nth_error r i' = Some x /\ nth_error r j' = Some y).
  { clear - Hij Hi Hj. revert i j Hij Hi Hj. induction r as [|z r IH]; simpl; intros i j Hij Hi Hj; [destruct i; discriminate|]. destruct (f z) eqn:E.
    - destruct i as [|i]; simpl in Hi.
      + destruct j as [|j]; [lia|]. simpl in Hj. assert (In y r). { apply nth_error_In in Hj. apply filter_In in Hj. tauto. }
        apply In_nth_error in H. destruct H as (k & Hk). exists 0, (Datatypes.S k). simpl. repeat split; auto. lia.
      + destruct j as [|j]; [lia|]. simpl in Hj. destruct (IH i j) as (i' & j' & L & A & B); auto; [lia|]. exists (Datatypes.S i'), (Datatypes.S j'). simpl. repeat split; auto. lia.
    - destruct (IH i j) as (i' & j' & L & A & B); auto. exists (Datatypes.S i'), (Datatypes.S j'). simpl. repeat split; auto. lia. }
  destruct P as (i' & j' & L & A & B). eapply H2; eauto.
Qed.

Lemma read_ok (m : list item) o s : NoDup (map fst m) -> o <> s -> exists r, read_inds m o s = Ok r /\
  set_like (names m) (map fst (r_map r)) (fun t => In t (names m) /\ t <> o /\ t <> s) /\
  (forall t xs, dict_get (r_map r) t = Ok xs <-> t <> o /\ t <> s /\ In t (names m) /\ xs = listed m t) /\
  map fst (r_dims r) = map fst m /\ (forall i d, dict_get (r_dims r) i = Ok d <-> exists ts, In (i, (d, ts)) m) /\
  NoDup (r_out r) /\ (forall i, In i (r_out r) <-> In i (listed m o)) /\
  NoDup (r_sparse r) /\ (forall i, In i (r_sparse r) <-> In i (listed m s)).
Proof.
  intros HN Hos. unfold read_inds. rewrite (proj2 (Nat.eqb_neq _ _) Hos), fold_uses.
  destruct (fold_ok (uses m)) as (HK & HG). set (tm := fold_left add_use (uses m) []) in *. rewrite names_uses in HK.
  assert (N0 : NoDup (map fst tm)) by (rewrite HK; apply unique_nodup).
  assert (G0 : forall t, dict_get tm t = if memb t (names m) then Ok (listed m t) else Err Throw) by (intros t; rewrite HG, listed_uses, names_uses; auto).
  assert (L0 : forall t, match dict_get tm t with Ok xs => xs | Err _ => [] end = listed m t).
  { intros t. rewrite G0. destruct (memb t (names m)) eqn:E; auto. symmetry. apply listed_nil. apply memb_nIn; auto. }
  destruct (@pop_list_ok tm o N0) as (t1 & -> & K1 & N1 & G1). destruct (@pop_list_ok t1 s N1) as (t2 & -> & K2 & N2 & G2).
  eexists. split; [reflexivity|]. cbn [r_map r_dims r_out r_sparse].
  split. { split; [auto|]. rewrite K2, K1, HK. split; [apply ordered_filter, ordered_filter, unique_ordered|].
    intros x. rewrite !filter_In, unique_in, !negb_true_iff, !Nat.eqb_neq. intuition congruence. }
  split. { intros t xs. rewrite G2, G1, G0. destruct (Nat.eqb_spec t s), (Nat.eqb_spec t o), (memb t (names m)) eqn:E; split; intros H; try discriminate; try tauto.
    - apply memb_In in E. inversion H; auto.
    - destruct H as (_ & _ & _ & ->); auto.
    - apply memb_nIn in E. tauto. }
  assert (MF : map fst (map (fun e : nat * (Z * list nat) => (fst e, fst (snd e))) m) = map fst m) by (rewrite map_map; auto).
  assert (D : dict_of (map (fun e : nat * (Z * list nat) => (fst e, fst (snd e))) m) = map (fun e : nat * (Z * list nat) => (fst e, fst (snd e))) m).
  { unfold dict_of. rewrite <- (app_nil_l (map (fun e : nat * (Z * list nat) => (fst e, fst (snd e))) m)) at 2.
    assert (NN : NoDup (map fst ([] ++ map (fun e : nat * (Z * list nat) => (fst e, fst (snd e))) m))) by (simpl; rewrite MF; auto). revert NN.
    generalize (map (fun e : nat * (Z * list nat) => (fst e, fst (snd e))) m) as l. generalize (@nil (nat * Z)) as d. intros d l. revert d.
    induction l as [|(k, v) l IH]; intros d NN; simpl; [rewrite app_nil_r; auto|]. assert (NN' := NN). rewrite map_app in NN'. simpl in NN'. apply NoDup_remove_2 in NN'. rewrite in_app_iff in NN'.
    rewrite dict_set_new by tauto. rewrite IH; rewrite <- app_assoc; auto. }
  split. { rewrite D, MF; auto. }
  split. { intros i d. rewrite D. split.
    - intros H. apply dict_get_key in H. apply in_map_iff in H. destruct H as ((j, (d', ts)) & H & Hi). simpl in H. inversion H; subst. eauto.
    - intros (ts & H). apply dict_get_in; [rewrite MF; auto|]. apply in_map_iff. exists (i, (d, ts)); auto. }
  split; [apply unique_nodup|]. split; [intros i; rewrite unique_in, L0; tauto|].
  split; [apply unique_nodup|]. intros i. rewrite unique_in, G1. destruct (Nat.eqb_spec s o); [congruence|]. rewrite L0. tauto.
Qed.

(** ** Tensor *)
Lemma eqb_dims_eq l : forall k, eqb_dims l k = true <-> l = k.
Proof.
  induction l as [|x l IH]; intros [|y k]; simpl; split; intros H; try discriminate; auto.
  - apply andb_prop in H. destruct H as [H1 H2]. apply Z.eqb_eq in H1. apply IH in H2. congruence.
  - inversion H; subst. rewrite Z.eqb_refl. simpl. apply IH; auto.
Qed.

Section Net.
Variable K : Type.

Lemma dims_ge ds : existsb (fun d => (d <? 1)%Z) ds = false <-> forall d, In d ds -> (1 <= d)%Z.
Proof.
  split.
  - intros H d Hd. destruct (Z.leb_spec 1 d); auto. exfalso. assert (existsb (fun d => (d <? 1)%Z) ds = true); [|congruence]. apply existsb_exists. exists d. split; auto. apply Z.ltb_lt. lia.
  - intros H. destruct (existsb (fun d => (d <? 1)%Z) ds) eqn:E; auto. apply existsb_exists in E. destruct E as (d & Hd & L). apply Z.ltb_lt in L. specialize (H d Hd). lia.
Qed.

Lemma make_tensor_ok inds dims (array : option (nda K)) :
  (make_tensor inds dims array = Err Throw /\ ~ exists ds, dims_given inds dims array ds) \/
  exists ds, make_tensor inds dims array = Ok (mkT inds ds array) /\ dims_given inds dims array ds.
Proof.
  unfold make_tensor.
  assert (G : forall ds, (forall ds', dims_given inds dims array ds' -> ds' = ds) ->
     (dims = DNone -> array <> None) -> (forall d, dims = DOne d -> (1 <= d)%Z /\ forall d', In d' ds -> d' = d) -> (forall l, dims = DMany l -> ds = l) ->
     let r := (if existsb (fun d => (d <? 1)%Z) ds then Err Throw else if negb (length ds =? length inds) then Err Throw else
        match array with Some a => if eqb_dims (map Z.of_nat (shape a)) ds then Ok (mkT inds ds array) else Err Throw | None => Ok (mkT inds ds array) end) in
     (r = Err Throw /\ ~ exists ds, dims_given inds dims array ds) \/ exists ds', r = Ok (mkT inds ds' array) /\ dims_given inds dims array ds').
  { intros ds HU H1 H2 H3 r. subst r. destruct (existsb (fun d => (d <? 1)%Z) ds) eqn:E.
    { left. split; auto. intros (ds' & H). rewrite <- (HU ds' H), (proj2 (dims_ge ds')) in E; [discriminate|apply H]. }
    destruct (Nat.eqb_spec (length ds) (length inds)) as [EL|EL]; cbn [negb].
    2: { left. split; auto. intros (ds' & H). rewrite <- (HU ds' H) in EL. apply EL, H. }
    destruct array as [a|].
    - destruct (eqb_dims (map Z.of_nat (shape a)) ds) eqn:EA.
      + right. exists ds. split; auto. apply eqb_dims_eq in EA. split; auto. split; [apply dims_ge; auto|]. repeat split; auto; try (intros; apply H2; auto). intros b Hb. inversion Hb; subst; auto.
      + left. split; auto. intros (ds' & H). rewrite <- (HU ds' H) in EA. assert (eqb_dims (map Z.of_nat (shape a)) ds' = true); [|congruence]. apply eqb_dims_eq. symmetry. apply H; auto.
    - right. exists ds. split; auto. split; auto. split; [apply dims_ge; auto|]. repeat split; auto; try (intros; apply H2; auto). intros b Hb. discriminate. }
  destruct dims as [|d|l].
  - destruct array as [a|]; cbn [bind].
    + apply (G (map Z.of_nat (shape a))); try discriminate. intros ds' H. apply H; auto.
    + left. split; auto. intros (ds & H). apply H; auto.
  - destruct (Z.ltb_spec d 1) as [L|L]; cbn [bind].
    + left. split; auto. intros (ds & _ & _ & _ & H & _). specialize (H d eq_refl). lia.
    + apply (G (repeat d (length inds))); try discriminate.
      * intros ds' (HL & _ & _ & H & _). rewrite <- HL. destruct (H d eq_refl) as [_ H']. clear - H'. induction ds' as [|x ds' IH]; simpl; auto. rewrite (H' x) by (left; auto). f_equal. apply IH. intros; apply H'; right; auto.
      * intros d' Hd. inversion Hd; subst. split; [lia|]. intros; eapply repeat_spec; eauto.
  - cbn [bind]. apply (G l); try discriminate.
    + intros ds' H. apply H; auto.
    + intros l' Hl. inversion Hl; auto.
Qed.

(** ** TensorNetwork *)
Implicit Types ts : list (M_TnApp.tensor K).
Definition dim_pairs ts : list (nat * Z) := flat_map (fun t => combine (t_inds t) (t_dims t)) ts.

Lemma all_inds_in ts x : In x (all_inds ts) <-> index_of ts x.
Proof. unfold all_inds, index_of. rewrite in_flat_map. tauto. Qed.
Lemma occurrences_times ts x : occurrences ts x = times ts x.
Proof.
  unfold occurrences, times. fold (all_inds ts). induction (all_inds ts) as [|y l IH]; simpl; auto. destruct (Nat.eqb_spec x y), (Nat.eq_dec y x); simpl; congruence.
Qed.
Lemma times_pos ts x : index_of ts x <-> 1 <= times ts x.
Proof. unfold times. rewrite <- all_inds_in. apply count_occ_In. Qed.
Lemma subset_incl l k : subset l k = true <-> forall x, In x l -> In x k.
Proof. unfold subset. rewrite forallb_forall. split; intros H x Hx; specialize (H x Hx); apply memb_In in H || apply memb_In; auto. Qed.

Lemma dim_pairs_keys ts : (forall t, In t ts -> length (t_dims t) = length (t_inds t)) -> map fst (dim_pairs ts) = all_inds ts.
Proof.
  unfold dim_pairs, all_inds. induction ts as [|t ts IH]; simpl; auto. intros H. rewrite map_app, IH by auto. f_equal.
  generalize (H t (or_introl eq_refl)). generalize (t_dims t). induction (t_inds t) as [|x l IH']; intros [|d ds] L; simpl in *; try discriminate; auto. f_equal. auto.
Qed.
Lemma combine_map (V : Type) (f : nat -> V) l k v : In (k, v) (combine l (map f l)) -> v = f k.
Proof. induction l as [|x l IH]; simpl; [tauto|]. intros [H|H]; [inversion H; auto|auto]. Qed.

Lemma dims_agreed ts : (forall t, In t ts -> length (t_dims t) = length (t_inds t)) ->
  forallb (same_dims (dict_of (dim_pairs ts))) ts = true <-> exists dim, agreed ts dim.
Proof.
  intros HL. rewrite forallb_forall. split.
  - intros H. exists (fun x => match dict_get (dict_of (dim_pairs ts)) x with Ok d => d | Err _ => 0%Z end). intros t Ht. specialize (H t Ht). unfold same_dims in H.
    destruct (mapM (dict_get (dict_of (dim_pairs ts))) (t_inds t)) as [ds|] eqn:E; [|discriminate]. apply eqb_dims_eq in H. rewrite H. clear H. revert ds E. induction (t_inds t) as [|x l IH]; simpl; intros ds E; [inversion E; auto|].
    destruct (dict_get (dict_of (dim_pairs ts)) x) as [d|]; cbn [bind] in E; [|discriminate]. destruct (mapM (dict_get (dict_of (dim_pairs ts))) l) as [ds'|]; cbn [bind] in E; [|discriminate]. inversion E; subst. f_equal. auto.
  - intros (dim & H) t Ht. unfold same_dims.
    assert (G : forall x, In x (t_inds t) -> dict_get (dict_of (dim_pairs ts)) x = Ok (dim x)).
    { intros x Hx. apply dict_of_get; [|rewrite dim_pairs_keys; auto; apply all_inds_in; exists t; auto].
      intros k v Hk. unfold dim_pairs in Hk. apply in_flat_map in Hk. destruct Hk as (u & Hu & Hk). rewrite (H u Hu) in Hk. apply combine_map in Hk; auto. }
    assert (E : mapM (dict_get (dict_of (dim_pairs ts))) (t_inds t) = Ok (map dim (t_inds t))).
    { revert G. induction (t_inds t) as [|x l IH]; intros G; simpl; auto. rewrite G by (left; auto). cbn [bind]. rewrite IH by (intros; apply G; right; auto). auto. }
    rewrite E. apply eqb_dims_eq. apply H; auto.
Qed.
Lemma dims_value ts dim : (forall t, In t ts -> length (t_dims t) = length (t_inds t)) -> agreed ts dim ->
  forall x d, dict_get (dict_of (dim_pairs ts)) x = Ok d <-> index_of ts x /\ d = dim x.
Proof.
  intros HL H x d. assert (HP : forall k v, In (k, v) (dim_pairs ts) -> v = dim k).
  { intros k v Hk. unfold dim_pairs in Hk. apply in_flat_map in Hk. destruct Hk as (u & Hu & Hk). rewrite (H u Hu) in Hk. apply combine_map in Hk; auto. }
  split.
  - intros E. assert (I : In x (map fst (dim_pairs ts))). { apply dict_of_keys. apply dict_get_key in E. apply in_map_iff. exists (x, d); auto. }
    rewrite (dict_of_get HP I) in E. inversion E; subst. split; auto. rewrite dim_pairs_keys in I; auto. apply all_inds_in; auto.
  - intros (I & ->). apply dict_of_get; auto. rewrite dim_pairs_keys; auto. apply all_inds_in; auto.
Qed.

Lemma make_network_ok ts out sparse : (forall t, In t ts -> length (t_dims t) = length (t_inds t)) ->
  (make_network ts out sparse = Err Throw /\ ~ valid_network ts out sparse) \/
  exists n, make_network ts out sparse = Ok n /\ valid_network ts out sparse /\ n_list n = ts /\
    NoDup (n_inds n) /\ (forall x, In x (n_inds n) <-> index_of ts x) /\
    (forall dim, agreed ts dim -> forall x d, dict_get (n_dims n) x = Ok d <-> index_of ts x /\ d = dim x) /\
    NoDup (n_out n) /\ (forall x, In x (n_out n) <-> match out with Some o => In x o | None => times ts x = 1 end) /\
    NoDup (n_sparse n) /\ (forall x, In x (n_sparse n) <-> exists s, sparse = Some s /\ In x s).
Proof.
  intros HL. unfold make_network. fold (dim_pairs ts).
  destruct (forallb (same_dims (dict_of (dim_pairs ts))) ts) eqn:ED; cbn [negb].
  2: { left. split; auto. intros (H & _). apply (dims_agreed HL) in H. congruence. }
  apply (dims_agreed HL) in ED.
  assert (II : forall x, In x (unique (all_inds ts)) <-> index_of ts x) by (intros; rewrite unique_in; apply all_inds_in).
  assert (G : forall o, NoDup o -> (forall x, In x o <-> match out with Some o => In x o | None => times ts x = 1 end) -> (out = None -> forall x, times ts x <= 2) ->
    let r := (if negb (subset o (unique (all_inds ts))) then Err Throw else if negb (subset (unique match sparse with Some s => s | None => [] end) (unique (all_inds ts))) then Err Throw
              else Ok (mkN ts (unique (all_inds ts)) (dict_of (dim_pairs ts)) o (unique match sparse with Some s => s | None => [] end))) in
    (r = Err Throw /\ ~ valid_network ts out sparse) \/
    exists n, r = Ok n /\ valid_network ts out sparse /\ n_list n = ts /\
    NoDup (n_inds n) /\ (forall x, In x (n_inds n) <-> index_of ts x) /\
    (forall dim, agreed ts dim -> forall x d, dict_get (n_dims n) x = Ok d <-> index_of ts x /\ d = dim x) /\
    NoDup (n_out n) /\ (forall x, In x (n_out n) <-> match out with Some o => In x o | None => times ts x = 1 end) /\
    NoDup (n_sparse n) /\ (forall x, In x (n_sparse n) <-> exists s, sparse = Some s /\ In x s)).
  { intros o NO HO H2 r. subst r.
    destruct (subset o (unique (all_inds ts))) eqn:E1; cbn [negb].
    2: { left. split; auto. intros (_ & _ & H & _). assert (subset o (unique (all_inds ts)) = true); [|congruence]. apply subset_incl. intros x Hx. apply II.
      apply HO in Hx. destruct out as [o'|]; [eapply H; eauto|]. apply times_pos. lia. }
    destruct (subset (unique match sparse with Some s => s | None => [] end) (unique (all_inds ts))) eqn:E2; cbn [negb].
    2: { left. split; auto. intros (_ & _ & _ & H). assert (subset (unique match sparse with Some s => s | None => [] end) (unique (all_inds ts)) = true); [|congruence]. apply subset_incl. intros x Hx. apply II.
      rewrite unique_in in Hx. destruct sparse as [s|]; [eapply H; eauto|destruct Hx]. }
    pose proof (proj1 (subset_incl _ _) E1) as I1. pose proof (proj1 (subset_incl _ _) E2) as I2.
    right. eexists. split; [reflexivity|]. cbn [n_list n_inds n_dims n_out n_sparse].
    split. { split; auto. split; auto. split.
      - intros o' x Ho Hx. apply II, I1, HO. rewrite Ho. auto.
      - intros s x Hs Hx. apply II, I2. rewrite unique_in, Hs. auto. }
    split; auto. split; [apply unique_nodup|]. split; auto. split; [intros dim HD; apply dims_value; auto|]. split; auto. split; auto. split; [apply unique_nodup|].
    intros x. rewrite unique_in. destruct sparse as [s|]; split; intros H; [eauto|destruct H as (s' & Hs & H); inversion Hs; subst; auto|destruct H|destruct H as (s' & Hs & _); discriminate]. }
  destruct out as [o|]; cbn [bind].
  - apply G; [apply unique_nodup|intros; apply unique_in|discriminate].
  - destruct (existsb (fun x => 1 <? occurrences ts x - 1) (unique (all_inds ts))) eqn:EH; cbn [bind].
    + left. split; auto. intros (_ & H & _). specialize (H eq_refl). apply existsb_exists in EH. destruct EH as (x & _ & EH). apply Nat.ltb_lt in EH. rewrite occurrences_times in EH. specialize (H x). lia.
    + apply G.
      * apply NoDup_filter, unique_nodup.
      * intros x. rewrite filter_In, II, occurrences_times, Nat.eqb_eq, times_pos. lia.
      * intros _ x. destruct (le_lt_dec (times ts x) 2); auto. exfalso. assert (existsb (fun x => 1 <? occurrences ts x - 1) (unique (all_inds ts)) = true); [|congruence].
        apply existsb_exists. exists x. split; [apply II, times_pos; lia|]. apply Nat.ltb_lt. rewrite occurrences_times. lia.
Qed.
End Net.
