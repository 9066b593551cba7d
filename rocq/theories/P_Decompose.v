(** decompose_hyper_inds for one tensor. *)
From Coq Require Import List Arith Lia Permutation Bool.
Import ListNotations.
From Verif Require Import M_Base M_Path M_PyTree M_OSet M_Tensor M_Decompose S_Random S_Tensor S_Decompose.
From Verif Require Import P_Base P_Path P_Split P_PathMain P_PyBuild P_PyTens P_OSet P_Sum P_Array P_Fuse P_Symbols.
Set Implicit Arguments.
Unset Strict Implicit.

(** ** The axes *)
Lemma pad_in xs r k : (forall x, In x xs -> x < r) -> In k (pad xs r) <-> k < r.
Proof.
  intros H. unfold pad. rewrite in_app_iff, filter_In, in_seq, negb_true_iff, memb_nIn. split.
  - intros [E|(L & _)]; [auto|lia].
  - intros L. destruct (in_dec Nat.eq_dec k xs); [auto|]. right. split; [lia|auto].
Qed.
Lemma pad_nodup xs r : NoDup xs -> NoDup (pad xs r).
Proof.
  intros H. unfold pad. apply NoDup_app. split; auto. split; [apply NoDup_filter, seq_NoDup|].
  intros x Hx Hf. apply filter_In in Hf. destruct Hf as [_ Hf]. apply negb_true_iff, memb_nIn in Hf. auto.
Qed.
Lemma pad_perm i j r : i < j -> j < r -> Permutation (pad [i; j] r) (seq 0 r).
Proof.
  intros L1 L2. apply NoDup_Permutation; [apply pad_nodup|apply seq_NoDup|].
  - constructor; [|constructor; [intros []|constructor]]. intros [E|[]]. lia.
  - intros k. rewrite pad_in, in_seq; [lia|]. intros x [E|[E|[]]]; lia.
Qed.
Lemma map_nth_seq (A : Type) (l : list A) d : map (fun k => nth k l d) (seq 0 (length l)) = l.
Proof.
  apply nth_error_ext. intros i. rewrite nth_error_map. destruct (Nat.lt_ge_cases i (length l)) as [L|L].
  - rewrite (nth_error_nth' _ 0) by (rewrite seq_length; auto). rewrite seq_nth by auto. simpl. symmetry. apply nth_error_nth'. auto.
  - rewrite (proj2 (nth_error_None _ _)) by (rewrite seq_length; auto). simpl. symmetry. apply nth_error_None. auto.
Qed.
Lemma pairs_in r i j : In (i, j) (pairs r) <-> i < j /\ j < r.
Proof.
  unfold pairs. rewrite in_flat_map. split.
  - intros (k & Hk & H). apply in_map_iff in H. destruct H as (l & E & Hl). inversion E; subst. apply in_seq in Hk, Hl. lia.
  - intros [L1 L2]. exists i. split; [apply in_seq; lia|]. apply in_map. apply in_seq. lia.
Qed.

(** ** Positions and assignments *)
Lemma indices_valid sh : forall ix, In ix (indices sh) -> valid sh ix.
Proof.
  induction sh as [|d sh IH]; intros ix H; simpl in H.
  - destruct H as [<-|[]]. constructor.
  - apply in_flat_map in H. destruct H as (i & Hi & H). apply in_map_iff in H. destruct H as (ix' & <- & H). apply in_seq in Hi. constructor; [lia|apply IH; auto].
Qed.
Lemma valid_indices sh ix : valid sh ix -> In ix (indices sh).
Proof. intros H. eapply nth_error_In. apply (indices_nth H). Qed.
Lemma valid_assign dim xs : NoDup xs -> forall ix, valid (map dim xs) ix -> exists v, in_range dim xs v /\ map v xs = ix.
Proof.
  induction xs as [|x xs IH]; intros HN ix H; inversion H as [|i d ix' sh L F]; subst.
  - exists (fun _ => 0). split; [intros x []|auto].
  - inversion HN as [|? ? N1 N2]; subst. destruct (IH N2 ix' F) as (v & V1 & V2). exists (assign v x i). split.
    + intros y Hy. unfold assign. destruct (Nat.eqb_spec y x); [subst; auto|]. apply V1. destruct Hy; congruence.
    + simpl. rewrite assign_same. f_equal. rewrite <- V2. apply map_ext_in. intros y Hy. apply assign_other. congruence.
Qed.

(** ** The dict of merged indices *)
Lemma agrees_mw h v : NoDup (map fst h) -> agrees h v <-> forall y x, In x (merged_with h y) -> v x = v y.
Proof.
  intros HN. unfold agrees, merged_with. split.
  - intros H y x Hx. destruct (dict_get h y) as [s|] eqn:E; [|destruct Hx]. apply dict_get_key in E. eauto.
  - intros H y s x Hy Hx. apply H. rewrite (dict_get_in HN Hy). auto.
Qed.
Lemma dict_pop_none (V : Type) (d : list (nat * V)) k : ~ In k (map fst d) -> dict_pop d k = Err Throw.
Proof.
  induction d as [|(k', v) d IH]; simpl; auto. intros H. destruct (Nat.eqb_spec k k'); [subst; tauto|]. rewrite IH by tauto. auto.
Qed.
Lemma dict_get_absent (V : Type) (d : list (nat * V)) k : ~ In k (map fst d) -> dict_get d k = Err Throw.
Proof. induction d as [|(k', v) d IH]; simpl; auto. intros H. destruct (Nat.eqb_spec k k'); [subst; tauto|]. auto. Qed.
Lemma dict_set_nodup (V : Type) (d : list (nat * V)) k v : NoDup (map fst d) -> NoDup (map fst (dict_set d k v)).
Proof.
  intros H. destruct (in_dec Nat.eq_dec k (map fst d)) as [I|I].
  - rewrite dict_set_keys; auto.
  - rewrite dict_set_new by auto. rewrite map_app. apply NoDup_app. split; auto. split; [repeat constructor; intros []|]. intros x Hx [E|[]]. simpl in E. congruence.
Qed.
Lemma mw_discard h x : NoDup (map fst h) -> NoDup (map fst (discard h x)) /\ forall y, merged_with (discard h x) y = if y =? x then [] else merged_with h y.
Proof.
  intros HN. unfold discard, merged_with. destruct (in_dec Nat.eq_dec x (map fst h)) as [I|I].
  - apply in_map_iff in I. destruct I as ((k, s) & E & I). simpl in E. subst. pose proof (dict_get_in HN I) as G.
    destruct (dict_pop_ok HN G) as (d' & -> & N' & G' & _). split; auto. intros y. rewrite G'. destruct (y =? x); auto.
  - rewrite dict_pop_none by auto. split; auto. intros y. destruct (Nat.eqb_spec y x); auto. subst. rewrite dict_get_absent; auto.
Qed.
Lemma agrees_step h x0 x1 : NoDup (map fst h) -> x0 <> x1 ->
  let h' := discard (dict_set h x1 (unique (merged_with h x0 ++ merged_with h x1 ++ [x0]))) x0 in
  NoDup (map fst h') /\ (forall v, agrees h' v <-> agrees h v /\ v x0 = v x1) /\
  (forall y x, In x (merged_with h' y) -> (In x (merged_with h x0) \/ In x (merged_with h y) \/ x = x0) /\ (In x (merged_with h y) \/ y = x1)).
Proof.
  intros HN Hne h'. set (U := unique _) in h'. pose proof (dict_set_nodup x1 U HN) as N1. destruct (mw_discard x0 N1) as [N2 M]. fold h' in N2, M.
  assert (M' : forall y, merged_with h' y = if y =? x0 then [] else if y =? x1 then U else merged_with h y).
  { intros y. rewrite M. destruct (y =? x0); auto. unfold merged_with. rewrite dict_get_set. destruct (y =? x1); auto. }
  assert (UI : forall x, In x U <-> In x (merged_with h x0) \/ In x (merged_with h x1) \/ x = x0).
  { intros x. unfold U. rewrite unique_in, !in_app_iff. simpl. intuition. }
  split; auto. split.
  - intros v. rewrite (agrees_mw v N2), (agrees_mw v HN). split.
    + intros H. assert (E : v x0 = v x1). { apply H. rewrite M'. destruct (Nat.eqb_spec x1 x0); [congruence|]. rewrite Nat.eqb_refl. apply UI. auto. }
      assert (HU : forall x, In x U -> v x = v x1). { intros x Hx. apply H. rewrite M'. destruct (Nat.eqb_spec x1 x0); [congruence|]. rewrite Nat.eqb_refl. auto. }
      split; auto. intros y x Hx. destruct (Nat.eq_dec y x0) as [->|D0]; [rewrite E; apply HU, UI; auto|].
      destruct (Nat.eq_dec y x1) as [->|D1]; [apply HU, UI; auto|]. apply H. rewrite M'. destruct (Nat.eqb_spec y x0), (Nat.eqb_spec y x1); try congruence; auto.
    + intros [H E] y x Hx. rewrite M' in Hx. destruct (Nat.eqb_spec y x0); [destruct Hx|]. destruct (Nat.eqb_spec y x1); auto. subst. apply UI in Hx.
      destruct Hx as [Hx|[Hx|Hx]]; [rewrite (H x0 x); auto|auto|congruence].
  - intros y x Hx. rewrite M' in Hx. destruct (Nat.eqb_spec y x0); [destruct Hx|]. destruct (Nat.eqb_spec y x1); [|auto]. subst. apply UI in Hx. tauto.
Qed.

Section Tensor.
Variable K : Type.
Variable A : alg K.
Variable eqb : K -> K -> bool.
Hypothesis EQ : forall a b, eqb a b = true <-> a = b.
Variable dim : nat -> nat.
Notation tens := (tensor A dim).

Lemma transpose_pad a xs f i j : tens a xs f -> NoDup xs -> i < j -> j < length xs ->
  exists b x y rest, map (fun k => nth k xs 0) (pad [i; j] (length xs)) = x :: y :: rest /\ Permutation (x :: y :: rest) xs /\
    nth_error xs i = Some x /\ nth_error xs j = Some y /\
    transpose A a (pad [i; j] (length xs)) = Ok b /\ tens b (x :: y :: rest) f.
Proof.
  intros T HN L1 L2. set (ax := pad [i; j] (length xs)). set (ys := map (fun k => nth k xs 0) ax).
  assert (P : Permutation ys xs). { unfold ys. apply (@Permutation_trans _ _ (map (fun k => nth k xs 0) (seq 0 (length xs)))); [apply Permutation_map, pad_perm; auto|]. rewrite map_nth_seq. auto. }
  assert (E : map (position xs) ys = ax).
  { unfold ys. rewrite map_map. transitivity (map id ax); [|apply map_id]. apply map_ext_in. intros k Hk.
    apply pos_nth; auto. apply nth_error_nth'. apply pad_in in Hk; auto. intros x [<-|[<-|[]]]; lia. }
  destruct (transpose_ok T HN P) as (b & B1 & B2). rewrite E in B1. unfold ys, ax, pad in *. cbn [app map] in *.
  do 4 eexists. split; [reflexivity|]. split; [exact P|]. split; [apply nth_error_nth'; lia|]. split; [apply nth_error_nth'; lia|]. split; [exact B1|exact B2].
Qed.

Lemma is_diagonal_ok b x y rest f : tens b (x :: y :: rest) f -> NoDup (x :: y :: rest) ->
  exists d, is_diagonal A eqb b = Ok d /\ (d = true <-> dim x = dim y /\ forall v, in_range dim (x :: y :: rest) v -> v x <> v y -> f v = zero A).
Proof.
  intros (W & S & E) HN. unfold is_diagonal. rewrite S. cbn [map]. eexists. split; [reflexivity|]. rewrite andb_true_iff, Nat.eqb_eq, forallb_forall. split.
  - intros [D F]. split; auto. intros v V Hv. rewrite <- (E v V). specialize (F (map v (x :: y :: rest))). cbn [map nth] in F.
    assert (I : In (v x :: v y :: map v rest) (indices (dim x :: dim y :: map dim rest))) by (apply valid_indices; apply (valid_dims V)).
    specialize (F I). apply orb_true_iff in F. destruct F as [F|F]; [apply Nat.eqb_eq in F; congruence|]. apply EQ in F. exact F.
  - intros [D F]. split; auto. intros ix Hix. apply indices_valid in Hix. destruct (@valid_assign dim (x :: y :: rest) HN ix Hix) as (v & V & <-).
    cbn [map nth]. destruct (Nat.eqb_spec (v x) (v y)) as [|N]; auto. apply orb_true_iff. right. apply EQ. rewrite <- (F v V N), <- (E v V). reflexivity.
Qed.

Lemma first_diagonal_ok a xs f : tens a xs f -> NoDup xs -> forall l, (forall i j, In (i, j) l -> i < j /\ j < length xs) ->
  exists o, first_diagonal A eqb a l = Ok o /\
    match o with
    | Some (i, j) => In (i, j) l /\ forall x y, nth_error xs i = Some x -> nth_error xs j = Some y -> dim x = dim y /\ forall v, in_range dim xs v -> v x <> v y -> f v = zero A
    | None => forall i j x y, In (i, j) l -> nth_error xs i = Some x -> nth_error xs j = Some y -> dim x = dim y -> ~ forall v, in_range dim xs v -> v x <> v y -> f v = zero A
    end.
Proof.
  intros T HN. pose proof T as (W & S & E). induction l as [|(i, j) l IH]; intros H; simpl; [eexists; split; [reflexivity|]; intros ? ? ? ? []|].
  destruct (H i j (or_introl eq_refl)) as [L1 L2]. rewrite S, map_length. destruct (transpose_pad T HN L1 L2) as (b & x & y & rest & _ & P & Nx & Ny & -> & Tb). cbn [bind].
  assert (HN' : NoDup (x :: y :: rest)) by (apply (Permutation_NoDup (Permutation_sym P)); auto).
  assert (R : forall v, in_range dim xs v <-> in_range dim (x :: y :: rest) v).
  { intros v. split; intros R z Hz; apply R; [eapply Permutation_in; eauto|eapply Permutation_in; [symmetry|]; eauto]. }
  destruct (is_diagonal_ok Tb HN') as (d & -> & Hd). cbn [bind]. destruct d.
  - eexists. split; [reflexivity|]. split; auto. intros x' y' Hx Hy. assert (x' = x) by congruence. assert (y' = y) by congruence. subst.
    destruct (proj1 Hd eq_refl) as [D F]. split; auto. intros v V. apply F. apply R. auto.
  - destruct IH as (o & E1 & Ho); [intros; apply H; right; auto|]. exists o. split; [exact E1|]. destruct o as [(i', j')|]; [destruct Ho; auto|].
    intros i' j' x' y' [I|I] Hx Hy D F; [|eapply Ho; eauto]. inversion I; subst. assert (x' = x) by congruence. assert (y' = y) by congruence. subst.
    assert (X : false = true); [|discriminate]. apply Hd. split; auto. intros v V. apply F. apply R. auto.
Qed.

Lemma diagonal_ok b x y rest f : tens b (x :: y :: rest) f -> NoDup (x :: y :: rest) -> dim x = dim y ->
  (diagonal A b = Err Throw /\ dim x = 0) \/ exists c, diagonal A b = Ok c /\ tens c (y :: rest) (fun v => f (assign v x (v y))).
Proof.
  intros (W & S & E) HN D. unfold diagonal. rewrite S. cbn [map]. destruct (dim x) as [|n] eqn:Dx; auto. right. eexists. split; [reflexivity|].
  split; [apply well_map|]. split; [cbn [shape map]; congruence|]. intros v V. unfold entry_at.
  rewrite entry_map by (pose proof (valid_dims V) as Q; cbn [map] in Q; rewrite <- D in Q; exact Q). cbn [map nth]. set (w := assign v x (v y)).
  assert (Hxy : y <> x) by (inversion HN as [|? ? N1 N2]; subst; intros ->; apply N1; left; auto).
  assert (V' : in_range dim (x :: y :: rest) w).
  { intros z Hz. unfold w, assign. destruct (Nat.eqb_spec z x); [subst; rewrite Dx, D; apply V; left; auto|]. apply V. destruct Hz; [congruence|auto]. }
  rewrite <- (E w V'). unfold entry_at. f_equal. cbn [map]. unfold w at 1 2. rewrite assign_same, assign_other by auto. f_equal. f_equal.
  apply map_ext_in. intros z Hz. symmetry. apply assign_other. intros ->. inversion HN as [|? ? N1 N2]; subst. apply N1. right. auto.
Qed.

Lemma all_same_ok c ys f e : tens c ys f -> all_same eqb c = Some e -> forall v, in_range dim ys v -> f v = e.
Proof.
  intros (W & S & E) H v V. rewrite <- (E v V). unfold all_same in H. destruct (data c) as [|k l] eqn:Dc; [discriminate|].
  destruct (forallb (fun e => eqb e k) (k :: l)) eqn:F; [|discriminate]. inversion H; subst k. rewrite forallb_forall in F. apply EQ, F. rewrite <- Dc.
  unfold entry_at, entry. apply nth_In. rewrite W, S. apply ravel_lt. apply valid_dims. auto.
Qed.

Definition inside (X : list nat) (h : list (nat * list nat)) : Prop := forall y x, In x (merged_with h y) -> In x X /\ In y X.
Lemma decompose_aux_ok X : forall fuel a xs h f, length xs < fuel -> tens a xs f -> NoDup xs -> incl xs X -> NoDup (map fst h) -> inside X h ->
  (decompose_aux A eqb fuel a xs h = Err Throw /\ exists x, In x xs /\ dim x = 0) \/
  exists b ys h', decompose_aux A eqb fuel a xs h = Ok (b, ys, h') /\ well_shaped b /\ shape b = map dim ys /\ NoDup ys /\ incl ys xs /\ NoDup (map fst h') /\ inside X h' /\
    (forall v, agrees h' v -> agrees h v) /\ (agrees h dim -> agrees h' dim) /\
    (forall v, in_range dim xs v -> agrees h' v -> f v = entry_at A b ys v) /\
    (forall v, in_range dim xs v -> agrees h v -> ~ agrees h' v -> f v = zero A) /\
    ~ has_diagonal A dim b ys.
Proof.
  induction fuel as [|fuel IH]; intros a xs h f L T HN HX HK HI; [lia|]. cbn [decompose_aux]. pose proof T as (W & S & E).
  assert (LS : length (shape a) = length xs) by (rewrite S; apply map_length). rewrite !LS, Nat.eqb_refl. cbn [negb]. rewrite (unique_id HN), Nat.eqb_refl. cbn [negb].
  destruct (first_diagonal_ok T HN (l := pairs (length xs))) as (o & -> & Ho); [intros i j; apply pairs_in|]. cbn [bind]. destruct o as [(i, j)|].
  - destruct Ho as [Hij Ho]. apply pairs_in in Hij. destruct Hij as [L1 L2].
    destruct (transpose_pad T HN L1 L2) as (b & x & y & rest & -> & P & Nx & Ny & -> & Tb). cbn [bind nth tl]. destruct (Ho x y Nx Ny) as [D F].
    assert (HN' : NoDup (x :: y :: rest)) by (apply (Permutation_NoDup (Permutation_sym P)); auto).
    assert (Hxy : x <> y) by (inversion HN' as [|? ? N1 N2]; subst; intros ->; apply N1; left; auto).
    assert (SUB : forall z, In z (x :: y :: rest) <-> In z xs) by (intros z; split; intros Hz; [eapply Permutation_in; eauto|eapply Permutation_in; [symmetry|]; eauto]).
    destruct (diagonal_ok Tb HN' D) as [[-> D0]|(c & -> & Tc)]; [left; split; auto; exists x; split; auto; apply SUB; left; auto|]. cbn [bind].
    destruct (agrees_step HK Hxy) as (K' & G & M). set (h' := discard _ x) in *.
    assert (HI' : inside X h').
    { intros z u Hu. destruct (M z u Hu) as [M1 M2]. split; [destruct M1 as [M1|[M1| ->]]; [apply (HI x u M1)|apply (HI z u M1)|apply HX, SUB; left; auto]|].
      destruct M2 as [M2| ->]; [apply (HI z u M2)|apply HX, SUB; right; left; auto]. }
    assert (AD : agrees h dim -> agrees h' dim) by (intros Hd; apply G; auto).
    assert (EQF : forall v, v x = v y -> in_range dim xs v -> f v = f (assign v x (v y))).
    { intros v Ev V. destruct Tb as (_ & _ & Eb). assert (V1 : in_range dim (x :: y :: rest) v) by (intros z Hz; apply V, SUB, Hz).
      assert (V2 : in_range dim (x :: y :: rest) (assign v x (v y))). { intros z Hz. unfold assign. destruct (Nat.eqb_spec z x); [subst; rewrite <- Ev|]; apply V1; auto. }
      rewrite <- (Eb _ V1), <- (Eb _ V2). unfold entry_at. f_equal. apply map_ext. intros z. unfold assign. destruct (Nat.eqb_spec z x); congruence. }
    assert (R : forall v, in_range dim xs v -> in_range dim (y :: rest) v) by (intros v V z Hz; apply V, SUB; right; auto).
    destruct (all_same eqb c) as [e|] eqn:AS.
    + right. exists (mkA [] [e]), [], h'. split; [reflexivity|]. split; [reflexivity|]. split; [reflexivity|]. split; [constructor|]. split; [intros z []|]. split; auto. split; auto.
      split; [intros v Hv; apply G in Hv; tauto|]. split; auto. split; [|split].
      * intros v V Hv. apply G in Hv. rewrite EQF by tauto. apply (all_same_ok Tc AS (v := v)). auto.
      * intros v V Hv Hn. apply F; auto. intros Ev. apply Hn, G. auto.
      * intros (i' & j' & x' & y' & _ & H & _). destruct i'; discriminate.
    + assert (HN2 : NoDup (y :: rest)) by (inversion HN'; auto). assert (HX2 : incl (y :: rest) X) by (intros z Hz; apply HX, SUB; right; auto).
      assert (L' : length (y :: rest) < fuel) by (pose proof (Permutation_length P) as PL; simpl in *; lia).
      destruct (IH c (y :: rest) h' _ L' Tc HN2 HX2 K' HI') as [[IE (z & Hz & Dz)]|(b' & ys & h'' & IE & W' & S' & N' & I' & K'' & HI'' & A1 & A2 & A3 & A4 & A5)].
      * left. split; auto. exists z. split; auto. apply SUB. right. auto.
      * right. exists b', ys, h''. split; [exact IE|]. split; auto. split; auto. split; auto. split; [intros z Hz; apply SUB; right; apply I'; auto|]. split; auto. split; auto.
        split; [intros v Hv; apply A1, G in Hv; tauto|]. split; [auto|]. split; [|split; auto].
        -- intros v V Hv. pose proof (A1 v Hv) as Hv'. apply G in Hv'. rewrite EQF by tauto. apply A3; auto.
        -- intros v V Hv Hn. destruct (Nat.eq_dec (v x) (v y)) as [Ev|Ev]; [|apply F; auto]. rewrite EQF by auto. apply A4; auto. apply G. auto.
  - right. exists a, xs, h. split; [reflexivity|]. split; auto. split; auto. split; auto. split; [intros z Hz; exact Hz|]. split; auto. split; auto. split; auto. split; auto.
    split; [intros v V _; symmetry; apply E; auto|]. split; [intros v _ Hv Hn; tauto|].
    intros (i & j & x & y & L1 & Hx & Hy & D & H). apply (Ho i j x y); auto; [apply pairs_in; split; auto; apply nth_error_Some; congruence|].
    intros v V Hv. rewrite <- (E v V). auto.
Qed.

Lemma decompose_ok a xs : NoDup xs -> well_shaped a -> shape a = map dim xs ->
  (decompose A eqb a xs = Err Throw /\ exists x, In x xs /\ dim x = 0) \/
  exists b ys h, decompose A eqb a xs = Ok (b, ys, h) /\ well_shaped b /\ shape b = map dim ys /\ NoDup ys /\ incl ys xs /\ NoDup (map fst h) /\
    (forall y s x, In (y, s) h -> In x s -> In x xs /\ In y xs /\ dim x = dim y) /\
    (forall v, in_range dim xs v -> agrees h v -> entry_at A a xs v = entry_at A b ys v) /\
    (forall v, in_range dim xs v -> ~ agrees h v -> entry_at A a xs v = zero A) /\
    ~ has_diagonal A dim b ys.
Proof.
  intros HN W S. assert (T : tens a xs (entry_at A a xs)) by (split; auto).
  destruct (@decompose_aux_ok xs (Datatypes.S (length xs)) a xs [] _ (Nat.lt_succ_diag_r _) T HN (incl_refl _)) as [H|(b & ys & h & H)]; [constructor|intros y x []|left; exact H|].
  right. exists b, ys, h. destruct H as (H & W' & S' & N' & I' & K' & HI & A1 & A2 & A3 & A4 & A5). assert (A0 : forall v, agrees [] v) by (intros v y s x []).
  repeat (split; [solve [auto]|]). split; [|auto].
  intros y s x Hy Hx. assert (M : In x (merged_with h y)) by (unfold merged_with; rewrite (dict_get_in K' Hy); auto). destruct (HI y x M). split; auto. split; auto. apply (A2 (A0 dim) y s x); auto.
Qed.
Lemma decompose_raises a xs : length (shape a) <> length xs \/ ~ NoDup xs -> decompose A eqb a xs = Err Throw.
Proof.
  intros H. unfold decompose. cbn [decompose_aux]. destruct (Nat.eqb_spec (length (shape a)) (length xs)); cbn [negb]; auto.
  destruct (Nat.eqb_spec (length (unique xs)) (length xs)) as [E|]; cbn [negb]; auto. exfalso. destruct H as [H|H]; [auto|]. apply H.
  apply (NoDup_incl_NoDup (unique_nodup xs)); [lia|]. intros x. rewrite unique_in. auto.
Qed.
End Tensor.
