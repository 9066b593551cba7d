(** get_connected_components. *)
From Coq Require Import List Arith Lia Permutation Bool Sorted.
Import ListNotations.
From Verif Require Import P_Base P_Path P_Split P_PyBuild P_OSet P_TnApp P_Amplitude P_Fuse P_RandColor P_RandComp.
From Verif Require Import M_Base M_Path M_PyTree M_Circuit M_Testing S_Random S_Testing.
Set Implicit Arguments.
Unset Strict Implicit.

(** ** map_reduce *)
Lemma dict_set_map (V : Type) (F : nat -> V) v k0 : forall U, NoDup U -> In k0 U ->
  dict_set (map (fun k => (k, F k)) U) k0 v = map (fun k => (k, if k =? k0 then v else F k)) U.
Proof.
  induction U as [|u U IH]; intros N H; [destruct H|]. inversion N as [|? ? N1 N2]; subst. simpl. destruct (Nat.eqb_spec k0 u) as [->|Ne].
  - rewrite Nat.eqb_refl. f_equal. apply map_ext_in. intros k Hk. destruct (Nat.eqb_spec k u); [subst; tauto|auto].
  - destruct H as [H|H]; [congruence|]. rewrite IH by auto. destruct (Nat.eqb_spec u k0); [congruence|auto].
Qed.
Lemma dict_get_map (V : Type) (F : nat -> V) k : forall U, In k U -> dict_get (map (fun k => (k, F k)) U) k = Ok (F k).
Proof. induction U as [|u U IH]; intros H; [destruct H|]. simpl. destruct (Nat.eqb_spec k u) as [->|Ne]; auto. apply IH. destruct H; [congruence|auto]. Qed.

Definition grouped (l : list (nat * nat)) (k : nat) : list nat := map snd (filter (fun e => fst e =? k) l).
Lemma group_by_eq l : group_by l = map (fun k => (k, grouped l k)) (unique (map fst l)).
Proof.
  unfold group_by. induction l as [|(k0, v0) l IH] using rev_ind; auto.
  rewrite fold_left_app. simpl fold_left. rewrite IH. clear IH. rewrite map_app. simpl map. rewrite unique_snoc.
  assert (G : forall k, grouped (l ++ [(k0, v0)]) k = if k =? k0 then grouped l k ++ [v0] else grouped l k).
  { intros k. unfold grouped. rewrite filter_app, map_app. simpl. rewrite (Nat.eqb_sym k0 k). destruct (k =? k0); simpl; auto. apply app_nil_r. }
  destruct (memb k0 (map fst l)) eqn:E.
  - apply memb_In in E. assert (E' : In k0 (unique (map fst l))) by (apply unique_in; auto).
    rewrite (dict_get_map (grouped l) E'), dict_set_map; [|apply unique_nodup|auto]. apply map_ext_in. intros k _. rewrite G.
    destruct (Nat.eqb_spec k k0) as [->|]; auto.
  - apply memb_nIn in E. assert (E' : ~ In k0 (unique (map fst l))) by (rewrite unique_in; auto).
    assert (Ef : map fst (map (fun k => (k, grouped l k)) (unique (map fst l))) = unique (map fst l)) by (rewrite map_map; apply map_id).
    destruct (@dict_get_none _ (map (fun k => (k, grouped l k)) (unique (map fst l))) k0) as (e & ->); [rewrite Ef; auto|].
    rewrite dict_set_new by (rewrite Ef; auto). rewrite map_app. simpl. f_equal.
    + apply map_ext_in. intros k Hk. rewrite G. destruct (Nat.eqb_spec k k0); [subst; tauto|auto].
    + rewrite G, Nat.eqb_refl. unfold grouped. replace (filter (fun e0 => fst e0 =? k0) l) with (@nil (nat * nat)); auto.
      symmetry. clear - E. induction l as [|(a, b) l IH]; auto. simpl in *. destruct (Nat.eqb_spec a k0); [tauto|]. apply IH. tauto.
Qed.

(** ** The colours *)
Lemma get_color_S i2c x c : get_color i2c x = S c <-> dict_get i2c x = Ok c.
Proof. unfold get_color. destruct (dict_get i2c x); split; intros H; inversion H; auto. Qed.
Lemma dict_get_drop (V : Type) (d : list (nat * V)) c k : k <> c -> dict_get (drop d c) k = dict_get d k.
Proof. intros N. unfold drop. induction d as [|(a, w) d IH]; auto. simpl. destruct (Nat.eqb_spec a c); simpl; destruct (Nat.eqb_spec k a); auto; congruence. Qed.
Lemma drop_keys (V : Type) (d : list (nat * V)) c k : In k (map fst (drop d c)) <-> In k (map fst d) /\ k <> c.
Proof.
  unfold drop. rewrite !in_map_iff. split.
  - intros (e & <- & H). apply filter_In in H. destruct H as [H1 H2]. apply negb_true_iff, Nat.eqb_neq in H2. split; eauto.
  - intros ((e & <- & H) & N). exists e. split; auto. apply filter_In. split; auto. apply negb_true_iff, Nat.eqb_neq. auto.
Qed.
Lemma drop_nd (V : Type) (d : list (nat * V)) c : NoDup (map fst d) -> NoDup (map fst (drop d c)).
Proof.
  unfold drop. induction d as [|(a, w) d IH]; auto. simpl. intros N. inversion N as [|? ? N1 N2]; subst. destruct (a =? c); simpl; auto.
  constructor; auto. intros H. apply N1. fold (drop d c) in H. apply drop_keys in H. tauto.
Qed.
Lemma drops (V : Type) cs : forall d : list (nat * V), NoDup (map fst d) -> NoDup (map fst (fold_left (@drop V) cs d)) /\
  (forall k, In k (map fst (fold_left (@drop V) cs d)) <-> In k (map fst d) /\ ~ In k cs) /\
  (forall k, ~ In k cs -> dict_get (fold_left (@drop V) cs d) k = dict_get d k).
Proof.
  induction cs as [|c cs IH]; intros d N; simpl; [tauto|]. destruct (IH (drop d c) (drop_nd c N)) as (A & B & C). split; auto. split.
  - intros k. rewrite B, drop_keys. intuition.
  - intros k H. rewrite C by tauto. apply dict_get_drop. intuition.
Qed.
Lemma fold_min cs : forall c, In (fold_left Nat.min cs c) (c :: cs).
Proof.
  induction cs as [|d cs IH]; intros c; simpl; auto. destruct (IH (Nat.min c d)) as [H|H]; auto. rewrite <- H.
  destruct (Nat.min_spec c d) as [[_ ->]|[_ ->]]; auto.
Qed.
Lemma max_fresh (V : Type) (d : list (nat * V)) : ~ In (list_max (map (fun e => S (fst e)) d)) (map fst d).
Proof.
  intros H. assert (G : forall k, In k (map fst d) -> k < list_max (map (fun e => S (fst e)) d)); [|apply G in H; lia].
  clear H. induction d as [|(a, w) d IH]; [intros k []|]. intros k H. cbn [map fst].
  match goal with |- _ < list_max (?x :: ?l) => change (k < Nat.max x (list_max l)) end. destruct H as [<-|H]; [cbn [fst]; lia|]. apply IH in H. lia.
Qed.

Record pinv (done : list (list nat)) (i2c : list (nat * nat)) (c2i : list (nat * list nat)) : Prop := {
  pi_nd1 : NoDup (map fst i2c);
  pi_nd2 : NoDup (map fst c2i);
  pi_keys : forall x, In x (map fst i2c) <-> In x (concat done);
  pi_in : forall c l x, dict_get c2i c = Ok l -> In x l <-> dict_get i2c x = Ok c;
  pi_has : forall x c, dict_get i2c x = Ok c -> In c (map fst c2i);
  pi_mono : forall xs x y, In xs done -> In x xs -> In y xs -> dict_get i2c x = dict_get i2c y;
  pi_link : forall x y c, dict_get i2c x = Ok c -> dict_get i2c y = Ok c -> linked done x y
}.
Lemma dict_key (V : Type) (d : list (nat * V)) k v : dict_get d k = Ok v -> In k (map fst d).
Proof. intros H. apply dict_get_key in H. apply in_map_iff. exists (k, v). auto. Qed.

Lemma fold_set_keys (V : Type) (c : V) s : forall d x, In x (map fst (fold_left (fun d t => dict_set d t c) s d)) <-> In x (map fst d) \/ In x s.
Proof. induction s as [|a s IH]; intros d x; simpl; [tauto|]. rewrite IH, dict_set_in. intuition. Qed.
Lemma fold_set_nd (V : Type) (c : V) s : forall d, NoDup (map fst d) -> NoDup (map fst (fold_left (fun d t => dict_set d t c) s d)).
Proof. induction s as [|a s IH]; intros d N; simpl; auto. apply IH, dict_set_nd. auto. Qed.

Lemma paint_ok xs done i2c c2i : pinv done i2c c2i -> let '(i2c', c2i') := paint (i2c, c2i) xs in pinv (done ++ [xs]) i2c' c2i'.
Proof.
  intros I. destruct xs as [|x0 xs0] eqn:Exs.
  - simpl. destruct I. constructor; auto.
    + intros x. rewrite concat_app. simpl. rewrite app_nil_r. auto.
    + intros ws x y H. apply in_app_iff in H. destruct H as [H|[<-|[]]]; eauto. intros [].
    + intros x y c A B. apply (@linked_mono done); eauto. intros z Hz. apply in_app_iff. auto.
  - rewrite <- Exs. unfold paint. rewrite Exs. rewrite <- Exs. assert (Hne : In x0 xs) by (subst xs; left; auto).
    set (cs := unique (flat_map _ xs)).
    assert (Hcs : forall c, In c cs <-> exists x, In x xs /\ dict_get i2c x = Ok c).
    { intros c. unfold cs. rewrite unique_in, in_flat_map. split; intros (x & A & B); exists x; split; auto.
      - destruct (get_color i2c x) eqn:E; [destruct B|]. destruct B as [<-|[]]. apply get_color_S. auto.
      - apply get_color_S in B. rewrite B. left. auto. }
    set (all := unique (xs ++ flat_map (get_inds c2i) cs)).
    assert (Hall : forall y, In y all <-> In y xs \/ exists c, In c cs /\ dict_get i2c y = Ok c).
    { intros y. unfold all. rewrite unique_in, in_app_iff, in_flat_map. split; (intros [H|(c & A & B)]; [auto|right; exists c; split; auto]).
      - unfold get_inds in B. destruct (dict_get c2i c) as [l|] eqn:E; [|destruct B]. apply (pi_in I _ E). auto.
      - unfold get_inds. destruct (dict_get_some (pi_has I B)) as (l & E). rewrite E. apply (pi_in I _ E). auto. }
    set (col := match cs with c :: cs' => fold_left Nat.min cs' c | [] => _ end).
    assert (Hcol : In col cs \/ cs = [] /\ ~ In col (map fst c2i)).
    { unfold col. destruct cs as [|c cs']; [right; split; auto; apply max_fresh|left; apply fold_min]. }
    assert (Hold : forall x, dict_get i2c x = Ok col -> In col cs).
    { intros x E. destruct Hcol as [H|[H1 H2]]; auto. destruct H2. apply (pi_has I E). }
    destruct (drops cs (pi_nd2 I)) as (D1 & D2 & D3).
    assert (Hsub : incl done (done ++ [xs])) by (intros z Hz; apply in_app_iff; auto).
    assert (G : forall y, dict_get (fold_left (fun d x => dict_set d x col) all i2c) y = if memb y all then Ok col else dict_get i2c y) by (intros y; apply dict_get_fold).
    assert (Hlk : forall y, In y all -> linked (done ++ [xs]) x0 y).
    { assert (H0 : forall x, In x xs -> linked (done ++ [xs]) x0 x).
      { intros x Hx. eapply lk_step; [constructor| | |apply Hx]; [apply in_app_iff; right; left; auto|auto]. }
      intros y Hy. apply Hall in Hy. destruct Hy as [Hy|(c & Hc & Ey)]; auto. apply Hcs in Hc. destruct Hc as (x & Hx & Ex).
      apply linked_trans with x; auto. apply (linked_mono Hsub). apply (pi_link I Ex Ey). }
    assert (Hclose : forall y c, In y all -> dict_get i2c y = Ok c -> In c cs).
    { intros y c Hy E. apply Hall in Hy. destruct Hy as [Hy|(c' & Hc & Ey)]; [apply Hcs; eauto|]. congruence. }
    constructor.
    + apply fold_set_nd, I.
    + apply dict_set_nd. auto.
    + intros x. rewrite fold_set_keys, concat_app, in_app_iff, (pi_keys I), Hall. simpl. rewrite app_nil_r. split; [|tauto].
      intros [H|[H|(c & _ & E)]]; auto. left. apply (pi_keys I). apply (dict_key E).
    + intros c l x. rewrite dict_get_set, G. destruct (Nat.eqb_spec c col) as [->|Nc].
      * intros E. injection E as <-. destruct (memb x all) eqn:M; [apply memb_In in M; tauto|]. apply memb_nIn in M. split; [tauto|].
        intros E. destruct M. apply Hall. right. exists col. split; auto. apply (Hold _ E).
      * intros E. assert (Nin : ~ In c cs). { intros H. apply dict_key in E. apply D2 in E. tauto. }
        rewrite D3 in E by auto. rewrite (pi_in I x E). destruct (memb x all) eqn:M; [|tauto]. apply memb_In in M. split; [|congruence].
        intros E'. destruct Nin. apply (Hclose _ _ M E').
    + intros x c. rewrite G, dict_set_in. destruct (memb x all) eqn:M; [intros E; injection E as <-; auto|].
      intros E. left. apply D2. split; [apply (pi_has I E)|]. intros H. apply memb_nIn in M. apply M, Hall. eauto.
    + intros ws x y H Hx Hy. rewrite !G. apply in_app_iff in H. destruct H as [H|[<-|[]]].
      * pose proof (pi_mono I H Hx Hy) as E. assert (Ex : In x (map fst i2c)) by (apply (pi_keys I), in_concat; eauto).
        destruct (dict_get_some Ex) as (c & Ec). pose proof Ec as Ec'. rewrite E in Ec'.
        assert (M : memb x all = memb y all); [|rewrite M, E; auto]. apply eq_true_iff_eq. rewrite !memb_In, !Hall.
        split; intros [K|(c' & K1 & K2)]; right; exists c; split; auto; try (apply Hcs; eauto; fail); congruence.
      * rewrite (proj2 (memb_In x all)), (proj2 (memb_In y all)); auto; apply Hall; auto.
    + intros x y c. rewrite !G. destruct (memb x all) eqn:Mx, (memb y all) eqn:My; intros Ex Ey.
      * apply memb_In in Mx, My. apply linked_trans with x0; auto. apply linked_sym. auto.
      * injection Ex as <-. apply memb_nIn in My. destruct My. apply Hall. right. exists col. split; auto. apply (Hold _ Ey).
      * injection Ey as <-. apply memb_nIn in Mx. destruct Mx. apply Hall. right. exists col. split; auto. apply (Hold _ Ex).
      * apply (linked_mono Hsub). apply (pi_link I Ex Ey).
Qed.
Lemma paints_ok ts : let '(i2c, c2i) := fold_left paint ts ([], []) in pinv ts i2c c2i.
Proof.
  induction ts as [|xs ts IH] using rev_ind.
  - simpl. constructor; simpl; try constructor; try tauto; intros; try discriminate.
  - rewrite fold_left_app. simpl fold_left. destruct (fold_left paint ts ([], [])) as [i2c c2i]. apply paint_ok. auto.
Qed.

(** ** The components *)
Definition pos (cc : list nat) (k : nat) : list nat := filter (fun t => nth t cc 0 =? k) (seq 0 (length cc)).
Lemma pos_snoc l a k : pos (l ++ [a]) k = pos l k ++ (if a =? k then [length l] else []).
Proof.
  unfold pos. rewrite app_length, seq_app, filter_app. simpl seq. cbn [length]. f_equal.
  - apply filter_ext_in. intros t H. apply in_seq in H. rewrite app_nth1 by lia. auto.
  - simpl. rewrite app_nth2 by lia. rewrite Nat.sub_diag. reflexivity.
Qed.
Lemma grouped_pos cc k : grouped (combine cc (seq 0 (length cc))) k = pos cc k.
Proof.
  induction cc as [|a l IH] using rev_ind; auto. rewrite pos_snoc, <- IH. rewrite app_length, seq_app. cbn [length seq].
  assert (E : forall (l m : list nat) n, length l = length m -> combine (l ++ [a]) (m ++ [n]) = combine l m ++ [(a, n)]).
  { clear. induction l as [|x l IH]; intros [|y m] n H; simpl in *; try discriminate; auto. f_equal. auto. }
  rewrite E by (rewrite seq_length; auto). unfold grouped. rewrite filter_app, map_app. f_equal. simpl. destruct (a =? k); auto.
Qed.
Lemma in_pos cc k t : In t (pos cc k) <-> t < length cc /\ nth t cc 0 = k.
Proof. unfold pos. rewrite filter_In, in_seq, Nat.eqb_eq. intuition lia. Qed.
Lemma sorted_filter f l : StronglySorted lt l -> StronglySorted lt (filter f l).
Proof.
  intros H. induction H as [|a l H IH F]; simpl; [constructor|]. destruct (f a); auto. constructor; auto.
  rewrite Forall_forall in *. intros x Hx. apply filter_In in Hx. apply F. tauto.
Qed.
Lemma sorted_seq n : forall a, StronglySorted lt (seq a n).
Proof. induction n as [|n IH]; intros a; simpl; constructor; auto. apply Forall_forall. intros x Hx. apply in_seq in Hx. lia. Qed.
Lemma pos_sorted cc k : StronglySorted lt (pos cc k).
Proof. apply sorted_filter, sorted_seq. Qed.
Lemma sorted_snoc l n : StronglySorted lt l -> (forall x, In x l -> x < n) -> StronglySorted lt (l ++ [n]).
Proof.
  intros H. induction H as [|a l H IH F]; intros G; simpl; [repeat constructor|]. constructor; [apply IH; intros; apply G; right; auto|].
  apply Forall_forall. intros x Hx. apply in_app_iff in Hx. destruct Hx as [Hx|[<-|[]]]; [rewrite Forall_forall in F; auto|apply G; left; auto].
Qed.
Lemma heads_sorted cc : StronglySorted lt (map (fun k => hd 0 (pos cc k)) (unique cc)) /\ forall k, In k cc -> pos cc k <> [].
Proof.
  induction cc as [|a l [IH1 IH2]] using rev_ind; [split; [constructor|intros k []]|]. split.
  - rewrite unique_snoc. assert (E : forall k, In k l -> hd 0 (pos (l ++ [a]) k) = hd 0 (pos l k)).
    { intros k Hk. rewrite pos_snoc. specialize (IH2 k Hk). destruct (pos l k); [tauto|reflexivity]. }
    assert (E' : map (fun k => hd 0 (pos (l ++ [a]) k)) (unique l) = map (fun k => hd 0 (pos l k)) (unique l)).
    { apply map_ext_in. intros k Hk. apply (proj1 (unique_in _ _)) in Hk. auto. }
    destruct (memb a l) eqn:M; [rewrite E'; auto|]. rewrite map_app, E'. simpl map. apply memb_nIn in M.
    assert (E2 : pos l a = []). { destruct (pos l a) as [|t p] eqn:Ep; auto. destruct M. assert (H : In t (pos l a)) by (rewrite Ep; left; auto). apply in_pos in H. destruct H as [H <-]. apply nth_In. auto. }
    rewrite pos_snoc, E2, Nat.eqb_refl. simpl hd. apply sorted_snoc; auto.
    intros x Hx. apply in_map_iff in Hx. destruct Hx as (k & <- & Hk). apply (proj1 (unique_in _ _)) in Hk. specialize (IH2 k Hk).
    destruct (pos l k) as [|t p] eqn:Ep; [tauto|]. assert (H : In t (pos l k)) by (rewrite Ep; left; auto). apply in_pos in H. simpl. tauto.
  - intros k Hk. rewrite pos_snoc. apply in_app_iff in Hk. destruct Hk as [Hk|[<-|[]]].
    + specialize (IH2 k Hk). destruct (pos l k); [tauto|discriminate].
    + rewrite Nat.eqb_refl. intros H. apply app_eq_nil in H. destruct H; discriminate.
Qed.

Lemma unique_const a l : l <> [] -> (forall x, In x l -> x = a) -> unique l = [a].
Proof.
  induction l as [|b l IH] using rev_ind; [tauto|]. intros _ H. rewrite unique_snoc. destruct l as [|c l].
  - simpl. f_equal. apply H. left. auto.
  - destruct (memb b (c :: l)) eqn:M.
    + apply IH; [discriminate|]. intros x Hx. apply H. apply in_app_iff. auto.
    + apply memb_nIn in M. destruct M. rewrite (H b) by (apply in_app_iff; right; left; auto). left. apply H. left. auto.
Qed.
Lemma count_nd x l : NoDup l -> In x l -> count x l = 1.
Proof.
  unfold count. induction l as [|y l IH]; intros N H; [destruct H|]. inversion N as [|? ? N1 N2]; subst. simpl. destruct (Nat.eqb_spec x y) as [->|Ne].
  - simpl. f_equal. clear - N1. induction l as [|z l IH]; auto. simpl in *. destruct (Nat.eqb_spec y z); [subst; tauto|]. apply IH. tauto.
  - apply IH; auto. destruct H; [congruence|auto].
Qed.
Lemma linked_conn ts x y : linked ts x y -> forall t u, has ts t x -> has ts u y -> connected ts t u.
Proof.
  intros H. induction H as [|x y z xs H IH A B D]; intros t u Ht Hu; [apply conn_one with x; auto|].
  apply In_nth_error in A. destruct A as (v & A). apply conn_step with v z; auto; [|exists xs; auto]. apply IH; auto. exists xs. auto.
Qed.
Lemma concat_nd (F : nat -> list nat) ks : NoDup ks -> (forall k, NoDup (F k)) -> (forall k k' x, In x (F k) -> In x (F k') -> k = k') -> NoDup (concat (map F ks)).
Proof.
  intros N HF HD. induction N as [|k ks Nk N IH]; simpl; [constructor|]. apply NoDup_app. split; auto. split; auto.
  intros x Hx Hy. apply in_concat in Hy. destruct Hy as (l & A & B). apply in_map_iff in A. destruct A as (k' & <- & Hk'). rewrite (HD k k' x) in Nk; auto.
Qed.
Lemma sorted_nd l : StronglySorted lt l -> NoDup l.
Proof. intros H. induction H as [|a l H IH F]; constructor; auto. intros K. rewrite Forall_forall in F. apply F in K. lia. Qed.

Definition filled (ts : list (list nat)) : list (list nat) := filter (fun xs => negb (length xs =? 0)) ts.
Lemma filled_in ts xs : In xs (filled ts) <-> In xs ts /\ xs <> [].
Proof. unfold filled. rewrite filter_In. destruct xs; simpl; split; intros [A B]; split; auto; congruence. Qed.

Theorem components_ok ts : exists comps, get_connected_components ts = Ok comps /\ components_of (filled ts) comps.
Proof.
  unfold get_connected_components. fold (filled ts). set (f := filled ts).
  assert (Hf : forall xs, In xs f -> xs <> []) by (intros xs H; apply filled_in in H; tauto).
  clearbody f. destruct (Nat.eqb_spec (length f) 0) as [E0|E0].
  { destruct f; [|discriminate]. exists []. split; auto. constructor; simpl; try tauto; try constructor; intros; lia. }
  pose proof (paints_ok f) as I. destruct (fold_left paint f ([], [])) as [i2c c2i].
  assert (K : forall xs x, In xs f -> In x xs -> exists c, dict_get i2c x = Ok c).
  { intros xs x A B. apply dict_get_some, (pi_keys I), in_concat. eauto. }
  assert (C1 : one_color_each i2c f = true).
  { unfold one_color_each. rewrite (@unique_const 1); auto.
    - intros E. apply map_eq_nil in E. rewrite E in E0. auto.
    - intros n H. apply in_map_iff in H. destruct H as (xs & <- & Hxs). destruct xs as [|x ys] eqn:Ex; [destruct (Hf [] Hxs); auto|]. rewrite <- Ex in *.
      rewrite (@unique_const (get_color i2c x)); auto; [rewrite Ex; discriminate|].
      intros c Hc. apply in_map_iff in Hc. destruct Hc as (y & <- & Hy). unfold get_color. rewrite (pi_mono I Hxs Hy (y := x)); auto. rewrite Ex. left. auto. }
  rewrite C1. cbn [negb].
  assert (C2 : all_colored i2c f = true).
  { unfold all_colored. apply forallb_forall. intros x Hx. apply Nat.eqb_eq.
    assert (Hx' : In x (unique (concat f)) /\ In x (map fst i2c)). { rewrite unique_in, (pi_keys I). apply in_app_iff in Hx. rewrite unique_in, (pi_keys I) in Hx. tauto. }
    assert (G : count x (unique (concat f) ++ map fst i2c) = count x (unique (concat f)) + count x (map fst i2c)) by (unfold count; rewrite filter_app, app_length; auto).
    rewrite G, !count_nd; try tauto; [apply I|apply unique_nodup]. }
  rewrite C2. cbn [negb].
  set (col := fun xs => Nat.pred (get_color i2c (hd 0 xs))).
  assert (Hcol : forall xs x, In xs f -> In x xs -> dict_get i2c x = Ok (col xs)).
  { intros xs x A B. unfold col. destruct xs as [|y ys] eqn:Ex; [destruct B|]. rewrite <- Ex in *. assert (Hy : In y xs) by (rewrite Ex; left; auto).
    rewrite (pi_mono I A B Hy). destruct (K xs y A Hy) as (c & Ec). replace (hd 0 xs) with y by (rewrite Ex; auto). rewrite (proj2 (get_color_S i2c y c) Ec). auto. }
  assert (ET : forall c, tensor_colors i2c c f = Ok (map col f)).
  { clear - Hf Hcol. induction f as [|xs f IH]; intros c; auto. simpl. destruct xs as [|x ys]; [destruct (Hf []); simpl; auto|].
    rewrite (Hcol (x :: ys) x) by (simpl; auto). cbn [bind]. rewrite IH; [reflexivity| |]; intros; [apply Hf|apply Hcol]; simpl; auto. }
  rewrite ET. cbn [bind]. set (cc := map col f). eexists. split; [reflexivity|].
  rewrite group_by_eq, map_map. assert (Lc : length cc = length f) by apply map_length.
  assert (EF : map fst (combine cc (seq 0 (length cc))) = cc).
  { generalize (seq_length (length cc) 0). generalize (seq 0 (length cc)). clear. induction cc as [|a l IH]; intros [|b m] H; simpl in *; auto; [discriminate|]. f_equal. apply IH. auto. }
  rewrite EF. cbn [snd]. rewrite (map_ext _ _ (grouped_pos cc)). destruct (heads_sorted cc) as [HS HN].
  assert (Hnth : forall t, t < length f -> nth t cc 0 = col (nth t f [])).
  { intros t Ht. unfold cc. rewrite (nth_indep _ 0 (col [])) by (rewrite map_length; auto). apply map_nth. }
  assert (HC : forall t u, t < length f -> u < length f -> nth t cc 0 = nth u cc 0 <-> connected f t u).
  { intros t u Ht Hu. rewrite !Hnth by auto. assert (Hh : forall t, t < length f -> exists x, has f t x /\ dict_get i2c x = Ok (col (nth t f []))).
    { clear t u Ht Hu. intros t Ht. pose proof (nth_In f [] Ht) as A. destruct (nth t f []) as [|x xs] eqn:Ex; [destruct (Hf [] A); auto|]. exists x. rewrite <- Ex in *.
      assert (B : In x (nth t f [])) by (rewrite Ex; left; auto). split; [|apply Hcol; auto]. exists (nth t f []). split; auto. apply nth_error_nth'. auto. }
    split.
    - intros E. destruct (Hh t Ht) as (x & A & B). destruct (Hh u Hu) as (y & A' & B'). rewrite <- E in B'. apply linked_conn with x y; auto. apply (pi_link I B B').
    - intros E. clear Hu. induction E as [|t u v x E IH (xs & A1 & A2) (ys & B1 & B2)]; auto. assert (Hu : u < length f) by (apply nth_error_Some; congruence).
      rewrite IH by auto. rewrite (nth_error_nth _ _ _ A1), (nth_error_nth _ _ _ B1). apply nth_error_In in A1, B1.
      pose proof (Hcol _ _ A1 A2) as E1. pose proof (Hcol _ _ B1 B2) as E2. congruence. }
  constructor.
  - intros t. rewrite in_concat. split.
    + intros (l & A & B). apply in_map_iff in A. destruct A as (k & <- & _). apply in_pos in B. rewrite <- Lc. tauto.
    + intros Ht. exists (pos cc (nth t cc 0)). split; [|apply in_pos; rewrite Lc; auto]. apply in_map_iff. eexists. split; [reflexivity|]. apply unique_in. apply nth_In. rewrite Lc. auto.
  - apply concat_nd; [apply unique_nodup|intros k; apply sorted_nd, pos_sorted|]. intros k k' x A B. apply in_pos in A, B. destruct A as [_ <-]. tauto.
  - intros c Hc. apply in_map_iff in Hc. destruct Hc as (k & <- & Hk). apply HN. apply (proj1 (unique_in _ _)) in Hk. auto.
  - intros c t u Hc Ht. apply in_map_iff in Hc. destruct Hc as (k & <- & Hk). apply in_pos in Ht. destruct Ht as [Ht <-]. rewrite in_pos, Lc in *. split.
    + intros [A B]. split; auto. apply HC; auto.
    + intros [A B]. split; auto. symmetry. apply HC; auto.
  - intros c Hc. apply in_map_iff in Hc. destruct Hc as (k & <- & _). apply pos_sorted.
  - rewrite map_map. auto.
Qed.
Lemma filled_id ts : (forall xs, In xs ts -> xs <> []) -> filled ts = ts.
Proof. intros H. unfold filled. apply forallb_filter_id. apply forallb_forall. intros xs Hx. specialize (H xs Hx). destruct xs; [tauto|auto]. Qed.
