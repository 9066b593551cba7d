(** decompose_hyper_inds for a network. *)
From Coq Require Import List Arith Lia Permutation Bool Ring.
Import ListNotations.
From Verif Require Import P_Base P_Opt P_PyMain.
From Verif Require Import M_Base M_Path M_PyTree M_OSet M_Tensor M_Decompose S_Path S_PyTree S_Random S_Network S_Fuse S_Tensor S_Contract S_Decompose.
From Verif Require Import P_Path P_Split P_PathMain P_PyBuild P_PyTens P_OSet P_Sum P_Array P_Fuse P_RandMain P_ContractMain P_Symbols P_Decompose.
Set Implicit Arguments.
Unset Strict Implicit.

(** ** Colours *)
Record colors (all : list nat) (i2c : list (nat * nat)) (c2i : list (nat * oset)) : Prop := mkCol {
  col_nodup : NoDup (map fst c2i);
  col_all : forall x, In x all <-> exists c, dict_get i2c x = Ok c;
  col_in : forall x c, dict_get i2c x = Ok c -> exists s, dict_get c2i c = Ok s /\ In x (iter s);
  col_of : forall c s x, dict_get c2i c = Ok s -> In x (iter s) -> dict_get i2c x = Ok c;
  col_some : forall c s, dict_get c2i c = Ok s -> iter s <> [] }.
Definition same_color (i2c : list (nat * nat)) (v : nat -> nat) : Prop := forall x y c, dict_get i2c x = Ok c -> dict_get i2c y = Ok c -> v x = v y.

Lemma union_in s t x : In x (iter (union s (OSet t))) <-> In x (iter s) \/ In x (iter t).
Proof. unfold union, iter. simpl. rewrite unique_in, in_app_iff. tauto. Qed.
Lemma pop_all_ok cs : forall d acc, NoDup (map fst d) -> NoDup cs -> (forall c, In c cs -> exists s, dict_get d c = Ok s) ->
  exists u d', pop_all d cs acc = Ok (u, d') /\ NoDup (map fst d') /\ (forall j, dict_get d' j = if memb j cs then Err Throw else dict_get d j) /\
    (forall z, In z (iter u) <-> In z (iter acc) \/ exists c s, In c cs /\ dict_get d c = Ok s /\ In z (iter s)).
Proof.
  induction cs as [|c cs IH]; intros d acc HN HC H; simpl.
  - exists acc, d. split; auto. split; auto. split; auto. intros z. split; auto. intros [Hz|(c & s & [] & _)]. auto.
  - inversion HC as [|? ? N1 N2]; subst. destruct (H c (or_introl eq_refl)) as (s & Hs). destruct (dict_pop_ok HN Hs) as (d1 & -> & HN1 & G1 & _). cbn [bind].
    destruct (IH d1 (union acc (OSet s)) HN1 N2) as (u & d' & E & HN' & G' & U').
    { intros k Hk. rewrite G1. destruct (Nat.eqb_spec k c); [subst; contradiction|]. apply H. right. auto. }
    exists u, d'. split; auto. split; auto. split.
    + intros j. rewrite G', G1. unfold memb. simpl. destruct (j =? c); simpl; auto. destruct (existsb (Nat.eqb j) cs); auto.
    + intros z. rewrite U', union_in. split.
      * intros [[Hz|Hz]|(k & s' & Hk & Gk & Hz)]; [auto|right; exists c, s; auto|]. right. exists k, s'. rewrite G1 in Gk. destruct (k =? c); [discriminate|auto].
      * intros [Hz|(k & s' & [->|Hk] & Gk & Hz)]; [auto|left; right; congruence|]. right. exists k, s'. split; auto. split; auto. rewrite G1.
        destruct (Nat.eqb_spec k c); [subst; contradiction|auto].
Qed.

Lemma forall2_in_l (A B : Type) (P : A -> B -> Prop) l k : Forall2 P l k -> forall a, In a l -> exists b, In b k /\ P a b.
Proof. intros H. induction H as [|a b l k Hab H IH]; intros x Hx; [destruct Hx|]. destruct Hx as [->|Hx]; [exists b; simpl; auto|]. destruct (IH x Hx) as (b' & Hb & Hp). exists b'. simpl. auto. Qed.
Lemma forall2_in_r (A B : Type) (P : A -> B -> Prop) l k : Forall2 P l k -> forall b, In b k -> exists a, In a l /\ P a b.
Proof. intros H. induction H as [|a b l k Hab H IH]; intros x Hx; [destruct Hx|]. destruct Hx as [->|Hx]; [exists a; simpl; auto|]. destruct (IH x Hx) as (b' & Hb & Hp). exists b'. simpl. auto. Qed.

Lemma merge_colors_ok all i2c c2i x xs : colors all i2c c2i -> In x all -> incl xs all ->
  exists i2c' c2i', merge_colors (i2c, c2i) (x, xs) = Ok (i2c', c2i') /\ colors all i2c' c2i' /\
    forall v, same_color i2c' v <-> same_color i2c v /\ forall z, In z xs -> v z = v x.
Proof.
  intros C Hx Hxs. unfold merge_colors. destruct (Nat.eqb_spec (length xs) 0) as [L|L].
  { apply length_zero_iff_nil in L. subst. exists i2c, c2i. split; auto. split; auto. intros v. split; [intros H; split; auto; intros z []|tauto]. }
  assert (ALL : forall z, In z (unique (xs ++ [x])) <-> In z xs \/ z = x) by (intros z; rewrite unique_in, in_app_iff; simpl; intuition).
  destruct (@mapM_spec _ _ (dict_get i2c) (unique (xs ++ [x]))) as (cs0 & E0 & F0).
  { intros z Hz. apply (col_all C). apply ALL in Hz. destruct Hz as [Hz| ->]; auto. }
  rewrite E0. cbn [bind].
  assert (KS : forall k, In k (sort (unique cs0)) <-> exists z, (In z xs \/ z = x) /\ dict_get i2c z = Ok k).
  { intros k. rewrite sort_in, unique_in. split.
    - intros Hk. destruct (forall2_in_r F0 Hk) as (z & Hz & Gz). exists z. rewrite <- ALL. auto.
    - intros (z & Hz & Gz). apply ALL in Hz. destruct (forall2_in_l F0 Hz) as (k' & Hk & Gk). congruence. }
  pose proof (sort_nodup (unique_nodup cs0)) as KN. destruct (sort (unique cs0)) as [|c cs].
  { exfalso. destruct (proj1 (col_all C x) Hx) as (k & Gk). apply (proj2 (KS k)). exists x. auto. }
  assert (KP : forall k, In k (c :: cs) -> exists s, dict_get c2i k = Ok s).
  { intros k Hk. apply KS in Hk. destruct Hk as (z & _ & Gz). destruct (col_in C Gz) as (s & Hs & _). eauto. }
  destruct (KP c (or_introl eq_refl)) as (s & Hs). destruct (dict_pop_ok (col_nodup C) Hs) as (d1 & -> & HN1 & G1 & _). cbn [bind].
  inversion KN as [|? ? KN1 KN2]; subst.
  destruct (@pop_all_ok cs d1 s HN1 KN2) as (u & d' & -> & HN' & G' & U').
  { intros k Hk. rewrite G1. destruct (Nat.eqb_spec k c); [subst; contradiction|]. apply KP. right. auto. }
  cbn [bind]. do 2 eexists. split; [reflexivity|].
  assert (UI : forall z, In z (iter u) <-> exists k, In k (c :: cs) /\ dict_get i2c z = Ok k).
  { intros z. rewrite U'. split.
    - intros [Hz|(k & s' & Hk & Gk & Hz)]; [exists c; split; [left; auto|apply (col_of C Hs Hz)]|]. rewrite G1 in Gk. destruct (k =? c); [discriminate|].
      exists k. split; [right; auto|apply (col_of C Gk Hz)].
    - intros (k & Hk & Gz). destruct (col_in C Gz) as (s' & Hs' & Hz). destruct (Nat.eq_dec k c) as [->|D]; [left; congruence|].
      right. exists k, s'. destruct Hk as [Hk|Hk]; [congruence|]. split; auto. split; auto. rewrite G1. destruct (Nat.eqb_spec k c); [congruence|auto]. }
  assert (GI : forall z, dict_get (fold_left (fun d y => dict_set d y c) (iter u) i2c) z = if memb z (iter u) then Ok c else dict_get i2c z) by (intros z; apply dict_get_fold).
  assert (GC : forall k, dict_get (dict_set d' c u) k = if k =? c then Ok u else if memb k cs then Err Throw else dict_get c2i k).
  { intros k. rewrite dict_get_set, G', G1. destruct (k =? c); auto. }
  set (i' := fold_left _ _ _) in *. set (c' := dict_set d' c u) in *.
  assert (CC : colors all i' c').
  { constructor.
    - apply dict_set_nodup. auto.
    - intros z. rewrite (col_all C), GI. destruct (memb z (iter u)) eqn:E; [|tauto]. split; [eauto|]. intros _. apply memb_In, UI in E. destruct E as (k & _ & Gk). eauto.
    - intros z k. rewrite GI. destruct (memb z (iter u)) eqn:E; intros Gk.
      + inversion Gk; subst. exists u. rewrite GC, Nat.eqb_refl. split; auto. apply memb_In. auto.
      + apply memb_nIn in E. destruct (col_in C Gk) as (s' & Hs' & Hz). exists s'. split; auto. rewrite GC.
        destruct (Nat.eqb_spec k c) as [->|D]; [exfalso; apply E, UI; exists c; simpl; auto|].
        destruct (memb k cs) eqn:E'; auto. apply memb_In in E'. exfalso. apply E, UI. exists k. simpl. auto.
    - intros k s' z. rewrite GC, GI. destruct (Nat.eqb_spec k c) as [->|D]; [intros Es Hz; inversion Es; subst; rewrite (proj2 (memb_In z _)); auto|].
      destruct (memb k cs) eqn:E'; [discriminate|]. intros Gk Hz. pose proof (col_of C Gk Hz) as Gz. destruct (memb z (iter u)) eqn:E; auto.
      apply memb_In, UI in E. destruct E as (k' & Hk' & Gk'). assert (k' = k) by congruence. subst. apply memb_nIn in E'. destruct Hk' as [->|Hk']; congruence.
    - intros k s'. rewrite GC. destruct (Nat.eqb_spec k c); [|destruct (memb k cs); [discriminate|apply (col_some C)]]. intros Es. inversion Es; subst.
      pose proof (col_some C Hs) as Q. destruct (iter s) as [|q r] eqn:Eq; [congruence|]. intros Hn. assert (I : In q (iter s')) by (apply U'; left; left; auto). rewrite Hn in I. destruct I. }
  split; auto. intros v. split.
  - intros H. assert (ONE : forall z1 z2, In z1 (iter u) -> In z2 (iter u) -> v z1 = v z2).
    { intros z1 z2 H1 H2. apply (H z1 z2 c); rewrite GI, (proj2 (memb_In _ _)); auto. }
    split.
    + intros z1 z2 k H1 H2. destruct (memb z1 (iter u)) eqn:E1, (memb z2 (iter u)) eqn:E2.
      * apply memb_In in E1, E2. auto.
      * exfalso. apply memb_In, UI in E1. apply memb_nIn in E2. apply E2, UI. destruct E1 as (k' & Hk & Gk). exists k'. split; auto. congruence.
      * exfalso. apply memb_In, UI in E2. apply memb_nIn in E1. apply E1, UI. destruct E2 as (k' & Hk & Gk). exists k'. split; auto. congruence.
      * apply (H z1 z2 k); rewrite GI, ?E1, ?E2; auto.
    + assert (IU : forall z, In z xs \/ z = x -> In z (iter u)).
      { intros z Hz. apply UI. assert (HZ : In z all) by (destruct Hz as [Hz| ->]; auto). apply (col_all C) in HZ. destruct HZ as (k & Gk). exists k. split; auto. apply KS. exists z. auto. }
      intros z Hz. apply ONE; apply IU; auto.
  - intros [H Hz].
    assert (ONE : forall z, In z (iter u) -> v z = v x).
    { intros z Iz. apply UI in Iz. destruct Iz as (k & Hk & Gk). apply KS in Hk. destruct Hk as (z' & Hz' & Gz'). rewrite (H z z' k Gk Gz'). destruct Hz' as [Hz'| ->]; auto. }
    intros z1 z2 k. rewrite !GI. destruct (memb z1 (iter u)) eqn:E1, (memb z2 (iter u)) eqn:E2; intros H1 H2.
    + apply memb_In in E1, E2. rewrite (ONE z1 E1), (ONE z2 E2). auto.
    + inversion H1; subst. exfalso. apply memb_nIn in E2. apply E2, UI. exists k. split; [left; auto|auto].
    + inversion H2; subst. exfalso. apply memb_nIn in E1. apply E1, UI. exists k. split; [left; auto|auto].
    + apply (H z1 z2 k); auto.
Qed.

Lemma merge_all_ok all l : forall i2c c2i, colors all i2c c2i -> (forall y s, In (y, s) l -> In y all /\ incl s all) ->
  exists i2c' c2i', merge_all (i2c, c2i) l = Ok (i2c', c2i') /\ colors all i2c' c2i' /\ forall v, same_color i2c' v <-> same_color i2c v /\ agrees l v.
Proof.
  induction l as [|(y, s) l IH]; intros i2c c2i C H; cbn [merge_all].
  - exists i2c, c2i. split; auto. split; auto. intros v. split; [intros Hv; split; auto; intros y s x []|tauto].
  - destruct (H y s (or_introl eq_refl)) as [Hy Hs]. destruct (merge_colors_ok C Hy Hs) as (i1 & c1 & -> & C1 & V1). cbn [bind].
    destruct (IH i1 c1 C1) as (i2 & c2 & E & C2 & V2); [intros; apply H; right; auto|]. exists i2, c2. split; auto. split; auto.
    intros v. rewrite V2, V1. unfold agrees. split.
    + intros [[A1 A2] A3]. split; auto. intros y' s' x [Ei|Hi] Hx; [inversion Ei; subst; auto|eauto].
    + intros [A1 A2]. split; [split; auto; intros z Hz; apply (A2 y s z); simpl; auto|]. intros y' s' x Hi Hx. apply (A2 y' s' x); simpl; auto.
Qed.

Lemma dict_get_combine (l : list nat) : NoDup l -> forall s x c, dict_get (combine l (seq s (length l))) x = Ok c <-> exists i, nth_error l i = Some x /\ c = s + i.
Proof.
  induction l as [|y l IH]; intros HN s x c; simpl.
  - split; [discriminate|]. intros ([|i] & H & _); discriminate.
  - inversion HN as [|? ? N1 N2]; subst. destruct (Nat.eqb_spec x y) as [->|D].
    + split; [intros E; inversion E; subst; exists 0; split; auto; lia|]. intros ([|i] & H & ->); [f_equal; lia|]. simpl in H. apply nth_error_In in H. contradiction.
    + rewrite (IH N2). split; [intros (i & H & ->); exists (S i); split; auto; lia|]. intros ([|i] & H & ->); simpl in H; [congruence|]. exists i. split; auto. lia.
Qed.
Lemma colors_start all : NoDup all -> let i2c := combine all (seq 0 (length all)) in
  colors all i2c (map (fun e => (snd e, ofs [fst e])) i2c) /\ forall v, same_color i2c v.
Proof.
  intros HN i2c. assert (G : forall x c, dict_get i2c x = Ok c <-> nth_error all c = Some x).
  { intros x c. unfold i2c. rewrite dict_get_combine by auto. simpl. split; [intros (i & H & ->); auto|eauto]. }
  assert (NC : NoDup (map fst (map (fun e => (snd e, ofs [fst e])) i2c))).
  { rewrite map_map. cbn [fst]. assert (E : map snd i2c = seq 0 (length all)).
    { unfold i2c. generalize (seq_length (length all) 0). generalize (seq 0 (length all)). clear. induction all as [|x l IH]; intros [|y k] E; simpl in *; try discriminate; auto. f_equal. apply IH. lia. }
    change (fun x : nat * nat => snd x) with (@snd nat nat). rewrite E. apply seq_NoDup. }
  assert (NI : NoDup (map fst i2c)).
  { assert (E : map fst i2c = all).
    { unfold i2c. generalize (seq_length (length all) 0). generalize (seq 0 (length all)). clear. induction all as [|x l IH]; intros [|y k] E; simpl in *; try discriminate; auto. f_equal. apply IH. lia. }
    rewrite E. auto. }
  assert (GC : forall c s, dict_get (map (fun e => (snd e, ofs [fst e])) i2c) c = Ok s <-> exists x, nth_error all c = Some x /\ s = ofs [x]).
  { intros c s. split.
    - intros H. apply dict_get_key, in_map_iff in H. destruct H as ((x, c') & E & H). simpl in E. inversion E; subst. exists x. split; auto. apply G. apply dict_get_in; auto.
    - intros (x & H & ->). apply dict_get_in; auto. apply in_map_iff. exists (x, c). split; auto. apply dict_get_key. apply G. auto. }
  split.
  - constructor; auto.
    + intros x. split; [intros H; apply In_nth_error in H; destruct H as (i & H); exists i; apply G; auto|]. intros (c & H). apply G in H. apply nth_error_In in H. auto.
    + intros x c H. apply G in H. exists (ofs [x]). split; [apply GC; eauto|]. simpl. auto.
    + intros c s x H Hx. apply GC in H. destruct H as (y & H & ->). simpl in Hx. destruct Hx as [->|[]]. apply G. auto.
    + intros c s H. apply GC in H. destruct H as (y & H & ->). simpl. discriminate.
  - intros v x y c Hx Hy. apply G in Hx, Hy. congruence.
Qed.

(** the map to the first index of the class *)
Definition rep (i2c : list (nat * nat)) (c2i : list (nat * oset)) (x : nat) : nat :=
  match dict_get i2c x with Ok c => match dict_get c2i c with Ok s => hd 0 (iter s) | Err _ => 0 end | Err _ => 0 end.
Lemma rep_ok all i2c c2i x : colors all i2c c2i -> In x all -> In (rep i2c c2i x) all /\ rep i2c c2i (rep i2c c2i x) = rep i2c c2i x /\
  dict_get i2c (rep i2c c2i x) = dict_get i2c x.
Proof.
  intros C Hx. apply (col_all C) in Hx. destruct Hx as (c & Gc). destruct (col_in C Gc) as (s & Hs & Hi). pose proof (col_some C Hs) as Q.
  assert (E : rep i2c c2i x = hd 0 (iter s)) by (unfold rep; rewrite Gc, Hs; auto). destruct (iter s) as [|q r] eqn:Es; [congruence|]. simpl in E. rewrite E.
  assert (Gq : dict_get i2c q = Ok c) by (apply (col_of C Hs); rewrite Es; left; auto).
  split; [apply (col_all C); eauto|]. split; [|congruence]. unfold rep. rewrite Gq, Hs, Es. auto.
Qed.
Lemma same_rep all i2c c2i v : colors all i2c c2i -> same_color i2c v <-> forall x, In x all -> v x = v (rep i2c c2i x).
Proof.
  intros C. split.
  - intros H x Hx. destruct (rep_ok C Hx) as (_ & _ & E). apply (col_all C) in Hx. destruct Hx as (c & Gc). apply (H x _ c); congruence.
  - intros H x y c Gx Gy. rewrite (H x), (H y) by (apply (col_all C); eauto). f_equal. unfold rep. rewrite Gx, Gy. auto.
Qed.
Lemma map_ok all i2c c2i : colors all i2c c2i -> exists ms, mapM (fun e => class_map (snd e)) c2i = Ok ms /\
  forall x, dict_get (dict_of (concat ms)) x = if memb x all then Ok (rep i2c c2i x) else Err Throw.
Proof.
  intros C.
  assert (P : forall e, In e c2i -> class_map (snd e) = Ok (map (fun x => (x, hd 0 (iter (snd e)))) (iter (snd e)))).
  { intros (c, s) He. simpl. pose proof (col_some C (dict_get_in (col_nodup C) He)) as Q. unfold class_map. destruct (iter s); [congruence|auto]. }
  eexists. split; [apply (P_PyPath.mapM_ok P)|]. set (l := concat _).
  assert (LI : forall x y, In (x, y) l -> In x all /\ y = rep i2c c2i x).
  { intros x y H. unfold l in H. apply in_concat in H. destruct H as (r & Hr & H). apply in_map_iff in Hr. destruct Hr as ((c, s) & <- & Hr). simpl in H.
    apply in_map_iff in H. destruct H as (z & E & Hz). inversion E; subst. pose proof (dict_get_in (col_nodup C) Hr) as Gs. pose proof (col_of C Gs Hz) as Gx.
    split; [apply (col_all C); eauto|]. unfold rep. rewrite Gx, Gs. auto. }
  intros x. destruct (memb x all) eqn:E.
  - apply memb_In in E. apply (dict_of_get (val := rep i2c c2i)); [intros k v Hk; apply LI; auto|].
    pose proof E as E'. apply (col_all C) in E'. destruct E' as (c & Gc). destruct (col_in C Gc) as (s & Hs & Hi). apply in_map_iff. exists (x, hd 0 (iter s)). split; auto.
    unfold l. apply in_concat. exists (map (fun x => (x, hd 0 (iter s))) (iter s)). split; [|apply in_map_iff; eauto]. apply in_map_iff. exists (c, s). split; auto. apply dict_get_key. auto.
  - apply memb_nIn in E. apply dict_of_none. intros H. apply in_map_iff in H. destruct H as ((k, v) & Ek & H). simpl in Ek. subst. apply LI in H. tauto.
Qed.

(** ** The tensors *)
Lemma agrees_app h1 h2 v : agrees (h1 ++ h2) v <-> agrees h1 v /\ agrees h2 v.
Proof.
  unfold agrees. split; [intros H; split; intros y s x Hi; apply (H y s x); apply in_or_app; auto|].
  intros [H1 H2] y s x Hi. apply in_app_or in Hi. destruct Hi; eauto.
Qed.
Lemma agrees_dec h v : agrees h v \/ ~ agrees h v.
Proof.
  induction h as [|(y, s) h IH]; [left; intros y s x []|]. change ((y, s) :: h) with ([(y, s)] ++ h). rewrite agrees_app. destruct IH as [IH|IH]; [|tauto].
  assert (D : forall s, (forall x, In x s -> v x = v y) \/ ~ (forall x, In x s -> v x = v y)).
  { clear. induction s as [|z s IH]; [left; intros x []|]. destruct (Nat.eq_dec (v z) (v y)) as [E|E]; [|right; intros H; apply E, H; left; auto].
    destruct IH as [IH|IH]; [left; intros x [->|Hx]; auto|right; intros H; apply IH; intros x Hx; apply H; right; auto]. }
  destruct (D s) as [Ds|Ds]; [left; split; auto; intros y' s' x [E|[]] Hx; inversion E; subst; auto|].
  right. intros [H _]. apply Ds. intros x Hx. apply (H y s x); simpl; auto.
Qed.

Section Net.
Variable K : Type.
Variable A : alg K.
Hypothesis SR : semiring A.
Let SR1 : semi_ring_theory (zero A) (one A) (add A) (mul A) eq := SR.
Add Ring KR : SR1.
Variable eqb : K -> K -> bool.
Hypothesis EQ : forall a b, eqb a b = true <-> a = b.
Variable dim : nat -> nat.

Lemma network_nil v : network A [] [] v = one A.
Proof. reflexivity. Qed.
Lemma network_cons a arrays xs ts v : network A (a :: arrays) (xs :: ts) v = mul A (entry_at A a xs v) (network A arrays ts v).
Proof. unfold network, product. simpl. f_equal. rewrite <- seq_shift, map_map. reflexivity. Qed.

Lemma decompose_all_ok arrays ts : shaped dim arrays ts -> Forall well_shaped arrays -> (forall xs, In xs ts -> NoDup xs) ->
  (decompose_all A eqb arrays ts = Err Throw /\ exists x, In x (concat ts) /\ dim x = 0) \/
  exists bs us h, decompose_all A eqb arrays ts = Ok (bs, us, h) /\ Forall well_shaped bs /\ shaped dim bs us /\ Forall2 (fun ys xs => incl ys xs) us ts /\
    (forall y s, In (y, s) h -> forall x, In x s -> In x (concat ts) /\ In y (concat ts)) /\ agrees h dim /\
    (forall v, in_range dim (concat ts) v -> agrees h v -> network A arrays ts v = network A bs us v) /\
    (forall v, in_range dim (concat ts) v -> ~ agrees h v -> network A arrays ts v = zero A).
Proof.
  intros S. induction S as [|a xs arrays ts Sa S IH]; intros W HN; cbn [decompose_all].
  - right. exists [], [], []. split; auto. split; auto. split; [constructor|]. split; auto. split; [intros y s []|]. split; [intros y s x []|]. split; auto.
    intros v _ H. exfalso. apply H. intros y s x [].
  - inversion W as [|? ? Wa W']; subst.
    destruct (decompose_ok A EQ (HN xs (or_introl eq_refl)) Wa Sa) as [[-> (x & Hx & D)]|(b & ys & h & -> & Wb & Sb & Nb & Ib & Kb & Hh & A1 & A2 & _)].
    { left. split; auto. exists x. split; auto. simpl. apply in_or_app. auto. }
    cbn [bind]. destruct (IH W') as [[-> (x & Hx & D)]|(bs & us & hs & -> & Ws & Ss & Is & Hs & Ad & B1 & B2)]; [intros; apply HN; right; auto| |].
    { left. split; auto. exists x. split; auto. simpl. apply in_or_app. auto. }
    right. cbn [bind]. exists (b :: bs), (ys :: us), (h ++ hs). split; auto. split; [constructor; auto|]. split; [constructor; auto|]. split; [constructor; auto|].
    assert (R1 : forall v, in_range dim (concat (xs :: ts)) v -> in_range dim xs v /\ in_range dim (concat ts) v) by (intros v V; split; intros z Hz; apply V; simpl; apply in_or_app; auto).
    split; [|split; [|split]].
    + intros y s Hi x Hx. simpl. rewrite !in_app_iff. apply in_app_or in Hi. destruct Hi as [Hi|Hi]; [destruct (Hh y s x Hi Hx); tauto|destruct (Hs y s Hi x Hx); tauto].
    + apply agrees_app. split; auto. intros y s x Hi Hx. apply (Hh y s x Hi Hx).
    + intros v V Hv. apply R1 in V. apply agrees_app in Hv. destruct V, Hv. rewrite !network_cons, A1, B1; auto.
    + intros v V Hv. apply R1 in V. destruct V as [V1 V2]. rewrite agrees_app in Hv. rewrite network_cons.
      destruct (agrees_dec h v) as [G|G]; [rewrite (B2 v V2) by tauto; ring|]. rewrite A2 by auto. ring.
Qed.

Lemma has_concat ts x : In x (concat ts) <-> exists t, has ts t x.
Proof.
  rewrite in_concat. unfold has. split.
  - intros (xs & H & Hx). apply In_nth_error in H. destruct H as (t & H). eauto.
  - intros (t & xs & H & Hx). apply nth_error_In in H. eauto.
Qed.

Theorem network_ok arrays ts : shaped dim arrays ts -> Forall well_shaped arrays -> (forall xs, In xs ts -> NoDup xs) ->
  (decompose_network A eqb arrays ts = Err Throw /\ exists t x, has ts t x /\ dim x = 0) \/
  exists bs us m, decompose_network A eqb arrays ts = Ok (bs, us, m) /\ Forall well_shaped bs /\ shaped dim bs us /\
    (forall t x, has us t x -> exists y, has ts t y /\ x = sent m y) /\
    (forall x, (exists y, dict_get m x = Ok y) <-> exists t, has ts t x) /\
    (forall t x, has ts t x -> (exists u, has ts u (sent m x)) /\ sent m (sent m x) = sent m x /\ dim (sent m x) = dim x) /\
    (forall v, (forall t x, has ts t x -> v x < dim x) -> identified ts m v -> network A arrays ts v = network A bs us v) /\
    (forall v, (forall t x, has ts t x -> v x < dim x) -> ~ identified ts m v -> network A arrays ts v = zero A).
Proof.
  intros S W HN. unfold decompose_network. cbv zeta.
  destruct (decompose_all_ok S W HN) as [[-> (x & Hx & D)]|(bs & us & h & -> & Ws & Ss & Is & Hs & Ad & B1 & B2)].
  { left. split; auto. apply has_concat in Hx. destruct Hx as (t & Hx). eauto. }
  right. cbn [bind]. set (all := iter (ofs (concat ts))). assert (AI : forall x, In x all <-> In x (concat ts)) by (intros x; apply unique_in).
  destruct (@colors_start all (unique_nodup _)) as [C0 V0]. set (i0 := combine _ _) in *. set (c0 := map (fun e => (snd e, ofs [fst e])) i0) in *.
  destruct (@merge_all_ok all (filter (fun e => negb (length (snd e) =? 0)) h) i0 c0 C0) as (i1 & c1 & E1 & C1 & V1).
  { intros y s Hi. apply filter_In in Hi. destruct Hi as [Hi L]. cbn [snd] in L. apply negb_true_iff, Nat.eqb_neq in L. destruct s as [|z s]; [simpl in L; lia|].
    split; [apply AI; apply (Hs y (z :: s) Hi z); left; auto|]. intros x Hx. apply AI. apply (Hs y (z :: s) Hi x Hx). }
  assert (SK : forall l st, merge_all st (filter (fun e => negb (length (snd e) =? 0)) l) = merge_all st l).
  { clear. induction l as [|(y, s) l IH]; intros st; auto. cbn [filter snd]. destruct (length s =? 0) eqn:E; cbn [negb merge_all].
    - rewrite IH. destruct st as (i, c). unfold merge_colors. rewrite E. auto.
    - destruct (merge_colors st (y, s)); cbn [bind]; auto. }
  rewrite SK in E1. rewrite E1. cbn [bind].
  assert (AF : forall v, agrees (filter (fun e => negb (length (snd e) =? 0)) h) v <-> agrees h v).
  { intros v. unfold agrees. split; intros H y s x Hi Hx; apply (H y s x); auto; [|apply filter_In in Hi; tauto]. apply filter_In. split; auto. destruct s; [destruct Hx|auto]. }
  destruct (map_ok C1) as (ms & -> & GM). cbn [bind]. set (m := dict_of (concat ms)) in *. set (r := rep i1 c1) in *.
  assert (SM : forall x, In x all -> sent m x = r x) by (intros x Hx; unfold sent; rewrite GM, (proj2 (memb_In _ _) Hx); auto).
  assert (UA : forall ys y, In ys us -> In y ys -> In y all).
  { intros ys y H Hy. destruct (forall2_in_l Is H) as (xs & Hxs & Hi). apply AI, in_concat. exists xs. auto. }
  assert (VS : mapM (mapM (dict_get m)) us = Ok (map (map r) us)).
  { apply P_PyPath.mapM_ok. intros ys Hys. apply P_PyPath.mapM_ok. intros y Hy. rewrite GM, (proj2 (memb_In _ _)); auto. apply (UA ys y Hys Hy). }
  rewrite VS. cbn [bind].
  assert (IDN : forall v, identified ts m v <-> agrees h v).
  { intros v. rewrite <- AF. transitivity (same_color i1 v); [|rewrite V1; split; [tauto|auto]]. rewrite (same_rep v C1). unfold identified. split.
    - intros H x Hx. fold r. rewrite <- SM by auto. apply AI, has_concat in Hx. destruct Hx as (t & Hx). eauto.
    - intros H t x Hx. assert (Hi : In x all) by (apply AI, has_concat; eauto). rewrite SM by auto. apply H. auto. }
  assert (DR : forall x, In x all -> dim (r x) = dim x).
  { intros x Hx. symmetry. revert x Hx. apply (same_rep dim C1). apply V1. split; [apply V0|apply AF; auto]. }
  exists bs, (map (map r) us), m. split; [reflexivity|]. split; auto. split; [|split; [|split; [|split; [|split]]]].
  - assert (F : forall (bs : list (nda K)) us, shaped dim bs us -> (forall ys y, In ys us -> In y ys -> In y all) -> shaped dim bs (map (map r) us)).
    { clear - DR. intros bs us S. induction S as [|b ys bs us Sb S IH]; intros H; simpl; constructor; [|apply IH; intros ys0 y Hy; apply H; right; auto].
      rewrite Sb, map_map. apply map_ext_in. intros y Hy. symmetry. apply DR. apply (H ys y); simpl; auto. }
    apply F; auto.
  - intros t x (zs & Hz & Hx). rewrite nth_error_map in Hz. destruct (nth_error us t) as [ys|] eqn:Ey; simpl in Hz; [|discriminate]. inversion Hz; subst zs.
    apply in_map_iff in Hx. destruct Hx as (y & <- & Hy). exists y. rewrite SM by (apply (UA ys y); auto; eapply nth_error_In; eauto). split; auto.
    assert (L : exists xs, nth_error ts t = Some xs /\ incl ys xs).
    { clear - Is Ey. revert t Ey. induction Is as [|a b l k Hab H IH]; intros [|t] E; simpl in *; try discriminate; [inversion E; subst; eauto|eauto]. }
    destruct L as (xs & Hxs & Hi). exists xs. auto.
  - intros x. rewrite GM, <- has_concat, <- AI. destruct (memb x all) eqn:E; [apply memb_In in E; split; eauto|]. apply memb_nIn in E. split; [intros (y & Hy); discriminate|tauto].
  - intros t x Hx. assert (Hi : In x all) by (apply AI, has_concat; eauto). rewrite (SM x Hi). destruct (rep_ok C1 Hi) as (R1 & R2 & _). fold r in R1, R2.
    split; [apply has_concat, AI; auto|]. split; [rewrite SM; auto|apply DR; auto].
  - intros v V Hv. assert (V' : in_range dim (concat ts) v) by (intros x Hx; apply has_concat in Hx; destruct Hx as (t & Hx); eauto).
    rewrite (B1 v V') by (apply IDN; auto).
    assert (RV : forall x, In x all -> v (r x) = v x).
    { intros x Hx. rewrite <- SM by auto. pose proof Hx as Hx'. apply AI, has_concat in Hx'. destruct Hx' as (t & Hx'). symmetry. apply (Hv t x Hx'). }
    clear - UA RV Ss. revert UA. induction Ss as [|b ys bs us Sb S IH]; intros UA; auto. cbn [map]. rewrite !network_cons. rewrite IH by (intros ys0 y Hy; apply UA; right; auto). f_equal.
    unfold entry_at. rewrite map_map. f_equal. apply map_ext_in. intros y Hy. symmetry. apply RV. apply (UA ys y); simpl; auto.
  - intros v V Hv. assert (V' : in_range dim (concat ts) v) by (intros x Hx; apply has_concat in Hx; destruct Hx as (t & Hx); eauto).
    apply (B2 v V'). intros H. apply Hv, IDN. auto.
Qed.
End Net.
