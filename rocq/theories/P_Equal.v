(** Tensor.__eq__ and TensorNetwork.__eq__. *)
From Coq Require Import List Arith ZArith Lia Bool.
Import ListNotations.
From Verif Require Import M_Base M_Path M_PyTree M_OSet M_Tensor M_TnApp M_Equal S_Tensor S_TnApp S_LoadTn S_Equal P_Base P_Split P_Array P_Decompose P_TnApp P_LoadTn P_Gates.
Set Implicit Arguments.
Unset Strict Implicit.

Lemma Forall2_length (X Y : Type) (P : X -> Y -> Prop) l k : Forall2 P l k -> length l = length k.
Proof. induction 1; simpl; auto. Qed.
Lemma eqb_inds_eq l : forall k, eqb_inds l k = true <-> l = k.
Proof.
  induction l as [|x l IH]; intros [|y k]; simpl; split; intros H; try discriminate; auto.
  - apply andb_true_iff in H. destruct H as [E H]. apply Nat.eqb_eq in E. apply IH in H. congruence.
  - inversion H; subst. rewrite Nat.eqb_refl. apply IH. auto.
Qed.
Lemma eqb_inds_sym l k : eqb_inds l k = eqb_inds k l.
Proof. destruct (eqb_inds l k) eqn:E, (eqb_inds k l) eqn:E'; auto; [apply eqb_inds_eq in E|apply eqb_inds_eq in E']; subst; [rewrite (proj2 (eqb_inds_eq k k) eq_refl) in E'|rewrite (proj2 (eqb_inds_eq l l) eq_refl) in E]; discriminate. Qed.
Lemma eqb_dims_sym l k : eqb_dims l k = eqb_dims k l.
Proof. destruct (eqb_dims l k) eqn:E, (eqb_dims k l) eqn:E'; auto; [apply eqb_dims_eq in E|apply eqb_dims_eq in E']; subst; [rewrite (proj2 (eqb_dims_eq k k) eq_refl) in E'|rewrite (proj2 (eqb_dims_eq l l) eq_refl) in E]; discriminate. Qed.

Lemma join_same s : join s s = Ok s.
Proof. induction s as [|d s IH]; simpl; auto. rewrite Nat.eqb_refl, IH. reflexivity. Qed.
Lemma join_sym s : forall t, join s t = join t s.
Proof.
  induction s as [|d s IH]; intros [|e t]; simpl; auto. rewrite IH. rewrite (Nat.eqb_sym e d). destruct (Nat.eqb_spec d e) as [->|N]; auto.
  destruct (Nat.eqb_spec d 1) as [->|N1]; auto. destruct (Nat.eqb_spec e 1) as [->|N2]; auto.
Qed.
Definition clashes (s t : list nat) : Prop :=
  exists i d e, nth_error s i = Some d /\ nth_error t i = Some e /\ d <> e /\ d <> 1 /\ e <> 1.
Lemma clashes_cons d e s t : clashes (d :: s) (e :: t) <-> (d <> e /\ d <> 1 /\ e <> 1) \/ clashes s t.
Proof.
  split.
  - intros (i & d' & e' & H1 & H2 & H). destruct i as [|i]; simpl in *; [inversion H1; inversion H2; subst; auto|]. right. exists i, d', e'. auto.
  - intros [H|(i & d' & e' & H1 & H2 & H)]; [exists 0, d, e; simpl; auto|exists (S i), d', e'; auto].
Qed.
Lemma clashes_nil_l t : ~ clashes [] t. Proof. intros (i & d & e & H & _). destruct i; discriminate. Qed.
Lemma clashes_nil_r t : ~ clashes t []. Proof. intros (i & d & e & _ & H & _). destruct i; discriminate. Qed.
Lemma join_spec s : forall t, (join s t = Err Throw /\ clashes s t) \/ (exists r, join s t = Ok r) /\ ~ clashes s t.
Proof.
  induction s as [|d s IH]; intros [|e t]; try (right; split; [eexists; reflexivity|auto using clashes_nil_l, clashes_nil_r]).
  simpl. destruct (Nat.eqb_spec d e) as [E|N].
  - destruct (IH t) as [[J C]|[[r J] C]]; rewrite J; cbn [bind]; [left|right]; (split; [solve [eauto]|rewrite clashes_cons; tauto]).
  - destruct (Nat.eqb_spec d 1) as [E1|N1].
    + destruct (IH t) as [[J C]|[[r J] C]]; rewrite J; cbn [bind]; [left|right]; (split; [solve [eauto]|rewrite clashes_cons; tauto]).
    + destruct (Nat.eqb_spec e 1) as [E2|N2].
      * destruct (IH t) as [[J C]|[[r J] C]]; rewrite J; cbn [bind]; [left|right]; (split; [solve [eauto]|rewrite clashes_cons; tauto]).
      * left. split; auto. rewrite clashes_cons. auto.
Qed.
Lemma broadcast_same s : broadcast s s = Ok s.
Proof. unfold broadcast. rewrite join_same. cbn [bind]. rewrite rev_involutive. reflexivity. Qed.
Lemma broadcast_sym s t : broadcast s t = broadcast t s.
Proof. unfold broadcast. rewrite join_sym. reflexivity. Qed.
Lemma broadcast_spec s t : (broadcast s t = Err Throw /\ clash s t) \/ (exists r, broadcast s t = Ok r) /\ ~ clash s t.
Proof. unfold broadcast. destruct (join_spec (rev s) (rev t)) as [[J C]|[[r J] C]]; rewrite J; cbn [bind]; [left|right]; split; eauto. Qed.

Lemma at_same s : forall ix, valid s ix -> at_shape s ix = ix.
Proof.
  intros ix V. unfold at_shape. rewrite <- (Forall2_length V), Nat.sub_diag, skipn_O.
  induction V as [|i d ix s L V IH]; simpl; auto. rewrite IH. destruct (Nat.eqb_spec d 1); f_equal; lia.
Qed.

Section Tensors.
Variable K : Type.
Variable A : alg K.
Variable sub : K -> K -> K.
Variable small : K -> bool.
Notation tensor := M_TnApp.tensor.
Notation eq_tensor := (eq_tensor A sub small).
Notation alike := (alike A sub small).

Lemma made_dims (t : tensor K) a : made t -> t_array t = Some a -> t_dims t = map Z.of_nat (shape a).
Proof.
  intros [(inds & dims & a' & M) _] E. destruct (make_tensor_ok inds dims a') as [[F _]|(ds & F & D)]; rewrite M in F; [discriminate|].
  inversion F; subst t. simpl in *. destruct D as (_ & _ & _ & _ & _ & D). apply D. auto.
Qed.
Lemma map_of_nat_inj l : forall k, map Z.of_nat l = map Z.of_nat k -> l = k.
Proof. induction l as [|x l IH]; intros [|y k] H; simpl in *; try discriminate; auto. inversion H. f_equal; [lia|auto]. Qed.
Lemma made_shapes (t u : tensor K) a b : made t -> made u -> t_array t = Some a -> t_array u = Some b -> t_dims t = t_dims u -> shape a = shape b.
Proof. intros Mt Mu Ea Eb E. rewrite (made_dims Mt Ea), (made_dims Mu Eb) in E. apply map_of_nat_inj. auto. Qed.

Lemma rest_true (t u : tensor K) : eqb_inds (t_inds t) (t_inds u) && eqb_dims (t_dims t) (t_dims u) = true <-> t_inds t = t_inds u /\ t_dims t = t_dims u.
Proof. rewrite andb_true_iff, eqb_inds_eq, eqb_dims_eq. tauto. Qed.

Lemma subtract_same (a b : nda K) : shape a = shape b ->
  exists d, subtract A sub a b = Ok d /\ (forallb small (data d) = true <-> forall ix, place_in (shape a) ix -> small (sub (entry A a ix) (entry A b ix)) = true).
Proof.
  intros E. unfold subtract. rewrite <- E, broadcast_same. eexists. split; [reflexivity|]. cbn [data]. rewrite forallb_forall. split; intros H.
  - intros ix V. specialize (H (sub (entry A a ix) (entry A b ix))). apply H. apply in_map_iff. exists ix. split; [|apply valid_indices; auto]. rewrite at_same by auto. auto.
  - intros x I. apply in_map_iff in I. destruct I as (ix & <- & I). apply indices_valid in I. rewrite at_same by auto. auto.
Qed.

Lemma eq_tensor_true (t u : tensor K) : made t -> made u -> (eq_tensor t u = Ok true <-> alike t u).
Proof.
  intros Mt Mu. unfold M_Equal.eq_tensor, S_Equal.alike. destruct (t_array t) as [a|] eqn:Ea, (t_array u) as [b|] eqn:Eb.
  - split.
    + intros H. destruct (subtract A sub a b) as [d|] eqn:D; cbn [bind] in H; [|discriminate]. destruct (forallb small (data d)) eqn:F; cbn [negb] in H; [|discriminate].
      injection H as H. apply rest_true in H. destruct H as [HI HD]. pose proof (made_shapes Mt Mu Ea Eb HD) as S. destruct (subtract_same S) as (d' & D' & C). rewrite D in D'. injection D' as <-.
      split; auto. split; auto. split; auto. apply C. auto.
    + intros (HI & HD & S & C). destruct (subtract_same S) as (d & D & F). rewrite D. cbn [bind]. rewrite (proj2 F C). cbn [negb]. f_equal. apply rest_true. auto.
  - split; [discriminate|tauto].
  - split; [discriminate|tauto].
  - split; [intros H; injection H as H; apply rest_true in H; tauto|intros (HI & HD & _); f_equal; apply rest_true; auto].
Qed.
Lemma eq_tensor_err t u e : eq_tensor t u = Err e <-> e = Throw /\ incomparable t u.
Proof.
  unfold M_Equal.eq_tensor, incomparable. destruct (t_array t) as [a|] eqn:Ea, (t_array u) as [b|] eqn:Eb.
  - unfold subtract. destruct (broadcast_spec (shape a) (shape b)) as [[J C]|[[r J] C]]; rewrite J; cbn [bind].
    + split; [intros H; injection H as <-; split; auto; exists a, b; auto|intros [-> _]; auto].
    + destruct (negb _); (split; [discriminate|]); intros (_ & a' & b' & E & E' & C'); injection E as <-; injection E' as <-; contradiction.
  - split; [discriminate|intros (_ & a' & b' & _ & E & _); discriminate].
  - split; [discriminate|intros (_ & a' & b' & E & _); discriminate].
  - split; [discriminate|intros (_ & a' & b' & E & _); discriminate].
Qed.
Lemma clash_irrefl s : ~ clash s s. Proof. intros (i & d & e & H & H' & N & _). congruence. Qed.

(** ** The answers for tensors *)
Lemma tensors_compared t u : made t -> made u ->
  (incomparable t u -> eq_tensor t u = Err Throw) /\
  (~ incomparable t u -> exists b, eq_tensor t u = Ok b /\ (b = true <-> alike t u)) /\
  (t_dims t = t_dims u -> ~ incomparable t u).
Proof.
  intros Mt Mu. split; [intros I; apply eq_tensor_err; auto|]. split.
  - intros N. destruct (eq_tensor t u) as [b|e] eqn:E.
    + exists b. split; auto. rewrite <- (eq_tensor_true Mt Mu), E. split; [congruence|intros H; injection H; auto].
    + apply eq_tensor_err in E. tauto.
  - intros E (a & b & Ea & Eb & C). rewrite (made_shapes Mt Mu Ea Eb E) in C. apply (clash_irrefl C).
Qed.
Lemma tensors_sym t u : (forall x y, small (sub x y) = small (sub y x)) -> eq_tensor t u = eq_tensor u t.
Proof.
  intros S. unfold M_Equal.eq_tensor. rewrite (eqb_inds_sym (t_inds u)), (eqb_dims_sym (t_dims u)).
  destruct (t_array t) as [a|], (t_array u) as [b|]; auto. unfold subtract. rewrite (broadcast_sym (shape b)). destruct (broadcast (shape a) (shape b)) as [sh|]; cbn [bind data]; auto.
  assert (E : forall l : list (list nat), forallb small (map (fun ix => sub (entry A a (at_shape (shape a) ix)) (entry A b (at_shape (shape b) ix))) l) =
    forallb small (map (fun ix => sub (entry A b (at_shape (shape b) ix)) (entry A a (at_shape (shape a) ix))) l)).
  { induction l as [|ix l IH]; simpl; auto. rewrite IH, S. auto. }
  rewrite E. auto.
Qed.
Lemma tensors_refl t : made t -> (eq_tensor t t = Ok true <-> forall a x, t_array t = Some a -> In x (data a) -> small (sub x x) = true).
Proof.
  intros M. rewrite (eq_tensor_true M M). unfold S_Equal.alike. destruct (t_array t) as [a|] eqn:Ea; [|split; [discriminate|tauto]].
  pose proof (proj2 M a Ea) as W. split.
  - intros (_ & _ & _ & H) a' x E I. injection E as <-. apply (In_nth _ _ (zero A)) in I. destruct I as (k & L & <-). rewrite W in L.
    destruct (@ravel_onto (shape a) k L) as (ix & V & <-). apply (H ix V).
  - intros H. split; auto. split; auto. split; auto. intros ix V. apply (H a); auto. unfold entry. apply nth_In. rewrite W. apply ravel_lt. auto.
Qed.

Lemma entries_same (a b : nda K) : well_shaped a -> well_shaped b -> shape a = shape b -> (forall ix, place_in (shape a) ix -> entry A a ix = entry A b ix) -> a = b.
Proof.
  intros Wa Wb S H. destruct a as [sh da], b as [sh' db]. unfold well_shaped in *. simpl in *. subst sh'. f_equal. apply nth_ext with (d := zero A) (d' := zero A); [congruence|].
  intros k L. rewrite Wa in L. destruct (@ravel_onto sh k L) as (ix & V & <-). apply (H ix V).
Qed.
Lemma tensors_exact t u : (forall x y, small (sub x y) = true <-> x = y) -> made t -> made u -> (eq_tensor t u = Ok true <-> t = u).
Proof.
  intros X Mt Mu. rewrite (eq_tensor_true Mt Mu). unfold S_Equal.alike. split.
  - destruct t as [it dt at'], u as [iu du au]. simpl. pose proof (proj2 Mt) as Wt. pose proof (proj2 Mu) as Wu. simpl in *. intros (-> & -> & H). f_equal.
    destruct at' as [a|], au as [b|]; try tauto. destruct H as [S H]. f_equal. apply entries_same; auto. intros ix V. apply X. auto.
  - intros <-. split; auto. split; auto. destruct (t_array t) as [a|]; auto. split; auto. intros ix _. apply X. auto.
Qed.

(** ** Networks *)
Variable G : Type.
Variable eq_tags : G -> G -> bool.
Notation network := (M_Equal.network K G).
Notation eq_network := (eq_network A sub small eq_tags).
Notation eq_tuple := (eq_tuple A sub small).

Definition faces (l k : list (nat * tensor K)) (p : nat) (x y : nat * tensor K) : Prop := nth_error l p = Some x /\ nth_error k p = Some y.
Definition passes (x y : nat * tensor K) : Prop := fst x = fst y \/ alike (snd x) (snd y).
Lemma eq_tuple_true l : forall k, (forall x, In x l -> made (snd x)) -> (forall y, In y k -> made (snd y)) ->
  (eq_tuple l k = Ok true <-> Forall2 passes l k).
Proof.
  induction l as [|x l IH]; intros [|y k] Ml Mk; simpl; (split; [|intros F; inversion F; subst]); try discriminate; auto.
  - intros H. destruct (Nat.eqb_spec (fst x) (fst y)) as [E|N]; cbn [bind] in H.
    + constructor; [left; auto|]. apply IH; auto. intros z I; apply Ml; right; auto. intros z I; apply Mk; right; auto.
    + destruct (eq_tensor (snd x) (snd y)) as [[|]|] eqn:E; cbn [bind] in H; try discriminate. constructor; [right; apply eq_tensor_true; auto; [apply Ml|apply Mk]; left; auto|].
      apply IH; auto. intros z I; apply Ml; right; auto. intros z I; apply Mk; right; auto.
  - assert (R : eq_tuple l k = Ok true) by (apply IH; auto; [intros z I; apply Ml; right; auto|intros z I; apply Mk; right; auto]).
    destruct (Nat.eqb_spec (fst x) (fst y)) as [E|N]; cbn [bind]; auto.
    destruct H2 as [E|L]; [contradiction|]. apply eq_tensor_true in L; [|apply Ml; left; auto|apply Mk; left; auto]. rewrite L. cbn [bind]. auto.
Qed.
Lemma eq_tuple_err l : forall k e, (forall x, In x l -> made (snd x)) -> (forall y, In y k -> made (snd y)) ->
  (eq_tuple l k = Err e <-> e = Throw /\ exists p x y, faces l k p x y /\ fst x <> fst y /\ incomparable (snd x) (snd y) /\
     forall q x' y', q < p -> faces l k q x' y' -> passes x' y').
Proof.
  unfold faces. induction l as [|x l IH]; intros [|y k] e Ml Mk; simpl.
  1-3: split; [discriminate|intros (_ & p & x' & y' & (H & H') & _); destruct p; discriminate].
  assert (Ml' : forall z, In z l -> made (snd z)) by (intros z I; apply Ml; right; auto).
  assert (Mk' : forall z, In z k -> made (snd z)) by (intros z I; apply Mk; right; auto).
  assert (Mx : made (snd x)) by (apply Ml; left; auto). assert (My : made (snd y)) by (apply Mk; left; auto).
  assert (R : (fst x = fst y \/ alike (snd x) (snd y)) -> (eq_tuple l k = Err e <-> e = Throw /\ exists p x' y', (nth_error (x :: l) p = Some x' /\ nth_error (y :: k) p = Some y') /\ fst x' <> fst y' /\ incomparable (snd x') (snd y') /\
     forall q x'' y'', q < p -> nth_error (x :: l) q = Some x'' /\ nth_error (y :: k) q = Some y'' -> passes x'' y'')).
  { intros P. rewrite (IH k e Ml' Mk'). split; intros (-> & p & x' & y' & F & N & I & B); (split; [auto|]).
    - exists (S p), x', y'. split; auto. split; auto. split; auto. intros [|q] x'' y'' L [E E']; simpl in E, E'; [injection E as <-; injection E' as <-; auto|]. apply (B q); auto. lia.
    - destruct p as [|p]; simpl in F.
      + destruct F as [E E']. injection E as <-; injection E' as <-. destruct P as [P|P]; [contradiction|]. destruct P as (_ & D & _). exfalso. apply (proj2 (proj2 (tensors_compared Mx My)) D). auto.
      + exists p, x', y'. split; auto. split; auto. split; auto. intros q x'' y'' L Q. apply (B (S q)); auto. lia. }
  destruct (Nat.eqb_spec (fst x) (fst y)) as [E|N]; cbn [bind]; [apply R; auto|].
  destruct (eq_tensor (snd x) (snd y)) as [[|]|e'] eqn:E; cbn [bind].
  - apply R. right. apply eq_tensor_true; auto.
  - split; [discriminate|]. intros (-> & p & x' & y' & F & N' & I & B). exfalso. destruct p as [|p].
    + destruct F as [F F']. simpl in F, F'. injection F as <-; injection F' as <-. assert (H : eq_tensor (snd x) (snd y) = Err Throw) by (apply eq_tensor_err; auto). congruence.
    + destruct (B 0 x y) as [H|H]; [lia|auto|contradiction|]. apply eq_tensor_true in H; auto. congruence.
  - apply eq_tensor_err in E. destruct E as [-> I]. split; [intros H; injection H as <-; split; auto; exists 0, x, y; split; auto; split; auto; split; auto; intros q ? ? L; lia|intros [-> _]; auto].
Qed.

Lemma built_made (n : tnet K) : built n -> forall t, In t (n_list n) -> made t.
Proof.
  intros (ts & out & sparse & E & H) t I. assert (L : n_list n = ts); [|rewrite L in I; apply H; auto].
  unfold make_network in E. destruct (negb _); [discriminate|]. destruct (match out with Some _ => _ | None => _ end); cbn [bind] in E; [|discriminate]. destruct (negb _); [discriminate|]. destruct (negb _); [discriminate|]. injection E as <-. reflexivity.
Qed.
Lemma built_dims (n m : tnet K) : built n -> built m -> n_list n = n_list m -> n_dims n = n_dims m.
Proof.
  assert (F : forall n : tnet K, built n -> n_dims n = dict_of (flat_map (fun t => combine (t_inds t) (t_dims t)) (n_list n))).
  { clear. intros n (ts & out & sparse & E & _). unfold make_network in E. destruct (negb _); [discriminate|]. destruct (match out with Some _ => _ | None => _ end); cbn [bind] in E; [|discriminate]. destruct (negb _); [discriminate|]. destruct (negb _); [discriminate|]. injection E as <-. reflexivity. }
  intros Bn Bm E. rewrite (F n Bn), (F m Bm), E. auto.
Qed.
Lemma eq_set_true l k : NoDup l -> NoDup k -> (eq_set l k = true <-> forall x, In x l <-> In x k).
Proof.
  intros Nl Nk. unfold eq_set, subset. rewrite andb_true_iff, forallb_forall, Nat.eqb_eq. split.
  - intros [L I] x. assert (I' : incl l k) by (intros y Y; apply memb_In; auto). split; [apply I'|]. apply (NoDup_length_incl Nl); [lia|auto].
  - intros H. split; [apply Nat.le_antisymm; apply NoDup_incl_length; auto; intros x; apply H|]. intros x I. apply memb_In. apply H. auto.
Qed.
Lemma in_objects mem (n : network) x : in_memory mem n -> In x (objects n) -> made (snd x).
Proof. intros [B _] I. apply (built_made B). destruct x as [i t]. apply in_combine_r in I. auto. Qed.
Lemma nth_combine (X Y : Type) (l : list X) : forall (k : list Y) p x y, nth_error (combine l k) p = Some (x, y) <-> nth_error l p = Some x /\ nth_error k p = Some y.
Proof.
  induction l as [|a l IH]; intros [|b k] [|p] x y; simpl; try (split; [discriminate|intros [? ?]; discriminate]); [|apply IH].
  split; [intros H; injection H as <- <-; auto|intros [H H']; congruence].
Qed.
Lemma Forall2_nth (X : Type) (P : X -> X -> Prop) (l : list X) : forall k, Forall2 P l k <-> length l = length k /\ forall p x y, nth_error l p = Some x -> nth_error k p = Some y -> P x y.
Proof.
  induction l as [|a l IH]; intros [|b k]; split; intros H; try (inversion H; fail); try (destruct H as [H _]; discriminate); auto.
  - split; auto. intros [|p] x y E; discriminate.
  - inversion H; subst. apply IH in H5. destruct H5 as [L F]. split; [simpl; auto|]. intros [|p] x y E E'; simpl in *; [congruence|eauto].
  - destruct H as [L F]. constructor; [apply (F 0); auto|]. apply IH. split; [simpl in L; lia|]. intros p x y E E'. apply (F (S p)); auto.
Qed.
Lemma objects_length mem (n : network) : in_memory mem n -> length (objects n) = length (n_list (w_net n)).
Proof. intros [_ F]. unfold objects. rewrite combine_length, (Forall2_length F). lia. Qed.

Lemma networks_true mem n m : in_memory mem n -> in_memory mem m ->
  (eq_network n m = Ok true <-> alike_networks A sub small n m /\ eq_tags (w_tags n) (w_tags m) = true).
Proof.
  intros Hn Hm. pose proof (built_facts (proj1 Hn)) as Fn. pose proof (built_facts (proj1 Hm)) as Fm.
  pose proof (@eq_tuple_true (objects n) (objects m) (fun x => in_objects Hn (x := x)) (fun x => in_objects Hm (x := x))) as T.
  pose proof (eq_set_true (f_nout Fn) (f_nout Fm)) as O. pose proof (eq_set_true (f_nsparse Fn) (f_nsparse Fm)) as S.
  assert (P : Forall2 passes (objects n) (objects m) <-> length (n_list (w_net n)) = length (n_list (w_net m)) /\ (forall k i j t u, facing n m k i j t u -> i = j \/ alike t u)).
  { rewrite Forall2_nth, (objects_length Hn), (objects_length Hm). unfold objects, facing, passes. split; intros [L F]; (split; [auto|]).
    - intros k i j t u (H1 & H2 & H3 & H4). apply (F k (i, t) (j, u)); apply nth_combine; auto.
    - intros p [i t] [j u] E E'. apply nth_combine in E. apply nth_combine in E'. apply (F p); tauto. }
  unfold M_Equal.eq_network, alike_networks. split.
  - intros H. destruct (eq_tuple (objects n) (objects m)) as [b|] eqn:E; cbn [bind] in H; [|discriminate]. injection H as H. rewrite !andb_true_iff in H. destruct H as [[[-> H1] H2] H3].
    pose proof (proj1 O H1). pose proof (proj1 S H2). destruct (proj1 P (proj1 T eq_refl)). auto.
  - intros ((L & F & H1 & H2) & H3). rewrite (proj2 T (proj2 P (conj L F))). cbn [bind]. rewrite (proj2 O H1), (proj2 S H2), H3. auto.
Qed.
Lemma networks_err mem n m e : in_memory mem n -> in_memory mem m ->
  (eq_network n m = Err e <-> e = Throw /\ exists k i j t u, facing n m k i j t u /\ i <> j /\ incomparable t u /\
     forall k' i' j' t' u', k' < k -> facing n m k' i' j' t' u' -> i' = j' \/ alike t' u').
Proof.
  intros Hn Hm. pose proof (@eq_tuple_err (objects n) (objects m) e (fun x => in_objects Hn (x := x)) (fun x => in_objects Hm (x := x))) as T.
  assert (Q : eq_network n m = Err e <-> eq_tuple (objects n) (objects m) = Err e). { unfold M_Equal.eq_network. destruct (eq_tuple (objects n) (objects m)); cbn [bind]; split; congruence. }
  rewrite Q, T. unfold faces, objects, facing, passes. split; intros (-> & H); (split; [auto|]).
  - destruct H as (p & [i t] & [j u] & (E & E') & N & I & B). apply nth_combine in E. apply nth_combine in E'. exists p, i, j, t, u. split; [tauto|]. split; auto. split; auto.
    intros k' i' j' t' u' L (H1 & H2 & H3 & H4). apply (B k' (i', t') (j', u')); auto. split; apply nth_combine; auto.
  - destruct H as (k & i & j & t & u & (H1 & H2 & H3 & H4) & N & I & B). exists k, (i, t), (j, u). split; [split; apply nth_combine; auto|]. split; auto. split; auto.
    intros q [i' t'] [j' u'] L [E E']. apply nth_combine in E. apply nth_combine in E'. apply (B q); tauto.
Qed.
Lemma networks_compared mem n m : in_memory mem n -> in_memory mem m -> Forall2 (fun t u => t_dims t = t_dims u) (n_list (w_net n)) (n_list (w_net m)) ->
  exists b, eq_network n m = Ok b /\ (b = true <-> alike_networks A sub small n m /\ eq_tags (w_tags n) (w_tags m) = true).
Proof.
  intros Hn Hm D. destruct (eq_network n m) as [b|e] eqn:E.
  - exists b. split; auto. rewrite <- (networks_true Hn Hm), E. split; [congruence|intros H; injection H; auto].
  - apply (networks_err e Hn Hm) in E. destruct E as (_ & k & i & j & t & u & (_ & _ & H1 & H2) & _ & I & _). exfalso. apply Forall2_nth in D. destruct D as [_ D].
    assert (M1 : made t) by (apply (built_made (proj1 Hn)); eapply nth_error_In; eauto). assert (M2 : made u) by (apply (built_made (proj1 Hm)); eapply nth_error_In; eauto).
    apply (proj2 (proj2 (tensors_compared M1 M2)) (D _ _ _ H1 H2)). auto.
Qed.
Lemma network_itself mem n : in_memory mem n -> eq_tags (w_tags n) (w_tags n) = true -> eq_network n n = Ok true.
Proof.
  intros Hn T. apply (networks_true Hn Hn). split; auto. split; auto. split; [|split; tauto]. intros k i j t u (H1 & H2 & _). left. congruence.
Qed.
Lemma Forall2_at (X Y : Type) (P : X -> Y -> Prop) l k : Forall2 P l k -> forall p y, nth_error k p = Some y -> exists x, nth_error l p = Some x /\ P x y.
Proof. induction 1 as [|x y l k H F IH]; intros [|p] z E; simpl in *; try discriminate; eauto. injection E as <-. eauto. Qed.
Lemma networks_exact mem n m l : (forall x y, small (sub x y) = true <-> x = y) -> in_memory mem n -> in_memory mem m -> eq_network n m = Ok true ->
  arrays_are (w_net n) l -> n_list (w_net m) = n_list (w_net n) /\ arrays_are (w_net m) l /\ n_dims (w_net m) = n_dims (w_net n) /\ forall v, value A (w_net m) l v = value A (w_net n) l v.
Proof.
  intros X Hn Hm E L. apply (networks_true Hn Hm) in E. destruct E as [(Ln & F & O & _) _].
  assert (EL : n_list (w_net m) = n_list (w_net n)).
  { destruct Hn as [Bn Mn], Hm as [Bm Mm]. apply nth_error_ext. intros p.
    destruct (nth_error (n_list (w_net m)) p) as [u|] eqn:Eu, (nth_error (n_list (w_net n)) p) as [t|] eqn:Et; auto.
    2: { exfalso. apply nth_error_None in Et. assert (p < length (n_list (w_net m))) by (apply nth_error_Some; congruence). lia. }
    2: { exfalso. apply nth_error_None in Eu. assert (p < length (n_list (w_net n))) by (apply nth_error_Some; congruence). lia. }
    destruct (Forall2_at Mn Et) as (i & Ei & Mi). destruct (Forall2_at Mm Eu) as (j & Ej & Mj). f_equal.
    destruct (F p i j t u) as [<-|Q]; [repeat split; auto|congruence|]. symmetry. apply (tensors_exact X); [apply (built_made Bn); eapply nth_error_In; eauto|apply (built_made Bm); eapply nth_error_In; eauto|].
    apply eq_tensor_true; auto; [apply (built_made Bn)|apply (built_made Bm)]; eapply nth_error_In; eauto. }
  assert (D : n_dims (w_net m) = n_dims (w_net n)) by (apply built_dims; auto; [apply Hm|apply Hn]).
  split; auto. split; [unfold arrays_are; rewrite EL; auto|]. split; auto. intros v. unfold value.
  assert (I : inds_of (w_net m) = inds_of (w_net n)) by (unfold inds_of; rewrite EL; auto).
  assert (Z : size (w_net m) = size (w_net n)) by (unfold size; rewrite D; auto).
  assert (U : summed (w_net m) = summed (w_net n)).
  { unfold summed. rewrite I. apply filter_ext. intros x. f_equal. apply eq_true_iff_eq. rewrite !existsb_exists.
    split; intros (y & H & E); exists y; (split; [apply O; auto|auto]). }
  rewrite I, Z, U. auto.
Qed.
End Tensors.
