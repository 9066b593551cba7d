(** Lemmas about TensorNetwork objects and their tags. *)
From Coq Require Import List Arith NArith ZArith Lia Permutation Bool.
Import ListNotations.
From Verif Require Import P_Base P_Opt P_PyMain.
From Verif Require Import M_Base M_Path M_PyTree M_OSet M_Random M_Fuse M_Tensor M_Contract M_Decompose M_TnApp M_LoadTn.
From Verif Require Import S_Path S_PyTree S_Random S_Network S_Fuse S_Tensor S_Contract S_Decompose S_TnApp S_LoadTn.
From Verif Require Import P_Path P_Split P_PathMain P_PyBuild P_PyTens P_OSet P_Fuse P_Sum P_Contract P_Keeps P_TnApp.
From Verif Require Import M_Path M_PyTree.
Set Implicit Arguments.
Unset Strict Implicit.
Local Open Scope nat_scope.
Local Notation has := S_Random.has.

Section Tags.
Variable P : term -> option tag -> Prop.
Hypothesis PC : forall a b x y, P a x -> P b y -> P (C a b) (pair_tags x y) /\ P (C b a) (pair_tags x y).
Lemma fuse_tags_ok p : forall us l cs rest, perform us p = Some (cs, rest) -> Forall2 P us l -> exists l', fuse_tags p l = Ok l' /\ Forall2 P rest l'.
Proof.
  induction p as [|[x y] p IH]; intros us l cs rest H F; [cbn in *; inversion H; subst; eauto|].
  cbn [perform] in H. destruct (Nat.eqb_spec x y) as [|Hn]; [discriminate|].
  destruct (nth_error us x) as [a|] eqn:Ea; [|discriminate]. destruct (nth_error us y) as [b|] eqn:Eb; [|discriminate].
  destruct (perform _ p) as [[cs1 rest1]|] eqn:E; [|discriminate]. inversion H; subst. clear H.
  assert (NT : forall i c, nth_error us i = Some c -> exists t, nth_error l i = Some t /\ P c t).
  { clear -F. induction F as [|c t us l Hct F IH]; intros [|i] c' H; simpl in *; try discriminate; [inversion H; subst; eauto|eauto]. }
  destruct (NT _ _ Ea) as (ta & Ta & Pa). destruct (NT _ _ Eb) as (tb & Tb & Pb).
  cbn [fuse_tags]. destruct (sort2_spec Hn) as (lo & hi & Es & Hlt & Hc). rewrite Es.
  assert (J : forall x y, P a x -> P b y -> P (join a b) (pair_tags x y) /\ P (join a b) (pair_tags y x)).
  { intros x0 y0 H1 H2. unfold join. destruct (PC H1 H2), (PC H2 H1). destruct (_ <=? _); auto. }
  destruct (J _ _ Pa Pb) as [J1 J2].
  destruct Hc as [[-> ->]|[-> ->]].
  - destruct (pop_two Hlt Ta Tb) as (l1 & P1 & P2). rewrite P1. cbn [bind]. rewrite P2. cbn [bind]. eapply IH; eauto. apply Forall2_app; [apply forall2_without; auto|constructor; auto].
  - destruct (pop_two Hlt Tb Ta) as (l1 & P1 & P2). rewrite P1. cbn [bind]. rewrite P2. cbn [bind]. rewrite without_sym. eapply IH; eauto. apply Forall2_app; [apply forall2_without; auto|constructor; auto].
Qed.
End Tags.

Section LoadTn.
Variable K : Type.
Variable A : alg K.

Lemma make_tensor_facts inds dims (a : option (nda K)) t : make_tensor inds dims a = Ok t ->
  t_inds t = inds /\ t_array t = a /\ length (t_dims t) = length (t_inds t) /\ (forall d, In d (t_dims t) -> (1 <= d)%Z) /\ (forall b, t_array t = Some b -> t_dims t = map Z.of_nat (shape b)).
Proof.
  intros H. destruct (make_tensor_ok inds dims a) as [[E _]|(ds & E & G)]; [congruence|]. rewrite E in H. inversion H; subst. cbn [t_inds t_dims t_array].
  destruct G as (L & P & _ & _ & _ & S). auto 6.
Qed.

Lemma concat_inds n x : In x (concat (inds_of n)) <-> index_of (K := K) (n_list n) x.
Proof. unfold inds_of, index_of. rewrite <- flat_map_concat_map, in_flat_map. tauto. Qed.
Lemma has_index n x : (exists t, has (inds_of n) t x) <-> index_of (K := K) (n_list n) x.
Proof. rewrite has_concat. apply concat_inds. Qed.

(** What a built network satisfies. *)
Record facts (n : tnet K) : Prop := {
  f_dims : forall t, In t (n_list n) -> t_dims t = map (fun x => Z.of_nat (size n x)) (t_inds t);
  f_get : forall x d, dict_get (n_dims n) x = Ok d <-> In x (concat (inds_of n)) /\ d = Z.of_nat (size n x);
  f_pos : forall x, In x (concat (inds_of n)) -> 1 <= size n x;
  f_out : forall x, In x (n_out n) -> In x (concat (inds_of n));
  f_sparse : forall x, In x (n_sparse n) -> In x (concat (inds_of n));
  f_nout : NoDup (n_out n);
  f_nsparse : NoDup (n_sparse n);
  f_array : forall t a, In t (n_list n) -> t_array t = Some a -> shape a = map (size n) (t_inds t) /\ well_shaped a }.

Lemma built_facts n : built n -> facts n.
Proof.
  intros (ts & out & sparse & E & HT).
  assert (TF : forall t, In t ts -> length (t_dims t) = length (t_inds t) /\ (forall d, In d (t_dims t) -> (1 <= d)%Z) /\ (forall b, t_array t = Some b -> t_dims t = map Z.of_nat (shape b))).
  { intros t Ht. destruct (HT t Ht) as [(inds & dims & a & Et) _]. destruct (make_tensor_facts Et) as (_ & _ & H). auto. }
  assert (HL : forall t, In t ts -> length (t_dims t) = length (t_inds t)) by (intros t Ht; apply TF; auto).
  destruct (@make_network_ok K ts out sparse HL) as [[E' _]|(n' & E' & V & El & _ & _ & D & NO & IO & NS & IS)]; [congruence|]. rewrite E in E'. inversion E'; subst n'. clear E'.
  destruct V as ((dim & Hd) & _ & VO & VS). specialize (D dim Hd).
  assert (PD : forall x, index_of ts x -> (1 <= dim x)%Z).
  { intros x (t & Ht & Hx). destruct (TF t Ht) as (_ & P & _). rewrite (Hd t Ht) in P. apply P. apply in_map_iff. eauto. }
  assert (SZ : forall x, index_of ts x -> Z.of_nat (size n x) = dim x).
  { intros x Hx. unfold size. rewrite (proj2 (D x (dim x)) (conj Hx eq_refl)). specialize (PD x Hx). lia. }
  assert (CI : forall x, In x (concat (inds_of n)) <-> index_of ts x) by (intros x; rewrite concat_inds, El; tauto).
  assert (MD : forall t, In t ts -> t_dims t = map (fun x => Z.of_nat (size n x)) (t_inds t)).
  { intros t Ht. rewrite (Hd t Ht). apply map_ext_in. intros x Hx. symmetry. apply SZ. exists t. auto. }
  constructor; auto.
  - intros t Ht. rewrite El in Ht. auto.
  - intros x d. rewrite D, CI. split; intros [H1 ->]; (split; [auto|]); pose proof (SZ x H1); congruence.
  - intros x Hx. apply CI in Hx. pose proof (PD x Hx). pose proof (SZ x Hx). lia.
  - intros x Hx. apply CI. apply IO in Hx. destruct out as [o|]; [eapply VO; eauto|]. apply times_pos. lia.
  - intros x Hx. apply CI. apply IS in Hx. destruct Hx as (s & Es & Hs). eapply VS; eauto.
  - intros t a Ht Ha. rewrite El in Ht. split; [|apply (proj2 (HT t Ht)); auto]. destruct (TF t Ht) as (_ & _ & S). specialize (S a Ha). rewrite (MD t Ht) in S.
    revert S. generalize (shape a). generalize (t_inds t). induction l as [|x l IH]; intros [|k ks] S; cbn [map] in *; try discriminate; auto. inversion S. f_equal; auto. apply Nat2Z.inj. auto.
Qed.

Lemma mapM_get (X : Type) (d : list (nat * X)) f xs : (forall x, In x xs -> dict_get d x = Ok (f x)) -> mapM (dict_get d) xs = Ok (map f xs).
Proof. induction xs as [|x xs IH]; intros H; cbn [mapM map]; auto. rewrite (H x (or_introl eq_refl)). cbn [bind]. rewrite IH by (intros; apply H; right; auto). auto. Qed.

(** The last step: the tensors are made again. *)
Definition default_tag (t : option tag) : tag := match t with Some g => g | None => Empty end.
Lemma remake_ok n : facts n -> forall ts arrays tags, length arrays >= length ts -> length tags = length ts ->
  (forall x, In x (concat ts) -> In x (concat (inds_of n))) ->
  (forall i xs a, nth_error ts i = Some xs -> nth_error arrays i = Some (Some a) -> shape a = map (size n) xs /\ well_shaped a) ->
  exists Ts, remake (n_dims n) ts arrays tags = Ok (Ts, map default_tag tags) /\ map (@t_inds K) Ts = ts /\ map (@t_array K) Ts = firstn (length ts) arrays /\
    forall t, In t Ts -> (exists inds dims a, make_tensor inds dims a = Ok t) /\ (forall a, t_array t = Some a -> well_shaped a) /\ t_dims t = map (fun x => Z.of_nat (size n x)) (t_inds t).
Proof.
  intros FN. induction ts as [|xs ts IH]; intros [|a arrays] [|g tags] L1 L2 HI HA; cbn [length] in *; try lia; [exists []; cbn; split; auto; split; auto; split; auto; intros t []|exists []; cbn; split; auto; split; auto; split; auto; intros t []|].
  cbn [remake]. rewrite (@mapM_get Z (n_dims n) (fun x => Z.of_nat (size n x))) by (intros x Hx; apply (f_get FN); split; auto; apply HI; cbn [concat]; apply in_or_app; auto). cbn [bind].
  destruct (IH arrays tags) as (Ts & E & H1 & H2 & H3); [lia|lia|intros x Hx; apply HI; cbn [concat]; apply in_or_app; auto|intros i; apply (HA (S i))|].
  destruct (make_tensor_ok xs (DMany (map (fun x => Z.of_nat (size n x)) xs)) a) as [[_ N]|(ds & Em & G)].
  { exfalso. apply N. exists (map (fun x => Z.of_nat (size n x)) xs). split; [rewrite map_length; auto|]. split.
    { intros d Hd. apply in_map_iff in Hd. destruct Hd as (x & <- & Hx). assert (1 <= size n x); [|lia]. apply (f_pos FN). apply HI. cbn [concat]. apply in_or_app; auto. }
    split; [discriminate|]. split; [discriminate|]. split; [intros l El; inversion El; auto|].
    intros b ->. destruct (HA 0 xs b eq_refl eq_refl) as [S _]. rewrite S, map_map. auto. }
  assert (ED : ds = map (fun x => Z.of_nat (size n x)) xs) by (apply G; auto). rewrite Em. cbn [bind]. rewrite E. cbn [bind]. eexists. split; [reflexivity|]. cbn [map t_inds t_array firstn]. split; [congruence|]. split; [congruence|].
  intros t [<-|Ht]; [|apply H3; auto]. split; [eauto|]. cbn [t_array t_dims t_inds]. split; [|rewrite <- ED; auto]. intros b ->. apply (HA 0 xs b eq_refl eq_refl).
Qed.

Lemma rebuild n ts arrays tags out hyper fp : facts n -> length arrays >= length ts -> length tags = length ts ->
  (forall x, In x (concat ts) -> In x (concat (inds_of n))) ->
  (forall i xs a, nth_error ts i = Some xs -> nth_error arrays i = Some (Some a) -> shape a = map (size n) xs /\ well_shaped a) ->
  (forall x, In x out -> In x (concat ts)) -> (forall x, In x (n_sparse n) -> In x (concat ts)) ->
  exists n', (let! (Ts, gs) := remake (n_dims n) ts arrays tags in let! n' := make_network Ts (Some out) (Some (n_sparse n)) in Ok (mkO n' gs hyper fp)) = Ok (mkO n' (map default_tag tags) hyper fp) /\
    built n' /\ inds_of n' = ts /\ map (@t_array K) (n_list n') = firstn (length ts) arrays /\
    (forall x, In x (n_out n') <-> In x out) /\ (forall x, In x (n_sparse n') <-> In x (n_sparse n)) /\ (forall x, In x (concat ts) -> size n' x = size n x).
Proof.
  intros FN L1 L2 HI HA HO HSp. destruct (remake_ok FN L1 L2 HI HA) as (Ts & E & H1 & H2 & H3). rewrite E. cbn [bind].
  assert (HL : forall t, In t Ts -> length (t_dims t) = length (t_inds t)) by (intros t Ht; destruct (H3 t Ht) as (_ & _ & ->); apply map_length).
  assert (IX : forall x, index_of Ts x <-> In x (concat ts)) by (intros x; unfold index_of; rewrite <- H1, <- flat_map_concat_map, in_flat_map; tauto).
  assert (AG : agreed Ts (fun x => Z.of_nat (size n x))) by (intros t Ht; apply H3; auto).
  destruct (@make_network_ok K Ts (Some out) (Some (n_sparse n)) HL) as [[_ N]|(n' & E' & V & El & _ & _ & D & NO & IO & NS & IS)].
  { exfalso. apply N. split; [exists (fun x => Z.of_nat (size n x)); auto|]. split; [discriminate|]. split; intros o x Eo Hx; inversion Eo; subst; apply IX; auto. }
  rewrite E'. cbn [bind]. exists n'. split; auto. split; [exists Ts, (Some out), (Some (n_sparse n)); split; auto; intros t Ht; split; apply H3; auto|].
  split; [unfold inds_of; rewrite El; auto|]. split; [rewrite El; auto|]. split; auto. split.
  { intros x. rewrite IS. split; [intros (s & Es & Hs); inversion Es; subst; auto|eauto]. }
  intros x Hx. specialize (D _ AG x (Z.of_nat (size n x))). unfold size at 1. rewrite (proj2 D); [apply Nat2Z.id|]. split; auto. apply IX. auto.
Qed.

(** Sums with other dimensions. *)
Lemma sum_dim (dim dim' : nat -> nat) ks f : (forall k, In k ks -> dim k = dim' k) -> forall v, sum_over A dim ks f v = sum_over A dim' ks f v.
Proof.
  induction ks as [|k ks IH]; intros H v; cbn [sum_over]; auto. rewrite (H k (or_introl eq_refl)).
  assert (G : forall i, sum_over A dim ks f (assign v k i) = sum_over A dim' ks f (assign v k i)) by (intros i; apply IH; intros; apply H; right; auto).
  apply sum_upto_ext. intros i _. apply G.
Qed.
Lemma in_summed n x : In x (summed n) <-> In x (concat (inds_of n)) /\ ~ In x (n_out (K := K) n).
Proof.
  unfold summed. rewrite filter_In, nodup_In, negb_true_iff. split; intros [H1 H2]; split; auto.
  - intros Hx. assert (existsb (Nat.eqb x) (n_out n) = true); [|congruence]. apply existsb_exists. exists x. split; auto. apply Nat.eqb_refl.
  - destruct (existsb _ _) eqn:E; auto. exfalso. apply existsb_exists in E. destruct E as (y & Hy & E). apply Nat.eqb_eq in E. subst. auto.
Qed.
Lemma nodup_summed n : NoDup (summed (K := K) n).
Proof. apply NoDup_filter, NoDup_nodup. Qed.
End LoadTn.
