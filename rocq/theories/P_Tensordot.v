(** tensordot computes the pairwise einsum. *)
From Coq Require Import List Arith Lia Permutation Ring Bool.
Import ListNotations.
From Verif Require Import M_Base M_Path M_PyTree M_OSet M_Tensor S_Tensor P_Base P_Path P_Split P_PathMain P_PyBuild P_PyTens P_PyMain P_OSet P_Sum P_Array P_RandColor P_RandLoop P_RandComp P_RandMain.
Set Implicit Arguments.
Unset Strict Implicit.

Definition hlist (hyper : list nat) := unique hyper.
Definition slist (xs ys hyper : list nat) := filter (fun x => negb (memb x hyper)) (filter (fun x => memb x ys) xs).
Definition only (xs ys : list nat) := filter (fun x => negb (memb x ys)) xs.

Lemma memb_unique x l : memb x (unique l) = memb x l.
Proof. apply eq_true_iff_eq. rewrite !memb_In. apply unique_in. Qed.
Lemma filter_ext_l (f g : nat -> bool) l : (forall x, In x l -> f x = g x) -> filter f l = filter g l.
Proof. induction l as [|x l IH]; intros H; auto. simpl. rewrite (H x) by (left; auto). rewrite IH by (intros; apply H; right; auto). auto. Qed.

Lemma group_ok xs ys hyper : NoDup xs -> NoDup ys ->
  group (ofs xs) (ofs ys) hyper = if forallb (fun x => memb x xs && memb x ys) hyper
    then Ok (mkG (mkO (hlist hyper)) (mkO (slist xs ys hyper)) (mkO (only xs ys)) (mkO (only ys xs))) else Err Throw.
Proof.
  intros Nx Ny. unfold group. cbv zeta. unfold issuperset, intersection, difference. simpl. unfold ofs. simpl.
  rewrite (unique_id Nx), (unique_id Ny).
  assert (NB : NoDup (filter (fun x => memb x ys) xs)) by (apply NoDup_filter'; auto).
  rewrite (unique_id NB).
  assert (E : forallb (fun x => memb x (filter (fun x0 => memb x0 ys) xs)) (unique hyper) = forallb (fun x => memb x xs && memb x ys) hyper).
  { apply eq_true_iff_eq. rewrite !forallb_forall. split; intros H x Hx.
    - specialize (H x). rewrite unique_in, memb_In, filter_In in H. apply H in Hx. rewrite memb_In in Hx. rewrite andb_true_iff, !memb_In. auto.
    - rewrite unique_in in Hx. apply H in Hx. rewrite andb_true_iff, !memb_In in Hx. rewrite memb_In, filter_In, memb_In. auto. }
  rewrite E. destruct (forallb _ hyper); cbn [negb]; auto. f_equal. f_equal; f_equal.
  - rewrite unique_id by (apply NoDup_filter'; auto). unfold slist. apply filter_ext_l. intros x _. rewrite memb_unique. auto.
  - rewrite unique_id by (apply NoDup_filter'; auto). apply filter_ext_l. intros x Hx. f_equal. apply eq_true_iff_eq. rewrite !memb_In, filter_In, memb_In. tauto.
  - rewrite unique_id by (apply NoDup_filter'; auto). apply filter_ext_l. intros x Hx. f_equal. apply eq_true_iff_eq. rewrite !memb_In, filter_In, memb_In. tauto.
Qed.

Section Dot.
Variable K : Type.
Variable A : alg K.
Hypothesis SR : semiring A.
Variable dim : nat -> nat.
Variables xs ys hyper : list nat.
Hypothesis Nx : NoDup xs.
Hypothesis Ny : NoDup ys.
Hypothesis Hh : forall x, In x hyper -> In x xs /\ In x ys.
Let hs := hlist hyper.
Let ss := slist xs ys hyper.
Let ox := only xs ys.
Let oy := only ys xs.

Lemma in_hs x : In x hs <-> In x hyper.
Proof. apply unique_in. Qed.
Lemma in_ss x : In x ss <-> In x xs /\ In x ys /\ ~ In x hyper.
Proof. unfold ss, slist. rewrite !filter_In, negb_true_iff, memb_nIn, memb_In. tauto. Qed.
Lemma in_ox x : In x ox <-> In x xs /\ ~ In x ys.
Proof. unfold ox, only. rewrite filter_In, negb_true_iff, memb_nIn. tauto. Qed.
Lemma in_oy x : In x oy <-> In x ys /\ ~ In x xs.
Proof. unfold oy, only. rewrite filter_In, negb_true_iff, memb_nIn. tauto. Qed.
Lemma n_hs : NoDup hs. Proof. apply unique_nodup. Qed.
Lemma n_ss : NoDup ss. Proof. apply NoDup_filter', NoDup_filter'; auto. Qed.
Lemma n_ox : NoDup ox. Proof. apply NoDup_filter'; auto. Qed.
Lemma n_oy : NoDup oy. Proof. apply NoDup_filter'; auto. Qed.
Lemma nodup3 (a b c : list nat) : NoDup a -> NoDup b -> NoDup c -> (forall x, In x a -> ~ In x b) -> (forall x, In x a -> ~ In x c) -> (forall x, In x b -> ~ In x c) -> NoDup (a ++ b ++ c).
Proof.
  intros. apply NoDup_app. split; auto. split; [apply NoDup_app; split; auto|]. intros x Hx Hy. apply in_app_iff in Hy. destruct Hy; [apply (H2 x)|apply (H3 x)]; auto.
Qed.
Lemma n_x : NoDup (hs ++ ox ++ ss).
Proof. apply nodup3; auto using n_hs, n_ox, n_ss; intros x; pose proof (@Hh x); rewrite ?in_hs, ?in_ox, ?in_ss; tauto. Qed.
Lemma n_y : NoDup (hs ++ ss ++ oy).
Proof. apply nodup3; auto using n_hs, n_oy, n_ss; intros x; pose proof (@Hh x); rewrite ?in_hs, ?in_oy, ?in_ss; tauto. Qed.
Lemma n_z : NoDup (hs ++ ox ++ oy).
Proof. apply nodup3; auto using n_hs, n_ox, n_oy; intros x; pose proof (@Hh x); rewrite ?in_hs, ?in_ox, ?in_oy; tauto. Qed.
Lemma union3 a b c : NoDup (a ++ b ++ c) -> iter (union (union (mkO a) (OSet (mkO b))) (OSet (mkO c))) = a ++ b ++ c.
Proof.
  intros N. unfold union, ofs, iter. simpl. rewrite app_assoc in N. assert (N1 : NoDup (a ++ b)) by (apply NoDup_app in N; tauto).
  rewrite (unique_id N1), (unique_id N), app_assoc. auto.
Qed.
Lemma p_x : Permutation (hs ++ ox ++ ss) xs.
Proof.
  apply NoDup_Permutation; auto using n_x. intros x. rewrite !in_app_iff, in_hs, in_ox, in_ss. pose proof (@Hh x).
  destruct (in_dec Nat.eq_dec x hyper), (in_dec Nat.eq_dec x ys); tauto.
Qed.
Lemma p_y : Permutation (hs ++ ss ++ oy) ys.
Proof.
  apply NoDup_Permutation; auto using n_y. intros x. rewrite !in_app_iff, in_hs, in_oy, in_ss. pose proof (@Hh x).
  destruct (in_dec Nat.eq_dec x hyper), (in_dec Nat.eq_dec x xs); tauto.
Qed.

Lemma combine_in (V : Type) (f : nat -> V) l : forall k v, In (k, v) (combine l (map f l)) -> v = f k.
Proof. induction l as [|x l IH]; simpl; intros k v H; [destruct H|]. destruct H as [E|H]; [inversion E; auto|auto]. Qed.
Lemma combine_keys (V : Type) (f : nat -> V) l : map fst (combine l (map f l)) = l.
Proof. induction l as [|x l IH]; simpl; auto. f_equal. auto. Qed.

Lemma tensordot_ok ax ay f g : tensor A dim ax xs f -> tensor A dim ay ys g ->
  exists az, tensordot A ax xs ay ys hyper = Ok (az, hs ++ ox ++ oy) /\ tensordot_inds xs ys hyper = Ok (hs ++ ox ++ oy) /\
    tensor A dim az (hs ++ ox ++ oy) (sum_over A dim ss (fun w => mul A (f w) (g w))).
Proof.
  intros Tx Ty. unfold tensordot, tensordot_inds. cbv zeta. rewrite (group_ok hyper Nx Ny).
  assert (E : forallb (fun x => memb x xs && memb x ys) hyper = true).
  { apply forallb_forall. intros x Hx. rewrite andb_true_iff, !memb_In. auto. }
  rewrite E. cbn [bind g_hyper g_shared g_x g_y]. fold hs ss ox oy. unfold new_inds. cbn [bind g_hyper g_shared g_x g_y].
  rewrite (union3 n_x), (union3 n_y), (union3 n_z). unfold iter, ofs. cbn [order]. rewrite (unique_id Nx), (unique_id Ny).
  assert (Esx : shape ax = map dim xs) by apply Tx. assert (Esy : shape ay = map dim ys) by apply Ty. rewrite Esx, Esy.
  set (dims := dict_of _). assert (Hd : forall x, In x xs \/ In x ys -> dict_get dims x = Ok (dim x)).
  { intros x Hx. apply dict_of_get.
    - intros k v H. apply in_app_iff in H. destruct H as [H|H]; apply combine_in in H; auto.
    - rewrite map_app, !combine_keys. apply in_app_iff. auto. }
  rewrite (@mapM_index xs (hs ++ ox ++ ss)) by (intros x; apply Permutation_in, p_x). cbn [bind].
  destruct (transpose_ok Tx Nx p_x) as (tx & Ex & Ttx). rewrite Ex. cbn [bind].
  rewrite (@sizes_ok dim dims hs) by (intros x; rewrite in_hs; intros H; apply Hd, or_introl, Hh; auto). cbn [bind].
  rewrite (@sizes_ok dim dims ox) by (intros x; rewrite in_ox; intros H; apply Hd; tauto). cbn [bind].
  rewrite (@sizes_ok dim dims ss) by (intros x; rewrite in_ss; intros H; apply Hd; tauto). cbn [bind].
  destruct (@reshape_ok _ A dim tx _ f [prod (map dim hs); prod (map dim ox); prod (map dim ss)] Ttx) as (rx & Erx & Srx & _ & Wrx).
  { rewrite !map_app, !prod_app. simpl. lia. }
  rewrite Erx. cbn [bind].
  rewrite (@mapM_index ys (hs ++ ss ++ oy)) by (intros x; apply Permutation_in, p_y). cbn [bind].
  destruct (transpose_ok Ty Ny p_y) as (ty & Ey & Tty). rewrite Ey. cbn [bind].
  rewrite (@sizes_ok dim dims oy) by (intros x; rewrite in_oy; intros H; apply Hd; tauto). cbn [bind].
  destruct (@reshape_ok _ A dim ty _ g [prod (map dim hs); prod (map dim ss); prod (map dim oy)] Tty) as (ry & Ery & Sry & _ & Wry).
  { rewrite !map_app, !prod_app. simpl. lia. }
  rewrite Ery. cbn [bind].
  destruct (matmul_ok A Srx Sry) as (m & Em & Sm & Wm & Hm). rewrite Em. cbn [bind].
  rewrite (@sizes_ok dim dims (hs ++ ox ++ oy)). 2:{ intros x. rewrite !in_app_iff, in_hs, in_ox, in_oy. intros H. apply Hd. destruct H as [H|H]; [left; apply Hh; auto|tauto]. }
  cbn [bind]. unfold reshape. rewrite Wm, Sm, !map_app, !prod_app. replace (prod [prod (map dim hs); prod (map dim ox); prod (map dim oy)]) with (prod (map dim hs) * (prod (map dim ox) * prod (map dim oy))) by (simpl; lia).
  rewrite Nat.eqb_refl. cbn [bind]. eexists. split; [reflexivity|]. split; auto. split; [|split].
  - unfold well_shaped. cbn [data shape]. rewrite Wm, Sm, !prod_app. simpl. lia.
  - cbn [shape]. rewrite !map_app. auto.
  - intros v Hv. unfold entry_at, entry. cbn [data shape]. rewrite !map_app. rewrite !ravel_app by (rewrite !map_length; auto). rewrite prod_app.
    assert (Vh : in_range dim hs v) by (intros x Hx; apply Hv, in_app_iff; auto).
    assert (Vx : in_range dim ox v) by (intros x Hx; apply Hv; rewrite !in_app_iff; auto).
    assert (Vy : in_range dim oy v) by (intros x Hx; apply Hv; rewrite !in_app_iff; auto).
    pose proof (Hm (ravel (map dim hs) (map v hs)) (ravel (map dim ox) (map v ox)) (ravel (map dim oy) (map v oy))
      (ravel_lt (valid_dims Vh)) (ravel_lt (valid_dims Vx)) (ravel_lt (valid_dims Vy))) as Hm'.
    unfold entry in Hm' at 1. rewrite Sm in Hm'. cbn [ravel prod fold_right] in Hm'.
    transitivity (sum_upto A (prod (map dim ss)) (fun r => mul A (entry A rx [ravel (map dim hs) (map v hs); ravel (map dim ox) (map v ox); r]) (entry A ry [ravel (map dim hs) (map v hs); r; ravel (map dim oy) (map v oy)]))).
    { rewrite <- Hm'. f_equal. lia. }
    rewrite (@sum_flat _ A SR dim ss v) by apply n_ss. apply so_ext. intros w W1 W2.
    assert (Eo : forall l, (forall x, In x l -> ~ In x ss) -> map v l = map w l). { intros l Hl. apply map_ext_in. intros x Hx. symmetry. apply W1. auto. }
    assert (Eh : map v hs = map w hs) by (apply Eo; intros x; rewrite in_hs, in_ss; tauto).
    assert (Eox : map v ox = map w ox) by (apply Eo; intros x; rewrite in_ox, in_ss; tauto).
    assert (Eoy : map v oy = map w oy) by (apply Eo; intros x; rewrite in_oy, in_ss; tauto).
    assert (Rw : forall l, in_range dim l v -> (forall x, In x l -> ~ In x ss) -> in_range dim l w). { intros l Hl1 Hl2 x Hx. rewrite W1 by auto. auto. }
    assert (Rh : in_range dim hs w) by (apply Rw; auto; intros x; rewrite in_hs, in_ss; tauto).
    assert (Rx : in_range dim ox w) by (apply Rw; auto; intros x; rewrite in_ox, in_ss; tauto).
    assert (Ry : in_range dim oy w) by (apply Rw; auto; intros x; rewrite in_oy, in_ss; tauto).
    rewrite Eh, Eox, Eoy. f_equal.
    + apply (entry_three Ttx Erx). intros x Hx. rewrite !in_app_iff in Hx. destruct Hx as [Hx|[Hx|Hx]]; auto.
    + apply (entry_three Tty Ery). intros x Hx. rewrite !in_app_iff in Hx. destruct Hx as [Hx|[Hx|Hx]]; auto.
Qed.
End Dot.

Lemma tensordot_raises (K : Type) (A : alg K) xs ys hyper ax ay : NoDup xs -> NoDup ys -> ~ (forall x, In x hyper -> In x xs /\ In x ys) ->
  tensordot A ax xs ay ys hyper = Err Throw /\ tensordot_inds xs ys hyper = Err Throw.
Proof.
  intros Nx Ny H. unfold tensordot, tensordot_inds. cbv zeta. rewrite (group_ok hyper Nx Ny).
  destruct (forallb (fun x => memb x xs && memb x ys) hyper) eqn:E; auto. exfalso. apply H. rewrite forallb_forall in E. intros x Hx. apply E in Hx.
  rewrite andb_true_iff, !memb_In in Hx. auto.
Qed.

(** Final form *)
Lemma entry_depends (K : Type) (A : alg K) a xs : depends_on xs (entry_at A a xs).
Proof. intros v w H. unfold entry_at. f_equal. apply map_ext_in. auto. Qed.
Theorem tensordot_einsum (K : Type) (A : alg K) (dim : nat -> nat) ax xs ay ys hyper : semiring A ->
  NoDup xs -> NoDup ys -> well_shaped ax -> well_shaped ay -> shape ax = map dim xs -> shape ay = map dim ys ->
  incl hyper xs -> incl hyper ys ->
  exists az zs, tensordot A ax xs ay ys hyper = Ok (az, zs) /\ tensordot_inds xs ys hyper = Ok zs /\
    NoDup zs /\ (forall x, In x zs <-> In x hyper \/ (In x xs /\ ~ In x ys) \/ (In x ys /\ ~ In x xs)) /\
    well_shaped az /\ shape az = map dim zs /\
    forall ks v, NoDup ks -> (forall x, In x ks <-> In x xs /\ In x ys /\ ~ In x hyper) -> in_range dim zs v ->
      entry_at A az zs v = sum_over A dim ks (fun w => mul A (entry_at A ax xs w) (entry_at A ay ys w)) v.
Proof.
  intros SR Nx Ny Wx Wy Sx Sy Ix Iy.
  assert (Hh : forall x, In x hyper -> In x xs /\ In x ys) by (intros x Hx; split; auto).
  assert (Tx : tensor A dim ax xs (entry_at A ax xs)) by (split; auto). assert (Ty : tensor A dim ay ys (entry_at A ay ys)) by (split; auto).
  destruct (tensordot_ok SR Nx Ny Hh Tx Ty) as (az & E1 & E2 & W & S & E). exists az. eexists. split; [exact E1|]. split; [exact E2|].
  split; [apply n_z; auto|]. split.
  { intros x. rewrite !in_app_iff, in_hs, in_ox, in_oy. tauto. all: exact dim. }
  split; auto. split; auto. intros ks v Nk Hk Hv. rewrite E by auto.
  apply (@so_perm _ A SR dim) with (xs := xs ++ ys).
  - intros u w H. f_equal; apply entry_depends; intros x Hx; apply H, in_app_iff; auto.
  - apply NoDup_Permutation; auto; [apply n_ss; auto|]. intros x. rewrite in_ss, Hk. tauto.
  all: exact dim.
Qed.
