(** Arrays: row-major positions, transpose, reshape, matrix product. *)
From Coq Require Import List Arith Lia Permutation Ring Bool.
Import ListNotations.
From Verif Require Import M_Base M_Path M_PyTree M_OSet M_Tensor S_Tensor P_Base P_Path P_Split P_PathMain P_PyBuild P_PyTens P_OSet P_Sum.
Set Implicit Arguments.
Unset Strict Implicit.

Lemma prod_app l k : prod (l ++ k) = prod l * prod k.
Proof. induction l as [|d l IH]; simpl; [lia|]. rewrite IH. lia. Qed.
Definition valid (sh ix : list nat) : Prop := Forall2 lt ix sh.
Lemma valid_app s1 s2 i1 i2 : valid s1 i1 -> valid s2 i2 -> valid (s1 ++ s2) (i1 ++ i2).
Proof. intros H1 H2. apply Forall2_app; auto. Qed.
Lemma ravel_lt sh ix : valid sh ix -> ravel sh ix < prod sh.
Proof. induction 1 as [|i d ix sh L F IH]; simpl; [lia|]. nia. Qed.
Lemma ravel_app s1 i1 s2 i2 : length i1 = length s1 -> ravel (s1 ++ s2) (i1 ++ i2) = ravel s1 i1 * prod s2 + ravel s2 i2.
Proof.
  revert i1. induction s1 as [|d s1 IH]; intros [|i i1] H; simpl in *; try lia. rewrite IH by lia. rewrite prod_app. lia.
Qed.
Lemma indices_length sh : length (indices sh) = prod sh.
Proof.
  induction sh as [|d sh IH]; simpl; auto. rewrite <- IH. generalize 0 as s. induction d as [|d IHd]; intros s; simpl; auto.
  rewrite app_length, map_length, IHd. auto.
Qed.
Lemma indices_nth sh ix : valid sh ix -> nth_error (indices sh) (ravel sh ix) = Some ix.
Proof.
  induction 1 as [|i d ix sh L F IH]; simpl; auto. pose proof (ravel_lt F) as R. rewrite <- indices_length in *. set (m := length (indices sh)) in *.
  assert (G : forall i d s, i < d -> nth_error (flat_map (fun j => map (cons j) (indices sh)) (seq s d)) (i * m + ravel sh ix) = Some (s + i :: ix)).
  { clear i d L. induction i as [|i IHi]; intros [|d] s L; try lia; cbn [seq flat_map].
    - rewrite nth_error_app1 by (rewrite map_length; fold m; lia). simpl. rewrite nth_error_map, IH. simpl. f_equal. f_equal. lia.
    - rewrite nth_error_app2 by (rewrite map_length; fold m; lia). rewrite map_length. fold m. replace (S i * m + ravel sh ix - m) with (i * m + ravel sh ix) by lia.
      rewrite IHi by lia. f_equal. f_equal. lia. }
  apply (G i d 0 L).
Qed.

Section Arrays.
Variable K : Type.
Variable A : alg K.
Hypothesis SR : semiring A.
Variable dim : nat -> nat.
Notation so := (sum_over A dim).

Lemma entry_map sh F ix : valid sh ix -> entry A (mkA sh (map F (indices sh))) ix = F ix.
Proof.
  intros H. unfold entry. cbn [shape data]. apply nth_error_nth. rewrite nth_error_map, (indices_nth H). auto.
Qed.
Lemma well_map sh (F : list nat -> K) : well_shaped (mkA sh (map F (indices sh))).
Proof. unfold well_shaped. simpl. rewrite map_length. apply indices_length. Qed.

Lemma valid_dims xs v : in_range dim xs v -> valid (map dim xs) (map v xs).
Proof.
  intros H. induction xs as [|x xs IH]; simpl; constructor; [apply H; left; auto|]. apply IH. intros y Hy. apply H. right. auto.
Qed.

(** [a] is a tensor with the indices [xs] and the entries [f]. *)
Definition tensor (a : nda K) (xs : list nat) (f : (nat -> nat) -> K) : Prop :=
  well_shaped a /\ shape a = map dim xs /\ forall v, in_range dim xs v -> entry_at A a xs v = f v.

Lemma position_in l x : In x l -> nth_error l (position l x) = Some x /\ position l x < length l.
Proof.
  intros H. unfold position. destruct (index_ok Nat.eqb_eq H) as (i & E & N). rewrite E. split; auto. apply nth_error_Some. congruence.
Qed.
Lemma mapM_index xs ys : (forall x, In x ys -> In x xs) -> mapM (fun x => index Nat.eqb x xs) ys = Ok (map (position xs) ys).
Proof.
  induction ys as [|y ys IH]; intros H; auto. simpl. destruct (index_ok Nat.eqb_eq (H y (or_introl eq_refl))) as (i & E & N). rewrite E. cbn [bind].
  rewrite IH by (intros; apply H; right; auto). cbn [bind]. unfold position. rewrite E. auto.
Qed.

Lemma transpose_ok a xs ys f : tensor a xs f -> NoDup xs -> Permutation ys xs ->
  exists b, transpose A a (map (position xs) ys) = Ok b /\ tensor b ys f.
Proof.
  intros (W & S & E) HN P. unfold transpose. cbv zeta. rewrite S, map_length, map_length, (Permutation_length P), Nat.eqb_refl.
  assert (Hy : forall y, In y ys -> In y xs) by (intros y; apply Permutation_in; auto).
  assert (Hx : forall x, In x xs -> In x ys) by (intros y; apply Permutation_in, Permutation_sym; auto).
  assert (Hnth : forall j, j < length xs -> position xs (nth j xs 0) = j).
  { intros j Hj. destruct (position_in (nth_In xs 0 Hj)) as [A1 A2]. apply (proj1 (NoDup_nth_error xs) HN); auto. rewrite A1. symmetry. apply nth_error_nth'. auto. }
  assert (NP : NoDup (map (position xs) ys)).
  { apply (Permutation_NoDup (l := map (position xs) xs)); [apply Permutation_map, Permutation_sym; auto|].
    replace (map (position xs) xs) with (seq 0 (length xs)); [apply seq_NoDup|]. apply nth_ext with 0 0; [rewrite seq_length, map_length; auto|].
    rewrite seq_length. intros j Hj. rewrite seq_nth by auto. rewrite (nth_indep _ 0 (position xs 0)) by (rewrite map_length; auto). rewrite map_nth, Hnth by auto. auto. }
  assert (Hall : forallb (fun j => memb j (map (position xs) ys)) (seq 0 (length xs)) = true).
  { apply forallb_forall. intros j Hj. apply in_seq in Hj. apply memb_In, in_map_iff. exists (nth j xs 0). split; [apply Hnth; lia|]. apply Hx, nth_In. lia. }
  rewrite Hall. cbn [andb].
  assert (Esh : map (fun j => nth j (map dim xs) 0) (map (position xs) ys) = map dim ys).
  { rewrite map_map. apply map_ext_in. intros y Hyy. destruct (position_in (Hy y Hyy)) as [A1 A2]. rewrite (nth_indep _ 0 (dim 0)) by (rewrite map_length; auto).
    rewrite map_nth. f_equal. apply nth_error_nth. auto. }
  rewrite Esh. eexists. split; [reflexivity|]. split; [apply well_map|]. split; auto.
  intros v Hv. unfold entry_at. rewrite entry_map by (apply valid_dims; auto). rewrite <- E by (intros x Hxx; apply Hv; auto). unfold entry_at. f_equal.
  apply nth_ext with 0 0; [rewrite !map_length, seq_length; auto|]. rewrite map_length, seq_length. intros j Hj.
  set (F := fun j0 => nth (position (map (position xs) ys) j0) (map v ys) 0).
  rewrite (nth_indep _ 0 (F 0)) by (rewrite map_length, seq_length; auto). rewrite map_nth, seq_nth by auto. simpl. unfold F.
  rewrite (nth_indep (map v xs) 0 (v 0)) by (rewrite map_length; auto). rewrite map_nth.
  assert (Ij : In j (map (position xs) ys)). { apply in_map_iff. exists (nth j xs 0). split; [apply Hnth; auto|]. apply Hx, nth_In. auto. }
  destruct (position_in Ij) as [A1 A2]. rewrite map_length in A2. rewrite (nth_indep _ 0 (v 0)) by (rewrite map_length; auto). rewrite map_nth. f_equal.
  rewrite nth_error_map in A1. destruct (nth_error ys (position (map (position xs) ys) j)) as [y|] eqn:Ey; [|discriminate]. simpl in A1.
  rewrite (nth_error_nth _ _ _ Ey). assert (A3 : position xs y = j) by congruence. destruct (position_in (Hy y (nth_error_In _ _ Ey))) as [B1 B2].
  rewrite A3 in B1. symmetry. apply nth_error_nth. auto.
Qed.

(** ** Sums over flat positions *)
Lemma fold_app l k : fold_right (add A) (zero A) (l ++ k) = add A (fold_right (add A) (zero A) l) (fold_right (add A) (zero A) k).
Proof. destruct SR as [S1 S2 S3 S4 S5 S6 S7 S8]. induction l as [|x l IH]; simpl; [symmetry; apply S1|]. rewrite IH. apply S3. Qed.
Lemma sum_upto_split n : forall m f, sum_upto A (n * m) f = sum_upto A n (fun i => sum_upto A m (fun j => f (i * m + j))).
Proof.
  unfold sum_upto. assert (G : forall m f n s, fold_right (add A) (zero A) (map f (seq (s * m) (n * m))) =
    fold_right (add A) (zero A) (map (fun i => fold_right (add A) (zero A) (map (fun j => f (i * m + j)) (seq 0 m))) (seq s n))).
  { intros m f. induction n0 as [|k IH]; intros s; auto. cbn [seq map fold_right]. rewrite <- IH. cbn [Nat.mul]. rewrite seq_app, map_app, fold_app. f_equal; [|f_equal; f_equal; f_equal; simpl; lia].
    f_equal. generalize (s * m). intros t. clear. apply nth_ext with (f t) (f t); [rewrite !map_length, !seq_length; auto|]. rewrite map_length, seq_length. intros i Hi.
    rewrite map_nth. rewrite (nth_indep _ (f t) (f (t + 0))) by (rewrite map_length, seq_length; auto). rewrite (map_nth (fun j => f (t + j))). rewrite !seq_nth by auto.
    destruct m; [lia|]. f_equal. }
  intros m f. apply (G m f n 0).
Qed.
Lemma sum_flat ks : forall v F, NoDup ks -> sum_upto A (prod (map dim ks)) F = so ks (fun w => F (ravel (map dim ks) (map w ks))) v.
Proof.
  induction ks as [|k ks IH]; intros v F HN; [destruct SR as [S1 S2 S3 S4 S5 S6 S7 S8]; simpl; unfold sum_upto; simpl; rewrite S2; apply S1|].
  inversion HN as [|? ? N1 N2]; subst. cbn [map prod fold_right]. change (fold_right Nat.mul 1 (map dim ks)) with (prod (map dim ks)). rewrite sum_upto_split.
  cbn [sum_over]. apply sum_upto_ext. intros i Hi. rewrite (IH (assign v k i)) by auto. apply so_ext. intros w W1 W2. f_equal.
  cbn [ravel]. f_equal. f_equal. rewrite W1 by auto. symmetry. apply assign_same.
Qed.

Lemma reshape_ok a xs f sh : tensor a xs f -> prod sh = prod (map dim xs) -> exists b, reshape a sh = Ok b /\ shape b = sh /\ data b = data a /\ well_shaped b.
Proof.
  intros (W & S & _) H. unfold reshape. rewrite H, <- S, W, Nat.eqb_refl. eexists. split; [reflexivity|]. split; auto. split; auto. unfold well_shaped. simpl. rewrite W, S. auto.
Qed.
(** three groups of indices, flattened *)
Lemma entry_three a hs xs ks f b v : tensor a (hs ++ xs ++ ks) f -> reshape a [prod (map dim hs); prod (map dim xs); prod (map dim ks)] = Ok b ->
  in_range dim (hs ++ xs ++ ks) v ->
  entry A b [ravel (map dim hs) (map v hs); ravel (map dim xs) (map v xs); ravel (map dim ks) (map v ks)] = f v.
Proof.
  intros (W & S & E) H Hv. unfold reshape in H. destruct (_ =? _); [|discriminate]. inversion H; subst b. clear H. rewrite <- (E v Hv). unfold entry_at, entry. cbn [shape data].
  f_equal. rewrite S, !map_app. rewrite !ravel_app by (rewrite !map_length; auto). rewrite prod_app. simpl. lia.
Qed.

Lemma matmul_ok (a b : nda K) h m k n : shape a = [h; m; k] -> shape b = [h; k; n] -> exists c, matmul A a b = Ok c /\ shape c = [h; m; n] /\ well_shaped c /\
  forall i j l, i < h -> j < m -> l < n -> entry A c [i; j; l] = sum_upto A k (fun r => mul A (entry A a [i; j; r]) (entry A b [i; r; l])).
Proof.
  intros Ha Hb. unfold matmul. rewrite Ha, Hb, !Nat.eqb_refl. cbn [andb]. eexists. split; [reflexivity|]. split; auto. split; [apply well_map|].
  intros i j l Hi Hj Hl. rewrite entry_map; auto. repeat constructor; auto.
Qed.

(** ** Dictionaries *)
Lemma dict_of_get (V : Type) (val : nat -> V) (l : list (nat * V)) x : (forall k v, In (k, v) l -> v = val k) -> In x (map fst l) -> dict_get (dict_of l) x = Ok (val x).
Proof.
  unfold dict_of. intros H Hx.
  assert (G : forall l d, (forall k v, In (k, v) l -> v = val k) -> (In x (map fst l) \/ dict_get d x = Ok (val x)) ->
     dict_get (fold_left (fun d e => dict_set d (fst e) (snd e)) l d) x = Ok (val x)).
  { clear. induction l as [|(k, v) l IH]; intros d H HH; simpl in *; [destruct HH; tauto|]. apply IH; [auto|]. rewrite dict_get_set.
    destruct (Nat.eqb_spec x k) as [->|N]; [right; f_equal; apply (H k v); auto|]. destruct HH as [[E|E]|E]; auto. congruence. }
  apply G; auto.
Qed.
Lemma sizes_ok dims xs : (forall x, In x xs -> dict_get dims x = Ok (dim x)) -> sizes dims xs = Ok (map dim xs).
Proof.
  unfold sizes. induction xs as [|x xs IH]; intros H; auto. simpl. rewrite (H x (or_introl eq_refl)). cbn [bind]. rewrite IH by (intros; apply H; right; auto). auto.
Qed.
End Arrays.
