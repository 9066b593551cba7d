(** generate_random_tensors: from the tensors of each index to the indices of each
    tensor, and from components to networks. *)
From Coq Require Import List Arith Lia Permutation Bool ZArith.
Import ListNotations.
From Verif Require Import P_Base P_Path P_Split P_PyBuild P_OSet P_TnApp P_Amplitude P_Fuse P_RandLoop P_RandColor P_RandComp P_Testing P_TestGen.
From Verif Require Import M_Base M_Path M_PyTree M_Circuit M_Testing S_Random S_Testing.
Set Implicit Arguments.
Unset Strict Implicit.
Local Open Scope nat_scope.

(** ** The indices of each tensor *)
Definition uses (inds : list (list nat)) : list (nat * nat) := flat_map (fun e => map (fun t => (t, fst e)) (snd e)) (combine (seq 0 (length inds)) inds).
Lemma uses_snoc inds xs : uses (inds ++ [xs]) = uses inds ++ map (fun t => (t, length inds)) xs.
Proof.
  unfold uses. rewrite app_length, seq_app. cbn [length seq].
  assert (E : forall (l : list nat) (m : list (list nat)) a, length l = length m -> combine (l ++ [a]) (m ++ [xs]) = combine l m ++ [(a, xs)]).
  { clear. induction l as [|x l IH]; intros [|y m] a H; simpl in *; try discriminate; auto. f_equal. auto. }
  rewrite E by (apply seq_length). rewrite flat_map_app. f_equal. simpl. apply app_nil_r.
Qed.
Definition occ (inds : list (list nat)) (t : nat) : list nat := filter (fun x => memb t (nth x inds [])) (seq 0 (length inds)).
Lemma occ_snoc inds xs t : occ (inds ++ [xs]) t = occ inds t ++ (if memb t xs then [length inds] else []).
Proof.
  unfold occ. rewrite app_length, seq_app, filter_app. cbn [length seq]. f_equal.
  - apply filter_ext_in. intros x H. apply in_seq in H. rewrite app_nth1 by lia. auto.
  - simpl. rewrite app_nth2 by lia. rewrite Nat.sub_diag. reflexivity.
Qed.
Lemma in_occ inds t x : In x (occ inds t) <-> x < length inds /\ In t (nth x inds []).
Proof. unfold occ. rewrite filter_In, in_seq, memb_In. intuition lia. Qed.
Lemma occ_nd inds t : NoDup (occ inds t).
Proof. apply NoDup_filter', seq_NoDup. Qed.
Lemma grouped_uses inds t : (forall xs, In xs inds -> NoDup xs) -> grouped (uses inds) t = occ inds t.
Proof.
  induction inds as [|xs inds IH] using rev_ind; intros H; auto. rewrite uses_snoc, occ_snoc, <- IH by (intros; apply H, in_app_iff; auto).
  unfold grouped. rewrite filter_app, map_app. f_equal. specialize (H xs ltac:(apply in_app_iff; right; left; auto)). generalize (length inds). intros m. clear - H.
  induction H as [|a xs N H IH]; auto. simpl. destruct (Nat.eqb_spec a t) as [->|Ne].
  - rewrite Nat.eqb_refl. simpl. f_equal. rewrite IH. apply memb_nIn in N. rewrite N. auto.
  - destruct (Nat.eqb_spec t a); [congruence|]. simpl. auto.
Qed.
Lemma uses_keys inds : map fst (uses inds) = concat inds.
Proof.
  induction inds as [|xs inds IH] using rev_ind; auto. rewrite uses_snoc, map_app, IH, concat_app. f_equal. simpl. rewrite app_nil_r, map_map. apply map_id.
Qed.
Lemma occ_absent inds t : ~ In t (concat inds) -> occ inds t = [].
Proof.
  intros H. destruct (occ inds t) as [|x l] eqn:E; auto. assert (K : In x (occ inds t)) by (rewrite E; left; auto). apply in_occ in K. destruct H. apply in_concat. exists (nth x inds []). split; [apply nth_In|]; tauto.
Qed.
Lemma drop_map (F : nat -> list nat) ks s : drop (map (fun t => (t, F t)) ks) s = map (fun t => (t, F t)) (filter (fun t => negb (t =? s)) ks).
Proof. unfold drop. induction ks as [|a ks IH]; auto. simpl. destruct (a =? s); simpl; rewrite IH; auto. Qed.

Lemma concat_count (F : nat -> list nat) (x : nat) ks : (forall t, NoDup (F t)) -> count_occ Nat.eq_dec (concat (map F ks)) x = length (filter (fun t => memb x (F t)) ks).
Proof.
  intros N. induction ks as [|t ks IH]; auto. simpl. rewrite count_occ_app, IH. specialize (N t). destruct (memb x (F t)) eqn:M.
  - apply memb_In in M. rewrite (proj1 (NoDup_count_occ' Nat.eq_dec _) N x M). auto.
  - apply memb_nIn in M. rewrite (proj1 (count_occ_not_In Nat.eq_dec _ _) M). auto.
Qed.
Lemma F2_perm_concat (l m : list (list nat)) : Forall2 (@Permutation nat) l m -> Permutation (concat l) (concat m).
Proof. intros H. induction H; simpl; auto. apply Permutation_app; auto. Qed.

Lemma list_nth (xs : list nat) : xs = map (fun p => nth p xs 0) (seq 0 (length xs)).
Proof.
  induction xs as [|a xs IH] using rev_ind; auto. rewrite app_length, seq_app, map_app. cbn [length seq map]. f_equal.
  - rewrite IH at 1. apply map_ext_in. intros p Hp. apply in_seq in Hp. rewrite app_nth1 by lia. auto.
  - simpl. rewrite app_nth2 by lia. rewrite Nat.sub_diag. auto.
Qed.

Section Net.
Variables (R : Type) (g : rng R) (order : list nat -> list nat).
Hypothesis (Hg : rng_ok g) (Ho : order_ok order).
Variables (n n_inds k n_out : nat).
Hypothesis (Hk : 1 <= k) (Hkn : k <= n) (Hfew : n + 1 <= n_inds - n_out + k).
Hypothesis (Hout : n_out <= n_inds).

Lemma permute_total : forall l r, total (fun x => Forall2 (@Permutation nat) l (fst x)) (permute g l r).
Proof.
  induction l as [|xs l IH]; intros r; simpl; [exists ([], r); split; [reflexivity|constructor]|].
  apply total_bind with (P := fun x => Permutation xs (fst x)).
  { destruct (@sample_total R g Hg nat xs (Z.of_nat (length xs)) (length xs) r eq_refl (le_n _)) as ((ys, r1) & E & S1 & S2 & S3). exists (ys, r1). split; auto. cbn [fst] in *.
    unfold sample in E. destruct (Z.ltb_spec (Z.of_nat (length xs)) 0); [lia|]. destruct (Z.ltb_spec (Z.of_nat (length xs)) (Z.of_nat (length xs))); [lia|]. cbn [orb] in E. rewrite Nat2Z.id in E.
    destruct (ro_sample Hg r (le_n (length xs))) as (A1 & A2 & A3). destruct (rsample g r (length xs) (length xs)) as [ps r']. cbn [fst] in *.
    destruct (@mapM_get _ xs ps) as (l' & E' & F); auto. rewrite E' in E. injection E as -> _.
    assert (P : Permutation ps (seq 0 (length xs))).
    { apply NoDup_Permutation_bis; auto; [rewrite seq_length; lia|]. intros p Hp. apply in_seq. apply A3 in Hp. lia. }
    assert (Em : ys = map (fun p => nth p xs 0) ps). { clear - F. induction F as [|p a ps l E F IH]; simpl; auto. rewrite (nth_error_nth _ _ _ E), <- IH. auto. }
    rewrite (list_nth xs) at 1. rewrite Em. apply Permutation_map. apply Permutation_sym. auto. }
  intros [ys r1] Hy. apply total_bind with (1 := IH r1). intros [l2 r2] F. exists (ys :: l2, r2). split; auto. cbn [fst] in *. constructor; auto.
Qed.

(** One component, with the indices below [n_inds]. *)
Record block_ok (b : list (list nat) * list nat) : Prop := {
  b_len : length (fst b) = n;
  b_nd : NoDup (fst b);
  b_each : forall xs, In xs (fst b) -> xs <> [] /\ NoDup xs;
  b_in : forall x, In x (concat (fst b)) <-> x < n_inds;
  b_outs : NoDup (snd b) /\ length (snd b) = n_out /\ forall x, In x (snd b) -> x < n_inds;
  b_inner : forall x, x < n_inds -> ~ In x (snd b) -> holders (fst b) x = k;
  b_outer : forall x, In x (snd b) -> holders (fst b) x = 1 \/ holders (fst b) x = k - 1;
  b_conn : 2 <= k -> forall x y, x < n_inds -> y < n_inds -> linked (fst b) x y
}.

Lemma attempt_total r : total (fun x => match fst x with Some b => block_ok b | None => True end) (attempt g order n n_inds k n_out r).
Proof.
  unfold attempt. apply total_bind with (1 := @draw_total R g order Hg Ho n n_inds k n_out Hk Hkn Hfew Hout r). intros [inds r1] I. cbn [fst] in I. cbv zeta.
  change (flat_map _ _) with (uses inds). rewrite group_by_eq, uses_keys.
  rewrite (map_ext (fun t => (t, grouped (uses inds) t)) (fun t => (t, occ inds t))) by (intros t; rewrite grouped_uses; auto; apply I).
  set (keys := unique (concat inds)).
  assert (Eo : match dict_get (map (fun t => (t, occ inds t)) keys) (star n) with Ok l => l | Err _ => [] end = occ inds (star n)).
  { destruct (in_dec Nat.eq_dec (star n) keys) as [H|H]; [rewrite (dict_get_map (occ inds) H); auto|].
    destruct (@dict_get_none _ (map (fun t => (t, occ inds t)) keys) (star n)) as (e & ->); [rewrite map_map, map_id; auto|]. symmetry. apply occ_absent. intros K. apply H, unique_in. auto. }
  rewrite Eo.
  assert (Lo : length (occ inds (star n)) = n_out).
  { rewrite <- (io_stars I). clear. induction inds as [|xs inds IH] using rev_ind; auto. rewrite occ_snoc, filter_app, !app_length, IH. f_equal. simpl. destruct (memb (star n) xs); auto. }
  rewrite Lo, Nat.eqb_refl. cbn [negb]. rewrite drop_map, map_map. cbn [snd]. rewrite (map_ext (fun x => occ inds x) (occ inds)) by auto.
  set (K := filter (fun t => negb (t =? star n)) keys).
  apply total_bind with (1 := permute_total (map (occ inds) K) r1). intros [ts r2] F. cbn [fst] in F.
  assert (HK : forall t, In t K <-> t < n).
  { intros t. unfold K, keys. rewrite filter_In, unique_in. destruct (Nat.eqb_spec t (star n)) as [->|Ne]; simpl; [unfold star; split; [intros [_ H]; discriminate|lia]|]. split.
    - intros [H _]. apply in_concat in H. destruct H as (xs & A & B). pose proof (io_le I A B). unfold star in Ne. lia.
    - intros H. split; auto. destruct (io_conn I) as (A & B & -> & _ & C & _). rewrite concat_app. apply in_app_iff. auto. }
  assert (NK : NoDup K) by (apply NoDup_filter', unique_nodup).
  assert (PK : Permutation K (seq 0 n)) by (apply nodup_same; auto; [apply seq_NoDup|]; intros t; rewrite HK, in_seq; lia).
  assert (LT : length ts = n) by (rewrite (F2_length F), map_length, (Permutation_length PK), seq_length; auto).
  destruct (Nat.eqb_spec (length (unique_tuples ts)) n) as [Eu|Eu]; [|eexists; split; [reflexivity|exact Logic.I]].
  eexists. split; [reflexivity|]. cbn [fst]. rewrite (unique_id (occ_nd inds (star n))).
  assert (PC : Permutation (concat (map (occ inds) K)) (concat ts)) by (apply F2_perm_concat; auto).
  assert (Hof : forall t, t < n -> exists xs, In xs ts /\ Permutation (occ inds t) xs). { intros t Ht. apply (F2_in' F). apply in_map, HK. auto. }
  assert (Hts : forall xs, In xs ts -> exists t, t < n /\ Permutation (occ inds t) xs). { intros xs Hxs. destruct (F2_in F Hxs) as (l & A & B). apply in_map_iff in A. destruct A as (t & <- & Ht). exists t. split; auto. apply HK. auto. }
  assert (Hcount : forall x, x < n_inds -> holders ts x = length (filter (fun t => negb (t =? star n)) (nth x inds []))).
  { intros x Hx. unfold holders. rewrite <- (proj1 (Permutation_count_occ Nat.eq_dec _ _) PC x), concat_count by apply occ_nd.
    apply Permutation_length. pose proof (nth_In inds [] (eq_ind_r (fun m => x < m) Hx (io_len I))) as Hin. apply nodup_same; try apply NoDup_filter'; auto; [apply (io_nd I Hin)|].
    intros t. rewrite !filter_In, memb_In, in_occ, (io_len I), HK. destruct (Nat.eqb_spec t (star n)) as [->|Ne]; simpl.
    - unfold star. split; [lia|intros [_ H]; discriminate].
    - split; [tauto|]. intros [A _]. pose proof (io_le I Hin A). unfold star in Ne. split; auto. lia. }
  assert (Hlen : forall xs, NoDup xs -> length xs = length (filter (fun t => negb (t =? star n)) xs) + (if memb (star n) xs then 1 else 0)).
  { clear. intros xs H. induction H as [|a xs N H IH]; auto. simpl. destruct (Nat.eqb_spec a (star n)) as [->|Ne]; simpl.
    - rewrite Nat.eqb_refl. simpl. apply memb_nIn in N. rewrite N in IH. lia.
    - destruct (Nat.eqb_spec (star n) a); [congruence|]. simpl. f_equal. auto. }
  assert (Hnth : forall x, x < n_inds -> In (nth x inds []) inds) by (intros x Hx; apply nth_In; rewrite (io_len I); auto).
  assert (Hpos : forall x, x < n_inds -> 1 <= holders ts x).
  { intros x Hx. rewrite Hcount by auto. pose proof (Hlen _ (io_nd I (Hnth x Hx))) as E. destruct (memb (star n) (nth x inds [])) eqn:M.
    - apply memb_In in M. destruct (io_outer I (Hnth x Hx) M); lia.
    - apply memb_nIn in M. pose proof (io_inner I (Hnth x Hx) M). lia. }
  constructor; cbn [fst snd]; auto.
  - apply nodup_all with (dec := list_eq_dec Nat.eq_dec). unfold unique_tuples in Eu. congruence.
  - intros xs Hxs. destruct (Hts xs Hxs) as (t & Ht & P). split; [|apply (Permutation_NoDup P), occ_nd].
    intros ->. apply Permutation_sym, Permutation_nil in P. destruct (io_conn I) as (A & B & EI & _ & C & _). assert (HC : In t (concat inds)) by (rewrite EI, concat_app; apply in_app_iff; auto).
    apply in_concat in HC. destruct HC as (l & H1 & H2). apply In_nth with (d := []) in H1. destruct H1 as (x & H3 & H4). assert (H5 : In x (occ inds t)) by (apply in_occ; rewrite H4; auto). rewrite P in H5. destruct H5.
  - intros x. split.
    + intros H. apply (Permutation_in _ (Permutation_sym PC)), in_concat in H. destruct H as (l & A & B). apply in_map_iff in A. destruct A as (t & <- & _). apply in_occ in B. rewrite (io_len I) in B. tauto.
    + intros H. apply (count_occ_In Nat.eq_dec). pose proof (Hpos x H) as P. unfold holders in P. lia.
  - split; [apply occ_nd|]. split; auto. intros x H. apply in_occ in H. rewrite (io_len I) in H. tauto.
  - intros x Hx NO. rewrite Hcount by auto. assert (NS : ~ In (star n) (nth x inds [])) by (intros H; apply NO, in_occ; rewrite (io_len I); auto).
    pose proof (Hlen _ (io_nd I (Hnth x Hx))) as E. pose proof (io_inner I (Hnth x Hx) NS) as E'. apply memb_nIn in NS. rewrite NS in E. lia.
  - intros x Hx. apply in_occ in Hx. rewrite (io_len I) in Hx. destruct Hx as [Hx S]. rewrite Hcount by auto.
    pose proof (Hlen _ (io_nd I (Hnth x Hx))) as E. destruct (io_outer I (Hnth x Hx) S) as [E'|[E' E'']]; apply memb_In in S; rewrite S in E; [left|right]; lia.
  - intros K2 x y Hx Hy. destruct (io_conn I) as (A & B & EI & NS & _ & D).
    assert (Ht : forall x, x < n_inds -> exists t, t < n /\ In x (occ inds t)).
    { clear x y Hx Hy. intros x Hx. pose proof (Hpos x Hx) as P. rewrite Hcount in P by auto. destruct (filter (fun t => negb (t =? star n)) (nth x inds [])) as [|t l] eqn:E; [simpl in P; lia|].
      assert (H : In t (filter (fun t => negb (t =? star n)) (nth x inds []))) by (rewrite E; left; auto). apply filter_In in H. destruct H as [H1 H2]. apply negb_true_iff, Nat.eqb_neq in H2. exists t.
      split; [|apply in_occ; rewrite (io_len I); auto]. pose proof (io_le I (Hnth x Hx) H1). unfold star in H2. lia. }
    destruct (Ht x Hx) as (t & Tn & Tx). destruct (Ht y Hy) as (u & Un & Uy). specialize (D K2 t u Tn Un).
    assert (AN : forall xs v, In xs A -> In v xs -> v < n /\ exists z, In z (occ inds v) /\ forall w, In w xs -> In z (occ inds w)).
    { intros xs v H1 H2. assert (H3 : In xs inds) by (rewrite EI; apply in_app_iff; auto). split.
      - pose proof (io_le I H3 H2). destruct (Nat.eq_dec v n); [|lia]. exfalso. apply (NS xs H1). unfold star. congruence.
      - apply In_nth with (d := []) in H3. destruct H3 as (z & H3 & H4). exists z. split; [apply in_occ; rewrite H4; auto|]. intros w Hw. apply in_occ. rewrite H4. auto. }
    assert (One : forall v a b, v < n -> In a (occ inds v) -> In b (occ inds v) -> linked ts a b).
    { intros v a b Hv Ha Hb. destruct (Hof v Hv) as (xs & H1 & H2). apply lk_step with a xs; [constructor|auto| |]; apply (Permutation_in _ H2); auto. }
    clear Hx Hy Un. revert y Uy. induction D as [t|t v w xs D IH H1 H2 H3]; intros y Uy; [apply One with t; auto|].
    destruct (AN xs w H1 H3) as (Hw & z & Z1 & Z2). apply linked_trans with z; [apply IH; auto|]. apply One with w; auto.
Qed.
End Net.
