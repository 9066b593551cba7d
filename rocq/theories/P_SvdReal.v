(** The error of a truncated decomposition. *)
From Coq Require Import List Arith Lia Permutation Bool Reals Lra.
Import ListNotations.
From Verif Require Import P_Base M_Base M_Path M_PyTree M_OSet M_Tensor M_Svd S_Tensor S_Svd S_SvdReal P_Sum P_Array P_Svd.
From Verif Require Import M_Path M_PyTree.
Set Implicit Arguments.
Unset Strict Implicit.
Local Open Scope nat_scope.

Lemma reals_semiring : semiring reals.
Proof. constructor; simpl; intros; ring. Qed.

Lemma sum_ge (f : nat -> R) l : (forall i, In i l -> (0 <= f i)%R) -> (0 <= fold_right Rplus 0 (map f l))%R.
Proof.
  induction l as [|x l IH]; intros H; simpl; [lra|]. pose proof (H x (or_introl eq_refl)). assert (0 <= fold_right Rplus 0 (map f l))%R by (apply IH; intros; apply H; right; auto). lra.
Qed.
Lemma sum_term (f : nat -> R) l i : (forall i, In i l -> (0 <= f i)%R) -> In i l -> (f i <= fold_right Rplus 0 (map f l))%R.
Proof.
  induction l as [|x l IH]; intros H I; [destruct I|]. simpl. pose proof (H x (or_introl eq_refl)).
  assert (G : forall i, In i l -> (0 <= f i)%R) by (intros; apply H; right; auto). pose proof (sum_ge G). destruct I as [->|I]; [lra|].
  pose proof (IH G I). lra.
Qed.
Lemma unit_entry n (f : nat -> R) i : (sum_upto reals n (fun i => f i * f i) <= 1)%R -> i < n -> (Rabs (f i) <= 1)%R.
Proof.
  intros H L. assert (Q : (f i * f i <= 1)%R).
  { eapply Rle_trans; [|exact H]. unfold sum_upto. simpl. apply (@sum_term (fun i => f i * f i)%R); [intros j _; apply Rle_0_sqr|]. apply in_seq. lia. }
  apply Rabs_le. split; nra.
Qed.
Lemma filter_le (p : nat -> bool) l : length (filter p l) <= length l.
Proof. induction l as [|x l IH]; simpl; auto. destruct (p x); simpl; lia. Qed.
Lemma filter_leR (p : R -> bool) l : length (filter p l) <= length l.
Proof. induction l as [|x l IH]; simpl; auto. destruct (p x); simpl; lia. Qed.
Lemma sum_bound (g : nat -> R) (p : nat -> bool) (c : R) l : (0 <= c)%R -> (forall r, In r l -> p r = true -> g r = 0%R) ->
  (forall r, In r l -> p r = false -> (Rabs (g r) <= c)%R) ->
  (Rabs (fold_right Rplus 0 (map g l)) <= INR (length l - length (filter p l)) * c)%R.
Proof.
  intros Hc. induction l as [|x l IH]; intros H1 H2; [simpl; rewrite Rabs_R0; lra|].
  assert (B : (Rabs (fold_right Rplus 0 (map g l)) <= INR (length l - length (filter p l)) * c)%R) by (apply IH; intros; [apply H1|apply H2]; auto; right; auto).
  pose proof (filter_le p l) as FL. cbn [map fold_right filter]. destruct (p x) eqn:E; cbn [length].
  - rewrite (H1 x (or_introl eq_refl) E), Rplus_0_l. exact B.
  - replace (S (length l) - length (filter p l)) with (S (length l - length (filter p l))) by lia. rewrite S_INR.
    pose proof (H2 x (or_introl eq_refl) E). eapply Rle_trans; [apply Rabs_triang|]. lra.
Qed.

Lemma svd_error f names atol fuel (a : nda R) dim inds left o name :
  decomposes f -> (0 <= atol)%R ->
  NoDup inds -> NoDup left -> (forall x, In x left -> In x inds) -> left <> [] -> length left <> length inds ->
  well_shaped a -> shape a = map dim inds -> (forall x, In x inds -> 0 < dim x) ->
  named names fuel inds o name -> ~ In name inds ->
  let right := filter (fun x => negb (memb x left)) inds in
  exists U Sg V k,
    svd reals f (at_least atol) names fuel a inds left o = Ok [(U, left ++ [name]); (Sg, [name]); (V, name :: right)] /\
    well_shaped U /\ well_shaped Sg /\ well_shaped V /\
    shape U = map dim left ++ [k] /\ shape Sg = [k] /\ shape V = k :: map dim right /\
    k <= Nat.min (prod (map dim left)) (prod (map dim right)) /\
    (forall r, r < k -> (atol <= entry reals Sg [r])%R) /\
    (forall v, in_range dim inds v ->
      (Rabs (entry_at reals a inds v - joined reals dim (U, left ++ [name]) (Sg, [name]) (V, name :: right) name k v)
       <= INR (Nat.min (prod (map dim left)) (prod (map dim right)) - k) * atol)%R).
Proof.
  intros [HF HO] Ha N1 N2 HI HL HE W Sa Pos Hn Fr right.
  destruct (@svd_sum R reals reals_semiring f (at_least atol) names HF fuel a dim inds left o name) as (M & u & s & vh & U & Sg & V & k & WM & SM & Eu & Es & WU & WS & WV & SU & SS & SV & Ek & Lg & En); auto.
  fold right in SM, Es, SV, En. pose proof (HO _ _ _ WM SM) as O. pose proof (HF _ _ _ WM SM) as FM. rewrite Eu in O, FM. destruct O as (O1 & O2 & O3). destruct FM as (Ls & _).
  exists U, Sg, V, k. do 7 (split; auto). split; [rewrite <- Ls, Ek; apply filter_leR|]. split.
  { intros r Hr. specialize (Lg r Hr). unfold at_least in Lg. destruct (Rle_dec _ _); auto. discriminate. }
  intros v Hv. destruct (En v Hv) as (i & j & Li & Lj & E). rewrite E. cbn [add reals].
  match goal with |- (Rabs (?x + ?y - ?x) <= _)%R => replace (x + y - x)%R with y by ring end.
  rewrite <- Ls, Ek.
  assert (KL : length (filter (fun r => at_least atol (nth r s 0%R)) (seq 0 (length s))) = length (filter (at_least atol) s)).
  { clear. transitivity (length (filter (at_least atol) (map (fun r => nth r s 0%R) (seq 0 (length s))))).
    - generalize (seq 0 (length s)). induction l as [|x l IH]; auto. cbn [map filter]. destruct (at_least atol (nth x s 0%R)); simpl; auto.
    - f_equal. f_equal. induction s as [|x s IH]; auto. cbn [length seq map nth]. f_equal. rewrite <- seq_shift, map_map. auto. }
  rewrite <- KL. rewrite <- (seq_length (length s) 0) at 2. unfold sum_upto. apply sum_bound; auto.
  - intros r _ Hr. cbn [zero reals]. rewrite Hr. auto.
  - intros r I Hr. apply in_seq in I. cbn [zero reals mul]. rewrite Hr. unfold at_least in Hr. destruct (Rle_dec _ _) as [|NL]; [discriminate|].
    pose proof (O1 _ (nth_In s 0%R (proj2 I))) as P0. pose proof (@unit_entry _ _ i (O2 r (proj2 I)) Li) as B1. pose proof (@unit_entry _ _ j (O3 r (proj2 I)) Lj) as B2. cbv beta in B1, B2.
    rewrite !Rabs_mult. rewrite (Rabs_pos_eq (nth r s 0%R)) by auto. pose proof (Rabs_pos (entry reals u [i; r])). pose proof (Rabs_pos (entry reals vh [r; j])).
    set (x := Rabs (entry reals u [i; r])) in *. set (y := Rabs (entry reals vh [r; j])) in *. set (z := nth r s 0%R) in *.
    assert (x * z <= z)%R by nra. assert (0 <= x * z)%R by (apply Rmult_le_pos; auto). assert (x * z * y <= x * z)%R by nra. lra.
Qed.

(** Some function meets the hypotheses: the identity on the shorter side, the lengths
    of the rows (columns) as singular values, and the normalised rows (columns). *)
Definition norm2 (n : nat) (f : nat -> R) : R := sum_upto reals n (fun j => f j * f j)%R.
Definition scaled (n : nat) (f : nat -> R) (j : nat) : R :=
  if Req_EM_T (norm2 n f) 0 then 0%R else (f j / sqrt (norm2 n f))%R.
Definition delta (i j : nat) : R := if i =? j then 1%R else 0%R.
Definition matrix (m n : nat) (f : nat -> nat -> R) : nda R := mkA [m; n] (map (fun ix => f (nth 0 ix 0) (nth 1 ix 0)) (indices [m; n])).
Definition normalise (M : nda R) : nda R * list R * nda R :=
  match shape M with
  | [m; n] =>
      if m <=? n then
        (matrix m m delta, map (fun i => sqrt (norm2 n (fun j => entry reals M [i; j]))) (seq 0 m),
         matrix m n (fun i j => scaled n (fun j => entry reals M [i; j]) j))
      else
        (matrix m n (fun i j => scaled m (fun i => entry reals M [i; j]) i),
         map (fun j => sqrt (norm2 m (fun i => entry reals M [i; j]))) (seq 0 n), matrix n n delta)
  | _ => (M, [], M)
  end.

Lemma matrix_entry m n f i j : i < m -> j < n -> entry reals (matrix m n f) [i; j] = f i j.
Proof. intros Hi Hj. unfold matrix. rewrite entry_map; auto. repeat constructor; auto. Qed.
Lemma norm2_pos n f : (0 <= norm2 n f)%R.
Proof. apply (@sum_ge (fun j => f j * f j)%R). intros j _. apply Rle_0_sqr. Qed.
Lemma scaled_back n f j : j < n -> (sqrt (norm2 n f) * scaled n f j = f j)%R.
Proof.
  intros Hj. unfold scaled. destruct (Req_EM_T _ _) as [E|E].
  - rewrite E, sqrt_0, Rmult_0_l. assert (B : (f j * f j <= norm2 n f)%R).
    { apply (@sum_term (fun j => f j * f j)%R); [intros i _; apply Rle_0_sqr|]. apply in_seq. lia. }
    rewrite E in B. nra.
  - pose proof (norm2_pos n f). assert (0 < sqrt (norm2 n f))%R by (apply sqrt_lt_R0; lra). field. lra.
Qed.
Lemma scaled_unit n f : (norm2 n (scaled n f) <= 1)%R.
Proof.
  unfold norm2 at 1. unfold scaled. destruct (Req_EM_T (norm2 n f) 0) as [E|E].
  - rewrite (sum_zero reals_semiring); [cbn [zero reals]; lra|]. intros r _. cbn [zero reals]. ring.
  - pose proof (norm2_pos n f) as P. assert (Q : (0 < sqrt (norm2 n f))%R) by (apply sqrt_lt_R0; lra).
    rewrite (@sum_upto_ext R reals _ _ (fun j => (/ norm2 n f) * (f j * f j))%R).
    + pose proof (sum_upto_mul reals_semiring n (/ norm2 n f)%R (fun j => f j * f j)%R) as Q1. fold (norm2 n f) in Q1. cbn [mul reals] in Q1. rewrite Q1. cbn [mul reals]. rewrite Rinv_l by auto. lra.
    + intros j _. rewrite <- (sqrt_sqrt (norm2 n f)) at 3 by auto. field. lra.
Qed.
Lemma sum_delta n i (g : nat -> R) : i < n -> sum_upto reals n (fun r => delta i r * g r)%R = g i.
Proof.
  unfold sum_upto. intros H. assert (G : forall k s, (s <= i < s + k) -> fold_right Rplus 0%R (map (fun r => delta i r * g r)%R (seq s k)) = g i).
  { assert (Z : forall k s, i < s -> fold_right Rplus 0%R (map (fun r => delta i r * g r)%R (seq s k)) = 0%R).
    { induction k as [|k IH]; intros s L; auto. cbn [seq map fold_right]. rewrite IH by lia. unfold delta. destruct (Nat.eqb_spec i s); [lia|]. ring. }
    induction k as [|k IH]; intros s L; [lia|]. cbn [seq map fold_right]. unfold delta at 1. destruct (Nat.eqb_spec i s) as [->|N].
    - rewrite Z by lia. ring.
    - rewrite IH by lia. ring. }
  apply (G n 0). lia.
Qed.
Lemma delta_sym i j : delta i j = delta j i.
Proof. unfold delta. rewrite Nat.eqb_sym. auto. Qed.
Lemma delta_unit n r : r < n -> sum_upto reals n (fun i => delta i r * delta i r)%R = 1%R.
Proof.
  intros H. rewrite (@sum_upto_ext R reals _ _ (fun i => delta r i * delta i r)%R) by (intros i _; rewrite (delta_sym r i); auto).
  rewrite sum_delta by auto. unfold delta. rewrite Nat.eqb_refl. auto.
Qed.
Lemma nth_map_seq (g : nat -> R) n r : r < n -> nth r (map g (seq 0 n)) 0%R = g r.
Proof. intros H. rewrite (nth_indep _ _ (g 0)) by (rewrite map_length, seq_length; auto). rewrite map_nth, seq_nth by auto. auto. Qed.

Lemma normalise_decomposes : decomposes normalise.
Proof.
  split.
  - intros M m n W S. unfold factors, normalise. rewrite S. destruct (Nat.leb_spec m n) as [L|L].
    + rewrite map_length, seq_length. split; [lia|]. split; [apply well_map|]. split; [apply well_map|]. split; auto. split; auto.
      intros i j Hi Hj. symmetry. rewrite (@sum_upto_ext R reals _ _ (fun r => delta i r * entry reals M [r; j])%R).
      * apply (@sum_delta m i (fun r => entry reals M [r; j]) Hi).
      * intros r Hr. cbn [mul zero reals]. rewrite !matrix_entry, nth_map_seq, Rmult_assoc by auto. f_equal.
        apply (@scaled_back n (fun j => entry reals M [r; j])); auto.
    + rewrite map_length, seq_length. split; [lia|]. split; [apply well_map|]. split; [apply well_map|]. split; auto. split; auto.
      intros i j Hi Hj. symmetry. rewrite (@sum_upto_ext R reals _ _ (fun r => delta j r * entry reals M [i; r])%R).
      * apply (@sum_delta n j (fun r => entry reals M [i; r]) Hj).
      * intros r Hr. cbn [mul zero reals]. rewrite !matrix_entry, nth_map_seq by auto. rewrite (delta_sym r j), Rmult_comm. f_equal. rewrite Rmult_comm.
        apply (@scaled_back m (fun i => entry reals M [i; r])); auto.
  - intros M m n W S. unfold normalise. rewrite S. destruct (Nat.leb_spec m n) as [L|L]; rewrite map_length, seq_length; (split; [|split]).
    + intros x I. apply in_map_iff in I. destruct I as (i & <- & _). apply sqrt_pos.
    + intros r Hr. rewrite (@sum_upto_ext R reals _ _ (fun i => delta i r * delta i r)%R) by (intros i Hi; rewrite !matrix_entry by auto; auto). rewrite delta_unit by auto. lra.
    + intros r Hr. rewrite (@sum_upto_ext R reals _ _ (fun j => scaled n (fun j => entry reals M [r; j]) j * scaled n (fun j => entry reals M [r; j]) j)%R) by (intros i Hi; rewrite !matrix_entry by auto; auto).
      apply scaled_unit.
    + intros x I. apply in_map_iff in I. destruct I as (i & <- & _). apply sqrt_pos.
    + intros r Hr. rewrite (@sum_upto_ext R reals _ _ (fun i => scaled m (fun i => entry reals M [i; r]) i * scaled m (fun i => entry reals M [i; r]) i)%R) by (intros i Hi; rewrite !matrix_entry by auto; auto).
      apply scaled_unit.
    + intros r Hr. rewrite (@sum_upto_ext R reals _ _ (fun i => delta i r * delta i r)%R) by (intros i Hi; rewrite !matrix_entry by auto; rewrite (delta_sym r i); auto). rewrite delta_unit by auto. lra.
Qed.
