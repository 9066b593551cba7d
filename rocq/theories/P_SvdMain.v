(** The decomposition of a tensor: final statements. *)
From Coq Require Import List Arith Lia Permutation Bool Reals Lra.
Import ListNotations.
From Verif Require Import P_Base M_Base M_Path M_PyTree M_OSet M_Tensor M_Svd S_Tensor S_Svd S_SvdReal P_Sum P_Array P_Path P_Split P_Svd P_SvdReal.
From Verif Require Import M_Path M_PyTree.
Set Implicit Arguments.
Unset Strict Implicit.
Local Open Scope nat_scope.

Lemma usable_named names fuel inds o : usable names fuel inds o -> exists name, named names fuel inds o name /\ ~ In name inds /\ (forall x, o = Some x -> name = x).
Proof.
  destruct o as [x|]; simpl; intros H.
  - exists x. split; auto. split; auto. congruence.
  - destruct H as (k & L & H). destruct (@new_name_total names inds fuel 0 k) as (x & E); auto; [lia|]. exists x. split; auto. split; [eapply new_name_fresh; eauto|]. discriminate.
Qed.
Lemma part_lengths left inds : NoDup inds -> proper_part left inds -> length left <> length inds.
Proof.
  intros N (N1 & H & _ & x & I & J) E. apply J. assert (P : incl inds left) by (apply NoDup_length_incl; auto; lia). apply P. auto.
Qed.
Lemma right_part (left inds right : list nat) : right = filter (fun x => negb (memb x left)) inds -> forall x, In x right <-> In x inds /\ ~ In x left.
Proof.
  intros -> x. rewrite filter_In. destruct (memb x left) eqn:E; cbn [negb].
  - apply memb_In in E. split; [intros [_ ?]; discriminate|tauto].
  - assert (~ In x left) by (intros I; apply memb_In in I; congruence). tauto.
Qed.

Section Exact.
Variables (K : Type) (A : alg K) (f : nda K -> nda K * list K * nda K) (large : K -> bool) (names : nat -> nat).

Lemma svd_exact fuel (a : nda K) dim inds left o : semiring A -> factorises A f ->
  (forall x, large x = false -> x = zero A) ->
  NoDup inds -> proper_part left inds -> well_shaped a -> shape a = map dim inds -> (forall x, In x inds -> 0 < dim x) ->
  usable names fuel inds o ->
  exists U Sg V name right k,
    svd A f large names fuel a inds left o = Ok [(U, left ++ [name]); (Sg, [name]); (V, name :: right)] /\
    ~ In name inds /\ (forall x, o = Some x -> name = x) /\
    Permutation (left ++ right) inds /\
    well_shaped U /\ well_shaped Sg /\ well_shaped V /\
    shape U = map dim left ++ [k] /\ shape Sg = [k] /\ shape V = k :: map dim right /\
    k <= Nat.min (prod (map dim left)) (prod (map dim right)) /\
    (forall r, r < k -> large (entry A Sg [r]) = true) /\
    forall v, in_range dim inds v ->
      entry_at A a inds v = joined A dim (U, left ++ [name]) (Sg, [name]) (V, name :: right) name k v.
Proof.
  intros SR F Z N1 PP W Sa Pos Us. destruct (usable_named Us) as (name & Hn & Fr & Hx). pose proof (part_lengths N1 PP) as HE. destruct PP as (N2 & HI & HL & _).
  destruct (@svd_sum K A SR f large names F fuel a dim inds left o name) as (M & u & s & vh & U & Sg & V & k & WM & SM & Eu & Es & WU & WS & WV & SU & SS & SV & Ek & Lg & En); auto.
  exists U, Sg, V, name, (filter (fun x => negb (memb x left)) inds), k.
  split; auto. split; auto. split; auto. split; [apply perm_parts; auto|]. do 6 (split; auto). split.
  { pose proof (F _ _ _ WM SM) as FM. rewrite Eu in FM. destruct FM as (Ls & _). rewrite <- Ls, Ek. clear. induction s as [|x s IH]; simpl; auto. destruct (large x); simpl; lia. }
  split; auto. intros v Hv. destruct (En v Hv) as (i & j & _ & _ & E). rewrite E. rewrite (sum_zero SR) at 1; [destruct SR as [S1 S2 S3 S4 S5 S6 S7 S8]; rewrite S2; apply S1|].
  intros r _. destruct (large (nth r s (zero A))) eqn:EL; auto. rewrite (Z _ EL). destruct SR as [S1 S2 S3 S4 S5 S6 S7 S8].
  rewrite (S6 _ (zero A)), S5. apply S5.
Qed.
Lemma svd_trivial fuel (a : nda K) dim inds left o : semiring A ->
  NoDup inds -> left = [] \/ Permutation left inds -> well_shaped a -> shape a = map dim inds -> usable names fuel inds o ->
  exists t l, svd A f large names fuel a inds left o = Ok [(t, l)] /\ (left = [] -> l = inds) /\ (left <> [] -> l = left) /\ well_shaped t /\ shape t = map dim l /\
    forall v, in_range dim inds v -> entry_at A t l v = entry_at A a inds v.
Proof.
  intros SR N1 HL W Sa Us. destruct (usable_named Us) as (name & Hn & Fr & _).
  destruct (@svd_whole K A f large names fuel a dim inds left o name) as (t & l & E & El & Wt & St & En); auto. exists t, l. split; auto.
  split; [intros ->; auto|]. split; auto. intros HN. rewrite El. destruct left; [contradiction|]. auto.
Qed.
Lemma svd_no_empty fuel (a : nda K) dim inds left o x : 
  NoDup inds -> proper_part left inds -> well_shaped a -> shape a = map dim inds -> In x inds -> dim x = 0 -> usable names fuel inds o ->
  svd A f large names fuel a inds left o = Err Throw.
Proof.
  intros N1 PP W Sa I D Us. destruct (usable_named Us) as (name & Hn & Fr & Hx). pose proof (part_lengths N1 PP) as HE. destruct PP as (N2 & HI & HL & _).
  eapply svd_empty; eauto.
Qed.
End Exact.

Lemma svd_approx f names atol fuel (a : nda R) dim inds left o :
  decomposes f -> (0 <= atol)%R -> NoDup inds -> proper_part left inds -> well_shaped a -> shape a = map dim inds -> (forall x, In x inds -> 0 < dim x) ->
  usable names fuel inds o ->
  exists U Sg V name right k,
    svd reals f (at_least atol) names fuel a inds left o = Ok [(U, left ++ [name]); (Sg, [name]); (V, name :: right)] /\
    ~ In name inds /\ Permutation (left ++ right) inds /\
    shape U = map dim left ++ [k] /\ shape Sg = [k] /\ shape V = k :: map dim right /\
    (forall r, r < k -> (atol <= entry reals Sg [r])%R) /\
    forall v, in_range dim inds v ->
      (Rabs (entry_at reals a inds v - joined reals dim (U, left ++ [name]) (Sg, [name]) (V, name :: right) name k v)
       <= INR (Nat.min (prod (map dim left)) (prod (map dim right)) - k) * atol)%R.
Proof.
  intros D Ha N1 PP W Sa Pos Us. destruct (usable_named Us) as (name & Hn & Fr & Hx). pose proof (part_lengths N1 PP) as HE. destruct PP as (N2 & HI & HL & _).
  destruct (@svd_error f names atol fuel a dim inds left o name) as (U & Sg & V & k & Es & WU & WS & WV & SU & SS & SV & Lk & Lg & En); auto.
  exists U, Sg, V, name, (filter (fun x => negb (memb x left)) inds), k.
  split; auto. split; auto. split; [apply perm_parts; auto|]. do 4 (split; auto).
Qed.

(** a factorisation for every commutative semiring: the identity on the shorter side *)
Section Some.
Variables (K : Type) (A : alg K).
Definition kmatrix (m n : nat) (g : nat -> nat -> K) : nda K := mkA [m; n] (map (fun ix => g (nth 0 ix 0) (nth 1 ix 0)) (indices [m; n])).
Definition kdelta (i j : nat) : K := if i =? j then one A else zero A.
Definition plain (M : nda K) : nda K * list K * nda K :=
  match shape M with
  | [m; n] => if m <=? n then (kmatrix m m kdelta, repeat (one A) m, M) else (M, repeat (one A) n, kmatrix n n kdelta)
  | _ => (M, [], M)
  end.
Lemma kmatrix_entry m n g i j : i < m -> j < n -> entry A (kmatrix m n g) [i; j] = g i j.
Proof. intros Hi Hj. unfold kmatrix. rewrite entry_map; auto. repeat constructor; auto. Qed.
Lemma sum_kdelta n i (g : nat -> K) : semiring A -> i < n -> sum_upto A n (fun r => mul A (kdelta i r) (g r)) = g i.
Proof.
  intros [S1 S2 S3 S4 S5 S6 S7 S8] H. unfold sum_upto.
  assert (Z : forall k s, i < s -> fold_right (add A) (zero A) (map (fun r => mul A (kdelta i r) (g r)) (seq s k)) = zero A).
  { induction k as [|k IH]; intros s L; auto. cbn [seq map fold_right]. rewrite IH by lia. unfold kdelta. destruct (Nat.eqb_spec i s); [lia|]. rewrite S5. apply S1. }
  assert (G : forall k s, (s <= i < s + k) -> fold_right (add A) (zero A) (map (fun r => mul A (kdelta i r) (g r)) (seq s k)) = g i).
  { induction k as [|k IH]; intros s L; [lia|]. cbn [seq map fold_right]. unfold kdelta at 1. destruct (Nat.eqb_spec i s) as [->|N].
    - rewrite Z, S4, S2 by lia. apply S1.
    - rewrite IH, S5 by lia. apply S1. }
  apply (G n 0). lia.
Qed.
Lemma plain_factorises : semiring A -> factorises A plain.
Proof.
  intros SR. pose proof SR as [S1 S2 S3 S4 S5 S6 S7 S8]. intros M m n W S. unfold factors, plain. rewrite S.
  assert (NR : forall n r, r < n -> nth r (repeat (one A) n) (zero A) = one A).
  { induction n0 as [|q IH]; intros [|r] L; try lia; auto. cbn [repeat nth]. apply IH. lia. }
  destruct (Nat.leb_spec m n) as [L|L]; rewrite repeat_length; (split; [lia|]).
  - split; [apply well_map|]. split; auto. split; auto. split; auto. intros i j Hi Hj. rewrite <- (@sum_kdelta m i (fun r => entry A M [r; j])) by auto.
    apply sum_upto_ext. intros r Hr. rewrite kmatrix_entry, NR, (S6 (kdelta i r) (one A)), S4 by auto. auto.
  - split; auto. split; [apply well_map|]. split; auto. split; auto. intros i j Hi Hj. rewrite <- (@sum_kdelta n j (fun r => entry A M [i; r])) by auto.
    apply sum_upto_ext. intros r Hr. rewrite kmatrix_entry, NR, (S6 (entry A M [i; r]) (one A)), S4 by auto. rewrite S6. f_equal.
    unfold kdelta. rewrite Nat.eqb_sym. auto.
Qed.
End Some.
