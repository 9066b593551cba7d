(** Proofs about the singular value decomposition of a tensor. *)
From Coq Require Import List Arith Lia Permutation Bool.
Import ListNotations.
From Verif Require Import P_Base M_Base M_Path M_PyTree M_OSet M_Tensor M_Svd S_Tensor S_Svd P_Sum P_Array P_Path P_PyMain P_RandColor P_Split.
From Verif Require Import M_Path M_PyTree.
Set Implicit Arguments.
Unset Strict Implicit.

Section Svd.
Variables (K : Type) (A : alg K).
Hypothesis SR : semiring A.
Variables (linalg_svd : nda K -> nda K * list K * nda K) (large : K -> bool) (names : nat -> nat).
Hypothesis F : factorises A linalg_svd.
Notation sv := (svd A linalg_svd large names).

Lemma infer_l (a : nda K) pre n : prod pre <> 0 -> length (data a) = prod pre * n -> reshape_infer a pre [] = Ok (mkA (pre ++ [n]) (data a)).
Proof.
  intros H0 H. unfold reshape_infer. cbv zeta. change (prod []) with 1. rewrite H, Nat.mul_1_r. rewrite (Nat.mul_comm _ n), Nat.mod_mul, Nat.div_mul by auto.
  destruct (Nat.eqb_spec (prod pre) 0) as [E|_]; [congruence|]. reflexivity.
Qed.
Lemma infer_r (a : nda K) post n : prod post <> 0 -> length (data a) = n * prod post -> reshape_infer a [] post = Ok (mkA (n :: post) (data a)).
Proof.
  intros H0 H. unfold reshape_infer. cbv zeta. change (prod []) with 1. rewrite H, Nat.mul_1_l. rewrite Nat.mod_mul, Nat.div_mul by auto.
  destruct (Nat.eqb_spec (prod post) 0) as [E|_]; [congruence|]. reflexivity.
Qed.
Lemma prod_pos dim (xs : list nat) : (forall x, In x xs -> 0 < dim x) -> prod (map dim xs) <> 0.
Proof.
  induction xs as [|x xs IH]; intros H; [discriminate|]. cbn [map prod fold_right]. change (fold_right Nat.mul 1 (map dim xs)) with (prod (map dim xs)).
  pose proof (H x (or_introl eq_refl)). assert (prod (map dim xs) <> 0) by (apply IH; intros; apply H; right; auto). nia.
Qed.

(** the sum over the kept positions *)
Lemma sum_filter (p : nat -> bool) (f : nat -> K) l :
  fold_right (add A) (zero A) (map f l) =
  add A (fold_right (add A) (zero A) (map f (filter p l))) (fold_right (add A) (zero A) (map (fun r => if p r then zero A else f r) l)).
Proof.
  destruct SR as [S1 S2 S3 S4 S5 S6 S7 S8]. induction l as [|x l IH]; simpl; [symmetry; apply S1|]. destruct (p x); simpl; rewrite IH.
  - rewrite S1. apply S3.
  - set (u := fold_right _ _ (map f (filter p l))). set (w := fold_right _ _ _). rewrite (S3 (f x)), (S2 (f x) u), <- (S3 u (f x) w). auto.
Qed.
Lemma map_nth_seq (T : Type) (g : nat -> T) (ps : list nat) : map (fun i => g (nth i ps 0)) (seq 0 (length ps)) = map g ps.
Proof.
  induction ps as [|p ps IH]; auto. cbn [length seq map nth]. f_equal. rewrite <- seq_shift, map_map. cbn [nth]. auto.
Qed.
Lemma kept_sum (s : list K) (f : nat -> K) :
  sum_upto A (length s) f =
  add A (sum_upto A (length (kept A large s)) (fun r => f (nth r (kept A large s) 0)))
        (sum_upto A (length s) (fun r => if large (nth r s (zero A)) then zero A else f r)).
Proof.
  unfold sum_upto. rewrite (map_nth_seq f). unfold kept. apply (sum_filter (fun r => large (nth r s (zero A)))).
Qed.
Lemma kept_lt s r : r < length (kept A large s) -> nth r (kept A large s) 0 < length s.
Proof.
  intros H. assert (I : In (nth r (kept A large s) 0) (kept A large s)) by (apply nth_In; auto). unfold kept in I at 2. apply filter_In in I. destruct I as [I _].
  apply in_seq in I. lia.
Qed.

(** the name of the new index *)
Definition named (fuel : nat) (inds : list nat) (o : option nat) (name : nat) : Prop :=
  match o with Some x => x = name | None => new_name names fuel 0 inds = Ok name end.
Lemma new_name_fresh inds : forall fuel k x, new_name names fuel k inds = Ok x -> ~ In x inds.
Proof.
  induction fuel as [|f IH]; intros k x H; [discriminate|]. cbn [new_name] in H. destruct (memb (names k) inds) eqn:E; [eauto|].
  inversion H; subst. intros I. apply memb_In in I. congruence.
Qed.

Lemma perm_parts (inds left : list nat) : NoDup inds -> NoDup left -> (forall x, In x left -> In x inds) ->
  Permutation (left ++ filter (fun x => negb (memb x left)) inds) inds.
Proof.
  intros N1 N2 H. apply NoDup_Permutation; auto.
  - apply NoDup_app. split; auto. split; [apply NoDup_filter; auto|]. intros x I J. apply filter_In in J. destruct J as [_ J]. apply memb_In in I.
    rewrite I in J. discriminate.
  - intros x. rewrite in_app_iff, filter_In. destruct (memb x left) eqn:E.
    + apply memb_In in E. split; auto. 
    + assert (~ In x left) by (intros I; apply memb_In in I; congruence). cbn. tauto.
Qed.

Lemma entry_app (a : nda K) sh1 sh2 i1 i2 : length i1 = length sh1 -> shape a = sh1 ++ sh2 ->
  entry A a (i1 ++ i2) = nth (ravel sh1 i1 * prod sh2 + ravel sh2 i2) (data a) (zero A).
Proof. intros L S. unfold entry. rewrite S, ravel_app by auto. auto. Qed.

Lemma svd_core fuel (a : nda K) dim inds left o name :
  NoDup inds -> NoDup left -> (forall x, In x left -> In x inds) -> left <> [] -> length left <> length inds ->
  well_shaped a -> shape a = map dim inds -> (forall x, In x inds -> 0 < dim x) ->
  named fuel inds o name -> ~ In name inds ->
  let right := filter (fun x => negb (memb x left)) inds in
  let row := fun v => ravel (map dim left) (map v left) in
  let col := fun v => ravel (map dim right) (map v right) in
  exists M u s vh U Sg V,
    well_shaped M /\ shape M = [prod (map dim left); prod (map dim right)] /\
    (forall v, in_range dim inds v -> entry A M [row v; col v] = entry_at A a inds v) /\
    linalg_svd M = (u, s, vh) /\
    sv fuel a inds left o = Ok [(U, left ++ [name]); (Sg, [name]); (V, name :: right)] /\
    well_shaped U /\ well_shaped Sg /\ well_shaped V /\
    shape U = map dim left ++ [length (kept A large s)] /\ shape Sg = [length (kept A large s)] /\ shape V = length (kept A large s) :: map dim right /\
    (forall v r, in_range dim inds v -> r < length (kept A large s) ->
       entry A U (map v left ++ [r]) = entry A u [row v; nth r (kept A large s) 0] /\
       entry A Sg [r] = nth (nth r (kept A large s) 0) s (zero A) /\
       entry A V (r :: map v right) = entry A vh [nth r (kept A large s) 0; col v]).
Proof.
  intros N1 N2 HI HL HE W Sa Pos Hn Fr right row col. pose proof (perm_parts N1 N2 HI) as P. fold right in P.
  assert (HR : forall x, In x right -> In x inds) by (intros x I; apply filter_In in I; tauto).
  assert (T : tensor A dim a inds (fun v => entry_at A a inds v)) by (split; [|split]; auto).
  destruct (transpose_ok T N1 P) as (t & Et & Wt & St & Ent).
  assert (PL : prod (map dim left) <> 0) by (apply prod_pos; auto). assert (PR : prod (map dim right) <> 0) by (apply prod_pos; auto).
  assert (Lt : length (data t) = prod (map dim left) * prod (map dim right)) by (rewrite Wt, St, map_app, prod_app; auto).
  pose (M := mkA [prod (map dim left); prod (map dim right)] (data t)).
  assert (WM : well_shaped M) by (unfold well_shaped, M; cbn [data shape]; rewrite Lt; simpl; lia).
  assert (SM : shape M = [prod (map dim left); prod (map dim right)]) by auto.
  destruct (linalg_svd M) as [[u s] vh] eqn:Eu. pose proof (F WM SM) as FM. rewrite Eu in FM. destruct FM as (Ls & Wu & Wv & Su & Sv & Eq).
  set (ps := kept A large s) in *.
  assert (LU : length (data (columns A u ps)) = prod (map dim left) * length ps).
  { unfold columns. cbv zeta. cbn [data]. rewrite map_length, indices_length, Su. simpl. lia. }
  assert (LV : length (data (rows A vh ps)) = length ps * prod (map dim right)).
  { unfold rows. cbv zeta. cbn [data]. rewrite map_length, indices_length, Sv. simpl. lia. }
  assert (Rr : forall v, in_range dim inds v -> valid (map dim left) (map v left) /\ valid (map dim right) (map v right)).
  { intros v Hv. split; apply valid_dims; intros x I; apply Hv; auto. }
  exists M, u, s, vh, (mkA (map dim left ++ [length ps]) (data (columns A u ps))), (mkA [length ps] (map (fun r => nth r s (zero A)) ps)),
    (mkA (length ps :: map dim right) (data (rows A vh ps))).
  split; auto. split; auto. split.
  { intros v Hv. destruct (Rr v Hv) as [V1 V2]. rewrite <- (Ent v) by (intros x I; apply Hv; eapply Permutation_in; eauto). unfold entry_at, entry, M. cbn [shape data].
    rewrite St, !map_app, ravel_app by (rewrite !map_length; auto). f_equal. unfold row, col. cbn [ravel prod fold_right]. lia. }
  split; auto. split.
  { unfold svd. rewrite Sa, map_length, Nat.eqb_refl. cbn [negb].
    assert (E1 : forallb (fun x => memb x inds) left = true) by (apply forallb_forall; intros x I; apply memb_In; auto). rewrite E1. cbn [negb].
    assert (E2 : match o with Some x => memb x inds | None => false end = false).
    { destruct o as [x|]; auto. simpl in Hn. subst x. destruct (memb name inds) eqn:E; auto. apply memb_In in E. contradiction. }
    rewrite E2. assert (E3 : match o with Some x => Ok x | None => new_name names fuel 0 inds end = Ok name) by (destruct o; simpl in Hn; [subst|]; auto).
    rewrite E3. cbn [bind]. destruct (Nat.eqb_spec (length left) 0) as [E|_]; [destruct left; [contradiction|discriminate]|].
    destruct (Nat.eqb_spec (length left) (length inds)) as [E|_]; [contradiction|]. cbn [orb]. cbv zeta. fold right.
    assert (D : forall x, In x inds -> dict_get (dict_of (combine inds (map dim inds))) x = Ok (dim x)).
    { intros x I. apply dict_of_get.
      - intros k w C. clear - C. induction inds as [|y l IH]; [destruct C|]. destruct C as [C|C]; [inversion C; auto|auto].
      - assert (Q : forall l : list nat, map fst (combine l (map dim l)) = l) by (induction l; simpl; congruence). rewrite Q. auto. }
    rewrite (sizes_ok (dim:=dim)) by auto. cbn [bind]. rewrite (sizes_ok (dim:=dim)) by auto. cbn [bind].
    rewrite mapM_index by (intros x I; eapply Permutation_in; eauto). cbn [bind]. rewrite Et. cbn [bind].
    rewrite (@infer_l t [prod (map dim left)] (prod (map dim right))); [|simpl; lia|simpl; lia]. cbn [bind]. cbn [app].
    fold M. rewrite Eu. fold ps. rewrite (@infer_l (columns A u ps) (map dim left) (length ps)) by auto. cbn [bind].
    rewrite (@infer_r (rows A vh ps) (map dim right) (length ps)) by auto. cbn [bind]. reflexivity. }
  split; [unfold well_shaped; cbn [data shape]; rewrite LU, prod_app; simpl; lia|].
  split; [unfold well_shaped; cbn [data shape]; rewrite map_length; simpl; lia|].
  split; [unfold well_shaped; cbn [data shape]; rewrite LV; reflexivity|].
  split; auto. split; auto. split; auto.
  intros v r Hv Hr. destruct (Rr v Hv) as [V1 V2]. split; [|split].
  - rewrite (@entry_app _ (map dim left) [length ps] (map v left) [r]) by (rewrite ?map_length; auto). cbn [data].
    assert (VV : valid [prod (map dim left); length ps] [row v; r]) by (repeat constructor; auto; apply ravel_lt; auto).
    pose proof (@entry_map K A _ (fun ix => entry A u [nth 0 ix 0; nth (nth 1 ix 0) ps 0]) _ VV) as Q. etransitivity; [|exact Q]. unfold columns. cbv zeta. cbn [shape data].
    rewrite Su. unfold entry at 2. cbn [shape data]. f_equal.
  - unfold entry. cbn [shape data ravel]. change (prod []) with 1. rewrite Nat.mul_1_r, Nat.add_0_r.
    rewrite (nth_indep _ _ (nth 0 s (zero A))) by (rewrite map_length; exact Hr). rewrite (map_nth (fun r => nth r s (zero A))). reflexivity.
  - change (r :: map v right) with ([r] ++ map v right). rewrite (@entry_app _ [length ps] (map dim right) [r] (map v right)) by auto. cbn [data].
    assert (VV : valid [length ps; prod (map dim right)] [r; col v]) by (repeat constructor; auto; apply ravel_lt; auto).
    pose proof (@entry_map K A _ (fun ix => entry A vh [nth (nth 0 ix 0) ps 0; nth 1 ix 0]) _ VV) as Q. etransitivity; [|exact Q]. unfold rows. cbv zeta. cbn [shape data].
    rewrite Sv. unfold entry at 2. cbn [shape data]. f_equal. unfold col. cbn [ravel prod fold_right]. lia.
Qed.

Lemma svd_sum fuel (a : nda K) dim inds left o name :
  NoDup inds -> NoDup left -> (forall x, In x left -> In x inds) -> left <> [] -> length left <> length inds ->
  well_shaped a -> shape a = map dim inds -> (forall x, In x inds -> 0 < dim x) ->
  named fuel inds o name -> ~ In name inds ->
  let right := filter (fun x => negb (memb x left)) inds in
  exists M u s vh U Sg V k,
    well_shaped M /\ shape M = [prod (map dim left); prod (map dim right)] /\ linalg_svd M = (u, s, vh) /\
    sv fuel a inds left o = Ok [(U, left ++ [name]); (Sg, [name]); (V, name :: right)] /\
    well_shaped U /\ well_shaped Sg /\ well_shaped V /\
    shape U = map dim left ++ [k] /\ shape Sg = [k] /\ shape V = k :: map dim right /\
    k = length (filter large s) /\
    (forall r, r < k -> large (entry A Sg [r]) = true) /\
    (forall v, in_range dim inds v -> exists i j, i < prod (map dim left) /\ j < prod (map dim right) /\
       entry_at A a inds v = add A (joined A dim (U, left ++ [name]) (Sg, [name]) (V, name :: right) name k v)
         (sum_upto A (length s) (fun r => if large (nth r s (zero A)) then zero A else mul A (mul A (entry A u [i; r]) (nth r s (zero A))) (entry A vh [r; j])))).
Proof.
  intros N1 N2 HI HL HE W Sa Pos Hn Fr right.
  destruct (@svd_core fuel a dim inds left o name) as (M & u & s & vh & U & Sg & V & WM & SM & EM & Eu & Es & WU & WS & WV & SU & SS & SV & En); auto.
  fold right in SM, EM, Es, SV, En. pose proof (F WM SM) as FM. rewrite Eu in FM. destruct FM as (Ls & Wu & Wv & Su & Sv & Eq).
  exists M, u, s, vh, U, Sg, V, (length (kept A large s)).
  assert (KL : length (kept A large s) = length (filter large s)).
  { unfold kept. clear. transitivity (length (filter large (map (fun r => nth r s (zero A)) (seq 0 (length s))))).
    - generalize (seq 0 (length s)). induction l as [|x l IH]; auto. cbn [map filter]. destruct (large (nth x s (zero A))); simpl; auto.
    - f_equal. f_equal. induction s as [|x s IH]; auto. cbn [length seq map nth]. f_equal. rewrite <- seq_shift, map_map. auto. }
  do 10 (split; auto).
  assert (R0 : in_range dim inds (fun _ => 0)) by (intros x I; auto).
  split; auto. split.
  { intros r Hr. destruct (En _ r R0 Hr) as (_ & E & _). rewrite E.
    assert (I : In (nth r (kept A large s) 0) (kept A large s)) by (apply nth_In; auto). unfold kept in I at 2. apply filter_In in I. apply I. }
  intros v Hv. exists (ravel (map dim left) (map v left)), (ravel (map dim right) (map v right)).
  assert (L1 : ravel (map dim left) (map v left) < prod (map dim left)) by (apply ravel_lt, valid_dims; intros x I; apply Hv; auto).
  assert (L2 : ravel (map dim right) (map v right) < prod (map dim right)).
  { apply ravel_lt, valid_dims. intros x I. apply Hv. apply filter_In in I. tauto. }
  split; auto. split; auto. rewrite <- (EM v Hv), Eq by auto. rewrite kept_sum. f_equal. unfold joined. cbn [sum_over fst snd]. rewrite assign_same.
  apply sum_upto_ext. intros r Hr. destruct (En v r Hv Hr) as (E1 & E2 & E3).
  assert (NM : forall l, (forall x, In x l -> In x inds) -> map (assign v name r) l = map v l).
  { intros l Hl. apply map_ext_in. intros x I. apply assign_other. intros ->. apply Fr. auto. }
  unfold entry_at. rewrite map_app. cbn [map]. rewrite assign_same, !NM; auto; [|intros x I; apply filter_In in I; tauto]. rewrite E1, E2, E3. auto.
Qed.

Lemma sum_zero n f : (forall r, r < n -> f r = zero A) -> sum_upto A n f = zero A.
Proof. intros H. rewrite <- (sum_upto_0 SR n). apply sum_upto_ext. auto. Qed.

(** nothing to split *)
Lemma svd_whole fuel (a : nda K) dim inds left o name :
  NoDup inds -> left = [] \/ Permutation left inds -> well_shaped a -> shape a = map dim inds -> named fuel inds o name -> ~ In name inds ->
  exists t l, sv fuel a inds left o = Ok [(t, l)] /\ l = (if length left =? 0 then inds else left) /\ well_shaped t /\ shape t = map dim l /\
    forall v, in_range dim inds v -> entry_at A t l v = entry_at A a inds v.
Proof.
  intros N1 HL W Sa Hn Fr. set (l := if length left =? 0 then inds else left).
  assert (P : Permutation l inds).
  { unfold l. destruct HL as [->|P]; [apply Permutation_refl|]. destruct (Nat.eqb_spec (length left) 0); [apply Permutation_refl|exact P]. }
  assert (T : tensor A dim a inds (fun v => entry_at A a inds v)) by (split; [|split]; auto).
  destruct (transpose_ok T N1 P) as (t & Et & Wt & St & Ent). exists t, l. split; [|split; [|split; [|split]]]; auto.
  - unfold svd. rewrite Sa, map_length, Nat.eqb_refl. cbn [negb].
    assert (E1 : forallb (fun x => memb x inds) left = true).
    { apply forallb_forall. intros x I. apply memb_In. destruct HL as [->|HL]; [destruct I|]. exact (Permutation_in _ HL I). }
    rewrite E1. cbn [negb].
    assert (E2 : match o with Some x => memb x inds | None => false end = false).
    { destruct o as [x|]; auto. simpl in Hn. subst x. destruct (memb name inds) eqn:E; auto. apply memb_In in E. contradiction. }
    rewrite E2. assert (E3 : match o with Some x => Ok x | None => new_name names fuel 0 inds end = Ok name) by (destruct o; simpl in Hn; [subst|]; auto).
    rewrite E3. cbn [bind].
    assert (E4 : (length left =? 0) || (length left =? length inds) = true).
    { destruct HL as [->|HL]; auto. rewrite (Permutation_length HL), Nat.eqb_refl. apply orb_true_r. }
    rewrite E4. cbv zeta. fold l. rewrite mapM_index by (intros x I; eapply Permutation_in; eauto). cbn [bind]. rewrite Et. auto.
  - intros v Hv. apply Ent. intros x I. apply Hv. eapply Permutation_in; eauto.
Qed.

(** what is refused *)
Lemma svd_refuses fuel (a : nda K) inds left o :
  length (shape a) <> length inds \/ (exists x, In x left /\ ~ In x inds) \/ (exists x, o = Some x /\ In x inds) -> sv fuel a inds left o = Err Throw.
Proof.
  intros H. unfold svd. destruct (Nat.eqb_spec (length (shape a)) (length inds)) as [E|E]; cbn [negb]; auto.
  destruct (forallb (fun x => memb x inds) left) eqn:E1; cbn [negb]; auto.
  destruct H as [H|[(x & I & J)|(x & -> & I)]]; [contradiction| |].
  - rewrite forallb_forall in E1. apply E1, memb_In in I. contradiction.
  - apply memb_In in I. rewrite I. auto.
Qed.
Lemma new_name_total inds : forall fuel k j, k <= j -> j < k + fuel -> ~ In (names j) inds -> exists x, new_name names fuel k inds = Ok x.
Proof.
  induction fuel as [|f IH]; intros k j H1 H2 H3; [lia|]. cbn [new_name]. destruct (memb (names k) inds) eqn:E; [|eauto].
  apply memb_In in E. apply (IH (S k) j); auto; [|lia]. assert (j <> k) by (intros ->; contradiction). lia.
Qed.
Lemma new_name_loops inds c : (forall k, names k = c) -> In c inds -> forall fuel k, new_name names fuel k inds = Err Fuel.
Proof.
  intros H I. induction fuel as [|f IH]; intros k; auto. cbn [new_name]. rewrite H. apply memb_In in I. rewrite I. auto.
Qed.
Lemma svd_loops fuel (a : nda K) inds left c : (forall k, names k = c) -> In c inds -> length (shape a) = length inds -> (forall x, In x left -> In x inds) ->
  sv fuel a inds left None = Err Fuel.
Proof.
  intros H I L HL. unfold svd. rewrite L, Nat.eqb_refl. cbn [negb].
  assert (E1 : forallb (fun x => memb x inds) left = true) by (apply forallb_forall; intros x J; apply memb_In; auto). rewrite E1. cbn [negb].
  rewrite (new_name_loops H I). auto.
Qed.

(** an empty dimension *)
Lemma prod_zero dim (xs : list nat) x : In x xs -> dim x = 0 -> prod (map dim xs) = 0.
Proof.
  induction xs as [|y xs IH]; intros I H; [destruct I|]. cbn [map prod fold_right]. change (fold_right Nat.mul 1 (map dim xs)) with (prod (map dim xs)).
  destruct I as [->|I]; [lia|]. rewrite IH; auto.
Qed.
Lemma svd_empty fuel (a : nda K) dim inds left o name x :
  NoDup inds -> NoDup left -> (forall x, In x left -> In x inds) -> left <> [] -> length left <> length inds ->
  well_shaped a -> shape a = map dim inds -> In x inds -> dim x = 0 ->
  named fuel inds o name -> ~ In name inds -> sv fuel a inds left o = Err Throw.
Proof.
  intros N1 N2 HI HL HE W Sa Ix Dx Hn Fr. set (right := filter (fun x => negb (memb x left)) inds). pose proof (perm_parts N1 N2 HI) as P. fold right in P.
  assert (HR : forall x, In x right -> In x inds) by (intros y I; apply filter_In in I; tauto).
  assert (T : tensor A dim a inds (fun v => entry_at A a inds v)) by (split; [|split]; auto).
  destruct (transpose_ok T N1 P) as (t & Et & Wt & St & Ent).
  unfold svd. rewrite Sa, map_length, Nat.eqb_refl. cbn [negb].
  assert (E1 : forallb (fun x => memb x inds) left = true) by (apply forallb_forall; intros y I; apply memb_In; auto). rewrite E1. cbn [negb].
  assert (E2 : match o with Some x => memb x inds | None => false end = false).
  { destruct o as [y|]; auto. simpl in Hn. subst y. destruct (memb name inds) eqn:E; auto. apply memb_In in E. contradiction. }
  rewrite E2. assert (E3 : match o with Some x => Ok x | None => new_name names fuel 0 inds end = Ok name) by (destruct o; simpl in Hn; [subst|]; auto).
  rewrite E3. cbn [bind]. destruct (Nat.eqb_spec (length left) 0) as [E|_]; [destruct left; [contradiction|discriminate]|].
  destruct (Nat.eqb_spec (length left) (length inds)) as [E|_]; [contradiction|]. cbn [orb]. cbv zeta. fold right.
  assert (D : forall x, In x inds -> dict_get (dict_of (combine inds (map dim inds))) x = Ok (dim x)).
  { intros y I. apply dict_of_get.
    - intros k w C. clear - C. induction inds as [|z l IH]; [destruct C|]. destruct C as [C|C]; [inversion C; auto|auto].
    - assert (Q : forall l : list nat, map fst (combine l (map dim l)) = l) by (induction l; simpl; congruence). rewrite Q. auto. }
  rewrite (sizes_ok (dim:=dim)) by auto. cbn [bind]. rewrite (sizes_ok (dim:=dim)) by auto. cbn [bind].
  rewrite mapM_index by (intros y I; eapply Permutation_in; eauto). cbn [bind]. rewrite Et. cbn [bind].
  destruct (Nat.eq_dec (prod (map dim left)) 0) as [Z|Z].
  { unfold reshape_infer at 1. cbv zeta. cbn [prod fold_right]. change (fold_right Nat.mul 1 (map dim left)) with (prod (map dim left)). rewrite Z. reflexivity. }
  assert (Zr : prod (map dim right) = 0).
  { assert (I : In x (left ++ right)) by (eapply Permutation_in; [apply Permutation_sym; exact P|auto]). apply in_app_iff in I.
    destruct I as [I|I]; [exfalso; apply Z|]; eapply prod_zero; eauto. }
  rewrite (@infer_l t [prod (map dim left)] 0); [|simpl; lia|rewrite Wt, St, map_app, prod_app, Zr; lia]. cbn [bind].
  destruct (linalg_svd _) as [[u s] vh]. destruct (reshape_infer (columns A u _) (map dim left) []) as [ul|e] eqn:Eul; cbn [bind].
  - unfold reshape_infer. cbv zeta. rewrite Zr, Nat.mul_0_r. reflexivity.
  - unfold reshape_infer in Eul. cbv zeta in Eul. destruct (_ || _) in Eul; inversion Eul. auto.
Qed.
End Svd.
