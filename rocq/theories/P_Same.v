(** Gates that are equal up to a constant, and the simplification of circuits. *)
From Coq Require Import List Arith Lia Permutation Bool Ring.
Import ListNotations.
From Verif Require Import P_Base P_Opt P_PyMain.
From Verif Require Import M_Base M_Path M_PyTree M_OSet M_Tensor M_Contract M_Circuit S_Path S_PyTree S_Random S_Network S_Fuse S_Tensor S_Contract S_Circuit.
From Verif Require Import P_Path P_Split P_PathMain P_PyBuild P_PyTens P_OSet P_Sum P_Array P_Tensordot P_ContractMain P_DecomposeSum P_Circuit P_Gates.
From Verif Require Import M_Path M_PyTree.
Set Implicit Arguments.
Unset Strict Implicit.

Lemma number_inj l : forall k, length l = length k -> Forall (fun b => b < 2) l -> Forall (fun b => b < 2) k -> number l = number k -> l = k.
Proof.
  intros k. rewrite <- !number_ravel. revert k. induction l as [|x l IH]; intros [|y k] E Hl Hk H; try discriminate; auto. cbn [length repeat ravel] in H. inversion E as [E']. inversion Hl; subst. inversion Hk; subst.
  assert (A1 : ravel (repeat 2 (length l)) l < prod (repeat 2 (length l))) by (apply ravel_lt; clear - H3; induction H3; simpl; constructor; auto).
  assert (A2 : ravel (repeat 2 (length k)) k < prod (repeat 2 (length k))) by (apply ravel_lt; clear - H5; induction H5; simpl; constructor; auto).
  rewrite E' in H, A1. assert (x = y) by nia. subst y. f_equal. apply IH; auto. rewrite E'. lia.
Qed.

Lemma combine_nth_in (B : Type) (l k : list B) d d' i : length l = length k -> i < length l -> In (nth i l d, nth i k d') (combine l k).
Proof.
  revert k i. induction l as [|x l IH]; intros [|y k] i E H; simpl in *; try lia. destruct i; [left; auto|right]. apply IH; lia.
Qed.
Lemma combine_in_nth (B : Type) (l k : list B) d d' x y : In (x, y) (combine l k) -> exists i, i < length l /\ i < length k /\ x = nth i l d /\ y = nth i k d'.
Proof.
  revert k. induction l as [|a l IH]; intros [|b k] H; simpl in *; try tauto. destruct H as [H|H]; [inversion H; exists 0; subst; repeat split; lia|].
  apply IH in H. destruct H as (i & H1 & H2 & -> & ->). exists (S i). repeat split; auto; lia.
Qed.

Section Same.
Variable K : Type.
Variable F : nums K.
Local Notation A := (n_alg F).
Hypothesis NF : numbers F.
Let SR : semiring A := num_ring _ NF.
Let SR1 : semi_ring_theory (zero A) (one A) (add A) (mul A) eq := num_ring _ NF.
Add Ring KR : SR1.
Let EQ := num_eqb _ NF.
Local Notation two := (fun _ : nat => 2).
Notation so := (sum_over A two).
Variable ix : nat -> mark -> nat.
Hypothesis IX : distinct ix.

Lemma cancel_r x y z : z <> zero A -> mul A x z = mul A y z -> x = y.
Proof.
  intros Hz E. pose proof (num_div _ NF (one A) z Hz) as I. transitivity (mul A (mul A x z) (n_div F (one A) z)).
  - transitivity (mul A x (mul A (n_div F (one A) z) z)); [rewrite I; ring|ring].
  - rewrite E. transitivity (mul A y (mul A (n_div F (one A) z) z)); [ring|rewrite I; ring].
Qed.
Lemma mul_nz x y : x <> zero A -> y <> zero A -> mul A x y <> zero A.
Proof. intros Hx Hy E. apply Hx. apply (@cancel_r x (zero A) y Hy). rewrite E. ring. Qed.
Lemma conj_zero : n_conj F (zero A) = zero A.
Proof.
  assert (E : zero A = mul A (zero A) (n_conj F (zero A))) by ring. rewrite E at 1. rewrite (conj_mul _ NF), (conj_conj _ NF). ring.
Qed.
Lemma conj_one : n_conj F (one A) = one A.
Proof.
  assert (G : forall y, mul A (n_conj F (one A)) y = y).
  { intros y. rewrite <- (conj_conj _ NF y) at 1. rewrite <- (conj_mul _ NF). replace (mul A (one A) (n_conj F y)) with (n_conj F y) by ring. apply (conj_conj _ NF). }
  transitivity (mul A (n_conj F (one A)) (one A)); [ring|apply G].
Qed.
Lemma conj_sum n f : n_conj F (sum_upto A n f) = sum_upto A n (fun i => n_conj F (f i)).
Proof. unfold sum_upto. induction (seq 0 n) as [|i l IH]; simpl; [apply conj_zero|]. rewrite (conj_add _ NF), IH. auto. Qed.

(** Lists that are equal up to a constant. *)
Definition nz (x : K) : bool := negb (is_zero F x).
Lemma nz_true x : nz x = true <-> x <> zero A.
Proof. unfold nz, is_zero. rewrite negb_true_iff, <- not_true_iff_false, EQ. tauto. Qed.
Lemma ratios la : forall lb, length la = length lb -> forallb id (map2 (fun x y => Bool.eqb (is_zero F x) (is_zero F y)) la lb) = true ->
  map2 (n_div F) (filter nz la) (filter nz lb) = map (fun e => n_div F (fst e) (snd e)) (filter (fun e => nz (fst e)) (combine la lb)).
Proof.
  induction la as [|x la IH]; intros [|y lb] E H; try discriminate; auto. cbn [map2 forallb id] in H. apply andb_true_iff in H. destruct H as [H1 H2]. apply eqb_prop in H1.
  cbn [filter combine fst]. assert (Nx : nz x = nz y) by (unfold nz; rewrite H1; auto). rewrite <- Nx. destruct (nz x); cbn [map2 map fst snd]; rewrite IH; auto.
Qed.
Lemma pattern la : forall lb, length la = length lb -> forallb id (map2 (fun x y => Bool.eqb (is_zero F x) (is_zero F y)) la lb) = true <->
  forall x y, In (x, y) (combine la lb) -> (x = zero A <-> y = zero A).
Proof.
  induction la as [|x la IH]; intros [|y lb] E; try discriminate; simpl; [tauto|]. rewrite andb_true_iff, IH by (simpl in E; lia). unfold id.
  assert (Z : Bool.eqb (is_zero F x) (is_zero F y) = true <-> (x = zero A <-> y = zero A)).
  { rewrite eqb_true_iff. unfold is_zero. rewrite <- (EQ x (zero A)), <- (EQ y (zero A)). destruct (n_eqb F x _), (n_eqb F y _); split; auto; intros; try (symmetry; tauto); intuition discriminate. }
  rewrite Z. split.
  - intros [H1 H2] a b [H|H]; [inversion H; subst; auto|auto].
  - intros H. split; [apply H; auto|]. intros a b Hab. apply H. auto.
Qed.
Lemma prop_lists la lb : length la = length lb -> (exists x, In x la /\ x <> zero A) ->
  exists b, (if negb (forallb id (map2 (fun x y => Bool.eqb (is_zero F x) (is_zero F y)) la lb)) then Ok false else
    match map2 (n_div F) (filter nz la) (filter nz lb) with [] => Err Oob | w0 :: _ => Ok (forallb (fun x => n_eqb F x w0) (map2 (n_div F) (filter nz la) (filter nz lb))) end) = Ok b /\
  (b = true <-> exists c, c <> zero A /\ forall x y, In (x, y) (combine la lb) -> x = mul A c y).
Proof.
  intros E (x0 & H0 & Z0). destruct (forallb id _) eqn:P; cbn [negb].
  - rewrite ratios by auto. pose proof (proj1 (pattern E) P) as P'. set (l := filter (fun e => nz (fst e)) (combine la lb)).
    assert (L : forall x y, In (x, y) l <-> In (x, y) (combine la lb) /\ x <> zero A) by (intros x y; unfold l; rewrite filter_In; cbn [fst]; rewrite nz_true; tauto).
    assert (NE : exists y, In (x0, y) l).
    { destruct (In_nth _ _ (zero A) H0) as (i & Hi & Ei). exists (nth i lb (zero A)). apply L. split; auto. rewrite <- Ei at 1. apply combine_nth_in; auto. }
    destruct NE as (y0 & NE). set (w := map (fun e => n_div F (fst e) (snd e)) l).
    assert (Iw : In (n_div F x0 y0) w) by (apply in_map_iff; exists (x0, y0); auto).
    destruct w as [|w0 w'] eqn:Ew; [destruct Iw|]. eexists. split; [reflexivity|]. rewrite <- Ew. rewrite forallb_forall. split.
    + intros H. assert (Hw : forall x y, In (x, y) l -> n_div F x y = w0) by (intros x y Hxy; apply EQ, H, in_map_iff; exists (x, y); auto).
      assert (G : forall x y, In (x, y) (combine la lb) -> x = mul A w0 y).
      { intros x y Hxy. destruct (n_eqb F x (zero A)) eqn:Ez.
        - apply EQ in Ez. rewrite (proj1 (P' _ _ Hxy) Ez), Ez. ring.
        - assert (Nx : x <> zero A) by (intros Z; apply EQ in Z; congruence). rewrite <- (Hw x y) by (apply L; auto). symmetry. apply (num_div _ NF). intros Z. apply Nx, (P' _ _ Hxy), Z. }
      exists w0. split; auto. intros Z. apply L in NE. destruct NE as [NE _]. apply Z0. rewrite (G _ _ NE), Z. ring.
    + intros (c & Hc & H) x Hx. assert (G : forall z, In z w -> z = c).
      { intros z Hz. apply in_map_iff in Hz. destruct Hz as ([a b] & <- & Hab). apply L in Hab. destruct Hab as [Hab Na]. cbn [fst snd].
        assert (Nb : b <> zero A) by (intros Z; apply Na, (P' _ _ Hab), Z). apply (@cancel_r _ _ b Nb). rewrite (num_div _ NF) by auto. apply H. auto. }
      apply EQ. rewrite (G x Hx). symmetry. apply G. rewrite Ew. left. auto.
  - exists false. split; auto. split; [discriminate|]. intros (c & Hc & H). exfalso. apply not_true_iff_false in P. apply P. apply pattern; auto. intros x y Hxy. rewrite (H _ _ Hxy). split.
    + intros Z. destruct (n_eqb F y (zero A)) eqn:Ez; [apply EQ; auto|]. exfalso. apply (@mul_nz c y); auto. intros Z'. apply EQ in Z'. congruence.
    + intros ->. ring.
Qed.

(** ** same *)
Definition rr (q : nat) := 2 * q.
Definition cc (q : nat) := 2 * q + 1.
Lemma nodup_rc (l : list nat) : NoDup l -> NoDup (map rr l ++ map cc l).
Proof.
  intros N. apply NoDup_app. unfold rr, cc. split; [|split].
  - apply nodup_map_in; auto. intros; lia.
  - apply nodup_map_in; auto. intros; lia.
  - intros x Hx Hy. apply in_map_iff in Hx, Hy. destruct Hx as (a & <- & _), Hy as (b & E & _). lia.
Qed.
Lemma position_unique (l : list nat) x i : NoDup l -> nth_error l i = Some x -> position l x = i.
Proof.
  intros N E. pose proof (nth_error_In _ _ E) as I. destruct (position_in I) as [E' L]. apply (proj1 (NoDup_nth_error l) N); auto. congruence.
Qed.
Lemma rc_positions qa qb : NoDup qb -> incl qa qb -> length qa = length qb ->
  map (position qb) qa ++ map (fun x => x + length qa) (map (position qb) qa) = map (position (map rr qb ++ map cc qb)) (map rr qa ++ map cc qa).
Proof.
  intros N I E. rewrite map_app, !map_map. f_equal; apply map_ext_in; intros q Hq; destruct (position_in (I _ Hq)) as [E' L]; symmetry; apply position_unique; try (apply nodup_rc; auto).
  - rewrite nth_error_app1 by (rewrite map_length; auto). rewrite nth_error_map, E'. auto.
  - rewrite nth_error_app2 by (rewrite map_length; lia). rewrite map_length, E. replace (position qb q + length qb - length qb) with (position qb q) by lia. rewrite nth_error_map, E'. auto.
Qed.

Theorem same_exact (g h : nda K * list nat) : is_gate g -> is_gate h -> nonzero F g ->
  exists b, same F g h = Ok b /\ (b = true <-> proportional F g h).
Proof.
  intros Hg Hh NZ. pose proof (gate_tensor F rr cc Hg) as TG. pose proof (gate_tensor F rr cc Hh) as TH. unfold same. rewrite (is_gate_valid Hg), (is_gate_valid Hh). cbn [negb].
  pose proof Hg as (_ & Ng & Sg & Wg). pose proof Hh as (_ & Nh & Sh & Wh). pose proof (fun v w => eq_refl (element F g v w)) as Vg. 
  destruct g as [a qa], h as [b qb]. cbn [fst snd] in *.
  destruct (negb (length qa =? length qb) || existsb (fun q => negb (memb q qa)) qb) eqn:C.
  { exists false. split; auto. split; [discriminate|]. intros [H _]. exfalso. apply orb_true_iff in C. destruct C as [C|C].
    - apply negb_true_iff, Nat.eqb_neq in C. apply C. apply Permutation_length, NoDup_Permutation; auto.
    - apply existsb_exists in C. destruct C as (q & Hq & C). apply negb_true_iff, memb_nIn in C. apply C, H. auto. }
  apply orb_false_iff in C. destruct C as [C1 C2]. apply negb_false_iff, Nat.eqb_eq in C1.
  assert (Iba : incl qb qa).
  { intros q Hq. destruct (memb q qa) eqn:M; [apply memb_In; auto|]. rewrite <- not_true_iff_false in C2. exfalso. apply C2, existsb_exists. exists q. rewrite M. auto. }
  assert (Iab : incl qa qb) by (apply NoDup_length_incl; auto; lia).
  rewrite mapM_index by auto. cbn [bind]. destruct TG as (a1 & _ & Da & Ta), TH as (b1 & Eb & Db & Tb). rewrite Eb. cbn [bind].
  rewrite (rc_positions Nh Iab C1).
  assert (P : Permutation (map rr qa ++ map cc qa) (map rr qb ++ map cc qb)) by (apply Permutation_app; apply Permutation_map, NoDup_Permutation; auto; intros x; split; auto).
  destruct (@transpose_ok K A two b1 _ _ _ Tb (nodup_rc Nh) P) as (b2 & E2 & T2). rewrite E2. cbn [bind].
  pose proof Ta as (Wa & Sa & Va). pose proof T2 as (W2 & S2 & V2).
  assert (Len : length (data a) = length (data b2)) by (rewrite <- Da, Wa, W2, Sa, S2; auto).
  unfold reshape. assert (Z : prod [2 ^ length qb; 2 ^ length qb] = length (data b2)).
  { rewrite <- Len, Wg, Sg, C1. auto. }
  rewrite Z, Nat.eqb_refl. cbn [bind data].
  assert (Pt : forall v w, bits v -> bits w -> exists W, in_range two (map rr qa ++ map cc qa) W /\ (forall q, W (rr q) = v q) /\ (forall q, W (cc q) = w q)).
  { intros v w Bv Bw. exists (fun x => if Nat.even x then v (Nat.div2 x) else w (Nat.div2 x)). split; [intros x _; destruct (Nat.even x); auto|]. unfold rr, cc. split; intros q.
    - replace (Nat.even (2 * q)) with true by (symmetry; rewrite Nat.even_mul; auto). rewrite Nat.div2_double. auto.
    - replace (2 * q + 1) with (S (2 * q)) by lia. rewrite Nat.even_succ. replace (Nat.odd (2 * q)) with false by (rewrite <- Nat.negb_even, Nat.even_mul; auto). rewrite Nat.div2_succ_double. auto. }
  assert (NZ' : exists x, In x (data a) /\ x <> zero A).
  { destruct NZ as (v & w & _ & _ & H). unfold element, entry in H. eexists. split; [|exact H]. cbn [fst] in *. destruct (lt_dec (ravel (shape a) [number (map v (snd (a, qa))); number (map w (snd (a, qa)))]) (length (data a))) as [L|L]; [apply nth_In; auto|]. exfalso. apply H. apply nth_overflow. lia. }
  destruct (prop_lists Len NZ') as (r & E & Hr). exists r. split; [exact E|]. rewrite Hr. split.
  - intros (c & Hc & H). split; [intros q; split; auto|]. exists c. split; auto. intros v w Bv Bw. destruct (Pt v w Bv Bw) as (W & RW & W1 & W2').
    specialize (Va W RW). specialize (V2 W RW). cbn beta in Va, V2.
    rewrite (@element_ext K F (a, qa) v (fun q => W (rr q)) w (fun q => W (cc q))) by (intros; symmetry; auto).
    rewrite (@element_ext K F (b, qb) v (fun q => W (rr q)) w (fun q => W (cc q))) by (intros; symmetry; auto).
    rewrite <- Va, <- V2. unfold entry_at, entry. apply H. rewrite Sa, S2, Da. apply combine_nth_in; auto. rewrite <- Da, Wa, Sa. apply ravel_lt. apply valid_dims. auto.
  - intros (_ & c & Hc & H). exists c. split; auto. intros x y Hxy. apply (combine_in_nth (zero A) (zero A)) in Hxy. destruct Hxy as (i & L1 & L2 & -> & ->).
    rewrite <- Da, Wa, Sa in L1. destruct (ravel_onto L1) as (jx & V & R). destruct (@value_of (map rr qa ++ map cc qa) jx [] (nodup_rc Ng)) as (W & EW & W0). { apply forall2_len in V. rewrite map_length in V. auto. }
    assert (Rg : in_range two (map rr qa ++ map cc qa) W) by (apply valid_range with (jx := jx); auto).
    pose proof (Va W Rg) as E1. pose proof (V2 W Rg) as E2'. unfold entry_at, entry in E1, E2'. rewrite Sa, EW, R in E1. rewrite S2, EW, R in E2'. rewrite <- Da, E1, E2'. apply H.
    + intros q. destruct (in_dec Nat.eq_dec (rr q) (map rr qa ++ map cc qa)); [apply Rg; auto|rewrite W0; auto].
    + intros q. destruct (in_dec Nat.eq_dec (cc q) (map rr qa ++ map cc qa)); [apply Rg; auto|rewrite W0; auto].
Qed.
Lemma same_invalid (g h : nda K * list nat) : valid_gate g && valid_gate h = false -> same F g h = Err Throw /\ forall um, commute F ix um g h = Err Throw.
Proof. intros H. unfold same, commute. destruct (valid_gate g); cbn [negb]; auto. simpl in H. rewrite H. auto. Qed.

(** ** The adjoint *)
Lemma entry_conj (a : nda K) sh l : entry A (mkA sh (map (n_conj F) (data a))) l = n_conj F (entry A (mkA sh (data a)) l).
Proof. unfold entry. cbn [shape data]. rewrite <- conj_zero at 1. apply map_nth. Qed.
Lemma adjoint_ok (g : nda K * list nat) : is_gate g -> exists b, adjoint F g = Ok (b, snd g) /\ is_gate (b, snd g) /\
  (forall i j, i < 2 ^ length (snd g) -> j < 2 ^ length (snd g) -> entry A b [i; j] = n_conj F (entry A (fst g) [j; i])).
Proof.
  intros (H1 & N & S & W). destruct g as [a qs]. cbn [fst snd] in *. unfold adjoint. rewrite S. cbn [length seq rev app]. set (n := 2 ^ length qs) in *.
  assert (T : tensor A (fun _ => n) (mkA [n; n] (map (n_conj F) (data a))) [0; 1] (fun v => n_conj F (entry A a [v 0; v 1]))).
  { split; [unfold well_shaped; cbn [data shape]; rewrite map_length, W, S; auto|]. split; [auto|]. intros v _. unfold entry_at. rewrite entry_conj. cbn [map]. f_equal. unfold entry. rewrite S. auto. }
  destruct (@transpose_ok K A (fun _ => n) _ [0; 1] [1; 0] _ T) as (b & E & (Wb & Sb & Vb)).
  { repeat constructor; simpl; intuition discriminate. } { apply perm_swap. }
  change (map (position [0; 1]) [1; 0]) with [1; 0] in E. rewrite E. cbn [bind]. exists b. split; auto. split; [split; auto|].
  intros i j Hi Hj. specialize (Vb (fun x => if x =? 1 then i else j)). unfold entry_at in Vb. cbn [map Nat.eqb] in Vb. apply Vb. intros x _. destruct (x =? 1); auto.
Qed.
Lemma bits_number (v : nat -> nat) qs : bits v -> number (map v qs) < 2 ^ length qs.
Proof. intros B. rewrite <- (map_length v qs). apply number_lt. apply Forall_forall. intros x Hx. apply in_map_iff in Hx. destruct Hx as (q & <- & _). apply B. Qed.

(** ** Cancellation *)
Lemma sum_number qs (f : nat -> K) v : NoDup qs -> so qs (fun w => f (number (map w qs))) v = sum_upto A (2 ^ length qs) f.
Proof.
  intros N. rewrite <- prod_twos, <- map_two. rewrite (@sum_flat K A SR two qs v f N). apply so_ext. intros w _ _. f_equal.
  rewrite map_two. pose proof (number_ravel (map w qs)) as X. rewrite map_length in X. auto.
Qed.

(** Unitarity in terms of the elements. *)
Lemma unitary_nonzero (g : nda K * list nat) : is_gate g -> unitary F g -> nonzero F g.
Proof.
  intros Hg U. set (v := fun _ : nat => 0). destruct Hg as (_ & N & _).
  assert (Bv : bits v) by (intros q; unfold v; lia). destruct (U (number (map v (snd g))) (number (map v (snd g))) (bits_number _ Bv) (bits_number _ Bv)) as [_ E]. rewrite Nat.eqb_refl in E.
  assert (X : forall n f, (forall i, i < n -> f i = zero A) -> sum_upto A n f = zero A).
  { intros n f H. transitivity (sum_upto A n (fun _ => zero A)); [apply sum_upto_ext; auto|]. apply sum_upto_0. auto. }
  assert (Y : forall n f, sum_upto A n f <> zero A -> exists i, i < n /\ f i <> zero A).
  { intros n f Hn. assert (Dn : forall n, (exists i, i < n /\ f i <> zero A) \/ forall i, i < n -> f i = zero A).
    { induction n0 as [|m [ (i & Hi & H)|H]]; [right; intros; lia|left; exists i; split; auto; lia|]. destruct (n_eqb F (f m) (zero A)) eqn:Z.
      - right. intros i Hi. destruct (Nat.eq_dec i m) as [->|]; [apply EQ; auto|apply H; lia].
      - left. exists m. split; [lia|]. intros Z'. apply EQ in Z'. congruence. }
    destruct (Dn n) as [H|H]; auto. exfalso. apply Hn, X. auto. }
  destruct (Y _ _ (fun Z => num_nontrivial _ NF (eq_trans (eq_sym E) Z))) as (i & Hi & H).
  rewrite <- prod_twos in Hi. destruct (ravel_onto Hi) as (jx & V & R). pose proof (forall2_len V) as L. rewrite repeat_length in L. destruct (@value_of (snd g) jx [] N L) as (w & Ew & W0).
  assert (Bw : bits w).
  { intros q. destruct (in_dec Nat.eq_dec q (snd g)); [|rewrite W0; auto]. rewrite <- map_two in V. apply (@valid_range two (snd g) jx w V Ew q). auto. }
  exists v, w. split; auto. split; auto. unfold element. intros Z. apply H. replace i with (number (map w (snd g))); [rewrite Z; ring|].
  rewrite <- number_ravel, map_length, Ew. auto.
Qed.
Lemma unitary_rows (g : nda K * list nat) v w u0 : NoDup (snd g) -> unitary F g -> bits v -> bits w ->
  so (snd g) (fun u => mul A (element F g v u) (n_conj F (element F g w u))) u0 = if number (map v (snd g)) =? number (map w (snd g)) then one A else zero A.
Proof.
  intros N U Bv Bw. destruct (U (number (map v (snd g))) (number (map w (snd g))) (bits_number _ Bv) (bits_number _ Bw)) as [_ E]. rewrite <- E.
  rewrite <- (@sum_number (snd g) _ u0 N). auto.
Qed.
Lemma unitary_cols (g : nda K * list nat) v w u0 : NoDup (snd g) -> unitary F g -> bits v -> bits w ->
  so (snd g) (fun u => mul A (n_conj F (element F g u v)) (element F g u w)) u0 = if number (map v (snd g)) =? number (map w (snd g)) then one A else zero A.
Proof.
  intros N U Bv Bw. destruct (U (number (map v (snd g))) (number (map w (snd g))) (bits_number _ Bv) (bits_number _ Bw)) as [E _]. rewrite <- E.
  rewrite <- (@sum_number (snd g) _ u0 N). auto.
Qed.

Lemma so_mul_c ks c f v : so ks (fun w => mul A c (f w)) v = mul A c (so ks f v).
Proof. apply (@so_mul_l K A SR two ks f (fun _ => c) []); [intros x y _; auto|intros x []]. Qed.

Section Cancel.
Variables g u : nda K * list nat.
Hypothesis Hg : is_gate g.
Hypothesis Hu : is_gate u.
Hypothesis Uu : unitary F u.
Hypothesis Qs : forall q, In q (snd g) <-> In q (snd u).
Variable c : K.
Hypothesis E : forall v w, bits v -> bits w -> element F g v w = mul A c (n_conj F (element F u w v)).

Lemma cancel Q psi v : incl (snd u) Q -> state_of Q psi -> bits v -> act F u (act F g psi) v = mul A c (psi v).
Proof.
  intros HQ HP B. pose proof Hu as (_ & Nu & _). set (qs := snd u) in *.
  destruct (@find_label (fun q => nmc ix qs q (Lc qs qs q)) Q v) as (W & HW & BW0).
  { intros q q' _ _ E'. apply (nmc_inj IX (all := qs)) in E'; auto. tauto. }
  assert (Ia : forall q, In q qs <-> In q (snd u) \/ In q (snd g)) by (intros q; rewrite Qs; unfold qs; tauto).
  assert (Is : forall q, In q qs <-> In q (snd u) /\ In q (snd g)) by (intros q; rewrite Qs; unfold qs; tauto).
  rewrite (product_acts SR IX Hu Hg Nu Nu Ia Is HQ HP HW). pose proof (BW0 B) as BW.
  destruct (@find_label (fun q => ix q Fin) Q v) as (t & Ht & Bt0). { intros q q' _ _ E'. apply IX in E'. tauto. } pose proof (Bt0 B) as Bt.
  transitivity (so (map (fun q => ix q Fin) qs) (fun W' => mul A (mul A c (psi (fun q => W' (ix q Fin)))) (if forallb (fun x => W' x =? t x) (map (fun q => ix q Fin) qs) then one A else zero A)) W).
  - apply so_ext. intros W' HW' RW'. unfold prod_val.
    assert (BW' : bits W') by (intros x; destruct (in_dec Nat.eq_dec x (map (fun q => ix q Fin) qs)) as [I|I]; [apply RW'; auto|rewrite (HW' x I); apply BW]).
    set (vi := fun q => W' (ix q Ini)). set (vf := fun q => W' (ix q Fin)).
    assert (P : so (map (fun q => ix q Shared) qs) (fun W1 => mul A (element F u (fun q => W1 (ix q Ini)) (fun q => W1 (SF ix qs q))) (element F g (fun q => W1 (SI ix qs q)) (fun q => W1 (ix q Fin)))) W' =
      mul A c (so qs (fun s => mul A (element F u vi s) (n_conj F (element F u vf s))) (fun q => W' (ix q Shared)))).
    { rewrite <- so_mul_c. rewrite (@so_rename K F qs (fun q => ix q Shared) (fun s => mul A c (mul A (element F u vi s) (n_conj F (element F u vf s)))) qs Nu) with (W := W').
      - apply so_ext. intros W1 H1 R1. assert (B1 : bits W1) by (intros x; destruct (in_dec Nat.eq_dec x (map (fun q => ix q Shared) qs)) as [I|I]; [apply R1; auto|rewrite (H1 x I); apply BW']).
        assert (O : forall q m, m <> Shared -> W1 (ix q m) = W' (ix q m)).
        { intros q m Hm. apply H1. intros I. apply in_map_iff in I. destruct I as (q' & I & _). apply IX in I. destruct I. congruence. }
        rewrite (@element_ext K F u (fun q => W1 (ix q Ini)) vi (fun q => W1 (SF ix qs q)) (fun q => W1 (ix q Shared))); [|intros q _; apply O; discriminate|intros q Hq; unfold SF; fold qs in Hq; rewrite (proj2 (memb_In _ _) Hq); auto].
        rewrite (@element_ext K F g (fun q => W1 (SI ix qs q)) (fun q => W1 (ix q Shared)) (fun q => W1 (ix q Fin)) vf); [|intros q Hq; unfold SI; apply Qs in Hq; fold qs in Hq; rewrite (proj2 (memb_In _ _) Hq); auto|intros q _; apply O; discriminate].
        rewrite E by (intros q; apply B1 || apply BW'). ring.
      - intros q q' _ _ E'. apply IX in E'. tauto.
      - intros s s' Hs. rewrite (@element_ext K F u vi vi s s'), (@element_ext K F u vf vf s s'); auto.
      - intros q Hq Hn. contradiction. }
    rewrite P. unfold qs at 1. rewrite (@unitary_rows u vi vf) by (auto; intros q; apply BW').
    assert (Z : (number (map vi (snd u)) =? number (map vf (snd u))) = forallb (fun x => W' x =? t x) (map (fun q => ix q Fin) qs)).
    { apply eq_true_iff_eq. rewrite Nat.eqb_eq, forallb_forall.
      assert (VI : forall q, In q qs -> vi q = v q).
      { intros q Hq. unfold vi. rewrite <- (HW q (HQ _ Hq)). unfold Lc, nmc. rewrite (proj2 (memb_In _ _) Hq). cbn [Nat.eqb]. apply HW'. intros I. apply in_map_iff in I. destruct I as (q' & I & _). apply IX in I. destruct I. discriminate. }
      split.
      - intros H x Hx. apply in_map_iff in Hx. destruct Hx as (q & <- & Hq). apply Nat.eqb_eq. rewrite (Ht q (HQ _ Hq)).
        apply number_inj in H; [|rewrite !map_length; auto|apply Forall_forall; intros b Hb; apply in_map_iff in Hb; destruct Hb as (q' & <- & _); apply BW'|apply Forall_forall; intros b Hb; apply in_map_iff in Hb; destruct Hb as (q' & <- & _); apply BW'].
        assert (VF : vi q = vf q). { clear - H Hq. fold qs in H. induction qs as [|a l IH]; [destruct Hq|]. simpl in H. inversion H. destruct Hq as [<-|Hq]; auto. }
        unfold vf in VF. rewrite <- VF. auto.
      - intros H. f_equal. apply map_ext_in. intros q Hq. rewrite (VI q Hq). specialize (H (ix q Fin)). rewrite Nat.eqb_eq, (Ht q (HQ _ Hq)) in H. symmetry. apply H. apply in_map_iff. eauto. }
    rewrite Z. destruct (forallb _ _); unfold vf; ring.
  - rewrite (@so_delta K F SR (map (fun q => ix q Fin) qs) t (fun W' => mul A c (psi (fun q => W' (ix q Fin)))) (map (fun q => ix q Fin) Q)).
    + f_equal. apply HP. intros q Hq. unfold update. destruct (memb (ix q Fin) (map (fun q0 => ix q0 Fin) qs)) eqn:M; [apply Ht; auto|].
      apply memb_nIn in M. rewrite <- (HW q Hq). unfold Lc, nmc. assert (Nq : ~ In q qs) by (intros I; apply M, in_map_iff; eauto). rewrite (proj2 (memb_nIn _ _) Nq). auto.
    + intros x y H. f_equal. apply HP. intros q Hq. apply H, in_map_iff. eauto.
    + apply nodup_map_in; auto. intros x y _ _ E'. apply IX in E'. tauto.
    + intros x _. apply Bt.
Qed.

Lemma cancel_phase : unitary F g -> phase F c.
Proof.
  intros Ug. unfold phase. pose proof Hg as (_ & Ng & _). pose proof Hu as (_ & Nu & _). set (z := fun _ : nat => 0). assert (Bz : bits z) by (intros q; unfold z; lia).
  pose proof (@unitary_rows g z z z Ng Ug Bz Bz) as R. rewrite Nat.eqb_refl in R.
  pose proof (@unitary_cols u z z z Nu Uu Bz Bz) as C. rewrite Nat.eqb_refl in C. rewrite <- R.
  rewrite (@so_perm K A SR two (snd g) (snd u) (fun u0 => mul A (element F g z u0) (n_conj F (element F g z u0))) (snd g)).
  - transitivity (mul A (mul A c (n_conj F c)) (one A)); [ring|]. rewrite <- C, <- so_mul_c. apply so_ext. intros w Hw Rw.
    assert (Bw : bits w) by (intros x; destruct (in_dec Nat.eq_dec x (snd u)) as [I|I]; [apply Rw; auto|rewrite (Hw x I); apply Bz]).
    rewrite E by auto. rewrite (conj_mul _ NF), (conj_conj _ NF). ring.
  - intros x y H. rewrite (@element_ext K F g z z x y); auto.
  - apply NoDup_Permutation; auto.
Qed.
End Cancel.
End Same.
