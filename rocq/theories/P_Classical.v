(** Operations that permute the basis. *)
From Coq Require Import List Arith NArith ZArith Reals Lia Permutation Bool Ring.
Import ListNotations.
From Verif Require Import P_Base P_Opt P_PyMain.
From Verif Require Import M_Base M_Path M_PyTree M_OSet M_Random M_Fuse M_Tensor M_Contract M_Decompose M_Circuit M_Sampling S_Tensor S_Circuit S_Sampling.
From Verif Require Import P_Path P_Split P_PathMain P_PyBuild P_OSet P_Fuse P_Sum P_Array P_ContractMain P_Circuit P_Gates P_Same P_Amplitude.
From Verif Require Import M_Path M_PyTree.
Set Implicit Arguments.
Unset Strict Implicit.
Local Open Scope nat_scope.

(** ** Sorting *)
Lemma insert_insert x y l : insert x (insert y l) = insert y (insert x l).
Proof.
  induction l as [|z l IH]; simpl.
  - destruct (Nat.leb_spec x y), (Nat.leb_spec y x); auto; try lia. replace y with x by lia. auto.
  - destruct (Nat.leb_spec y z) as [Y|Y], (Nat.leb_spec x z) as [X|X]; simpl; destruct (Nat.leb_spec x y), (Nat.leb_spec y x); try lia;
      repeat (match goal with |- context [?a <=? ?b] => destruct (Nat.leb_spec a b); try lia end); auto; try congruence.
    replace y with x by lia. auto.
Qed.
Lemma sorted_same l l' : Permutation l l' -> sorted l = sorted l'.
Proof. induction 1; simpl; try congruence. apply insert_insert. Qed.
Lemma insert_perm x l : Permutation (insert x l) (x :: l).
Proof. induction l as [|y l IH]; simpl; auto. destruct (x <=? y); auto. rewrite IH. apply perm_swap. Qed.
Lemma sorted_perm l : Permutation (sorted l) l.
Proof. induction l as [|x l IH]; simpl; auto. rewrite insert_perm, IH. auto. Qed.
Lemma sorted_seq n : forall a, sorted (seq a n) = seq a n.
Proof.
  induction n as [|n IH]; intros a; cbn [seq sorted fold_right]; auto. fold (sorted (seq (S a) n)). rewrite IH. destruct n; simpl; auto. destruct (Nat.leb_spec a (S a)); auto. lia.
Qed.
Lemma sorted_is_seq l n : list_eqb (sorted l) (seq 0 n) = true <-> Permutation l (seq 0 n).
Proof.
  rewrite list_eqb_ok. split; [intros <-; symmetry; apply sorted_perm|]. intros P. rewrite (sorted_same P). apply sorted_seq.
Qed.

(** ** Injections of finite ranges *)
Lemma inj_perm (s : nat -> nat) n : (forall j, j < n -> s j < n) -> (forall i j, i < n -> j < n -> s i = s j -> i = j) -> Permutation (map s (seq 0 n)) (seq 0 n).
Proof.
  intros H I. apply NoDup_Permutation_bis.
  - apply nodup_map_in; [apply seq_NoDup|]. intros x y Hx Hy. apply in_seq in Hx, Hy. apply I; lia.
  - rewrite map_length. auto.
  - intros x Hx. apply in_map_iff in Hx. destruct Hx as (j & <- & Hj). apply in_seq in Hj. apply in_seq. pose proof (H j). lia.
Qed.
Lemma filter_one (B : Type) (f : B -> bool) l x : NoDup l -> In x l -> (forall y, In y l -> (f y = true <-> y = x)) -> filter f l = [x].
Proof.
  induction l as [|y l IH]; intros N I H; [destruct I|]. inversion N; subst. simpl. destruct (f y) eqn:E.
  - apply H in E; [|left; auto]. subst y. f_equal. assert (Z : forall z, In z l -> f z = false). { intros z Hz. destruct (f z) eqn:Ez; auto. apply H in Ez; [|right; auto]. subst z. tauto. }
    clear - Z. induction l as [|z l IH]; simpl; auto. rewrite (Z z) by (left; auto). apply IH. intros; apply Z; right; auto.
  - destruct I as [<-|I]; [rewrite (proj2 (H y (or_introl eq_refl)) eq_refl) in E; discriminate|]. apply IH; auto. intros z Hz. apply H. right. auto.
Qed.

(** ** Binary digits *)
Lemma to_bits_len k n : length (to_bits k n) = k.
Proof. induction k; simpl; auto. Qed.
Lemma to_bits_lt k n : Forall (fun b => b < 2) (to_bits k n).
Proof. induction k; cbn [to_bits]; constructor; auto. apply Nat.mod_upper_bound. lia. Qed.
Lemma number_to_bits k : forall n, number (to_bits k n) = n mod 2 ^ k.
Proof.
  induction k as [|k IH]; intros n; [rewrite Nat.mod_1_r; auto|]. rewrite <- number_ravel. cbn [to_bits length repeat ravel]. rewrite number_ravel, IH, to_bits_len, prod_twos.
  rewrite Nat.pow_succ_r', (Nat.mul_comm 2), Nat.mod_mul_r by (try lia; apply Nat.pow_nonzero; lia). lia.
Qed.

Section Classical.
Variable K : Type.
Variable F : nums K.
Local Notation A := (n_alg F).
Hypothesis NF : numbers F.
Let SR : semiring A := num_ring _ NF.
Let SR1 : semi_ring_theory (zero A) (one A) (add A) (mul A) eq := num_ring _ NF.
Add Ring KR : SR1.
Local Notation two := (fun _ : nat => 2).
Notation so := (sum_over A two).
Notation gate := (nda K * list nat)%type.

Lemma is_zero_ok x : is_zero F x = true <-> x = zero A.
Proof. apply (num_eqb _ NF). Qed.
Lemma phase_nz c : phase F c -> c <> zero A.
Proof. intros P ->. apply (num_nontrivial _ NF). rewrite <- P. ring. Qed.

Definition pos (m : nda K) n := filter (fun p => negb (is_zero F (entry A m [fst p; snd p]))) (list_prod (seq 0 n) (seq 0 n)).
Lemma pos_in m n i j : In (i, j) (pos m n) <-> i < n /\ j < n /\ entry A m [i; j] <> zero A.
Proof.
  unfold pos. rewrite filter_In, in_prod_iff, !in_seq, negb_true_iff, <- not_true_iff_false, is_zero_ok. cbn [fst snd]. split; [intros ((H1 & H2) & H3); repeat split; auto; lia|intros (H1 & H2 & H3); repeat split; auto; lia].
Qed.
Lemma nodup_prod (B C : Type) (l : list B) (l' : list C) : NoDup l -> NoDup l' -> NoDup (list_prod l l').
Proof.
  induction l as [|x l IH]; intros N N'; [constructor|]. inversion N; subst. simpl. apply NoDup_app. split; [|split]; auto.
  - apply nodup_map_in; auto. intros; congruence.
  - intros [a b] H H'. apply in_map_iff in H. destruct H as (y & E & _). inversion E; subst. apply in_prod_iff in H'. tauto.
Qed.
Lemma pos_nodup m n : NoDup (pos m n).
Proof. apply NoDup_filter, nodup_prod; apply seq_NoDup. Qed.

Lemma nodup_key (B C : Type) (f : B -> C) l x y : NoDup (map f l) -> In x l -> In y l -> f x = f y -> x = y.
Proof.
  induction l as [|z l IH]; intros N Hx Hy E; [destruct Hx|]. simpl in N. inversion N; subst. destruct Hx as [->|Hx], Hy as [->|Hy]; auto.
  - exfalso. apply H1. rewrite E. apply in_map. auto.
  - exfalso. apply H1. rewrite <- E. apply in_map. auto.
Qed.

Lemma classical_ok (h : gate) : is_gate h -> (is_classical F (fst h) = true <-> permutation_gate F h).
Proof.
  intros (_ & _ & S & W). destruct h as [m qs]. cbn [fst snd] in *. unfold is_classical, permutation_gate. cbn [fst snd]. rewrite S. set (n := 2 ^ length qs). rewrite Nat.eqb_refl. cbn [negb andb].
  fold (pos m n). rewrite !andb_true_iff, !sorted_is_seq, forallb_forall. split.
  - intros ((P1 & P2) & P3).
    assert (N1 : NoDup (map fst (pos m n))) by (apply (Permutation_NoDup (Permutation_sym P1)), seq_NoDup).
    assert (N2 : NoDup (map snd (pos m n))) by (apply (Permutation_NoDup (Permutation_sym P2)), seq_NoDup).
    set (s := fun j => match find (fun p => snd p =? j) (pos m n) with Some p => fst p | None => 0 end).
    assert (Hs : forall j, j < n -> In (s j, j) (pos m n)).
    { intros j Hj. unfold s. destruct (find _ _) as [[i k]|] eqn:E.
      - apply find_some in E. cbn [snd fst] in *. destruct E as [E E']. apply Nat.eqb_eq in E'. subst k. auto.
      - exfalso. assert (Hin : In j (map snd (pos m n))) by (apply (Permutation_in _ (Permutation_sym P2)), in_seq; lia). apply in_map_iff in Hin. destruct Hin as (p & E1 & E2). pose proof (find_none _ _ E p E2) as X. simpl in X. rewrite E1, Nat.eqb_refl in X. discriminate. }
    exists s. split; [|split].
    + intros j Hj. apply Hs, pos_in in Hj. tauto.
    + intros i j Hi Hj E. apply Hs in Hi, Hj. rewrite E in Hi. pose proof (nodup_key N1 Hi Hj eq_refl) as X. congruence.
    + intros i j Hi Hj. split.
      * intros ->. specialize (P3 _ (Hs j Hj)). cbn [fst snd] in P3. apply (num_eqb _ NF) in P3. exact P3.
      * intros Hne. destruct (n_eqb F (entry A m [i; j]) (zero A)) eqn:E; [apply (num_eqb _ NF) in E; auto|]. exfalso. apply Hne.
        assert (Hp : In (i, j) (pos m n)). { apply pos_in. repeat split; auto. intros Z. apply (num_eqb _ NF) in Z. congruence. }
        pose proof (nodup_key N2 Hp (Hs j Hj) eq_refl) as X. congruence.
  - intros (s & B & I & E).
    assert (Hp : forall i j, In (i, j) (pos m n) <-> j < n /\ i = s j).
    { intros i j. rewrite pos_in. split.
      - intros (Hi & Hj & Z). split; auto. destruct (Nat.eq_dec i (s j)) as [|Hne]; auto. elim Z. apply E; auto.
      - intros (Hj & ->). repeat split; auto. apply phase_nz. apply E; auto. }
    split; [split|].
    + transitivity (map s (seq 0 n)); [|apply inj_perm; auto]. apply NoDup_Permutation.
      * apply nodup_map_in; [apply pos_nodup|]. intros [a b] [a' b'] H H' X. cbn [fst] in X. apply Hp in H, H'. destruct H as [H ->], H' as [H' ->]. assert (b = b') by (apply I; auto). congruence.
      * apply nodup_map_in; [apply seq_NoDup|]. intros x y Hx Hy. apply in_seq in Hx, Hy. apply I; lia.
      * intros x. rewrite !in_map_iff. split.
        -- intros ([a b] & <- & H). apply Hp in H. destruct H as [H ->]. exists b. split; auto. apply in_seq. lia.
        -- intros (j & <- & Hj). apply in_seq in Hj. exists (s j, j). split; auto. apply Hp. split; auto. lia.
    + apply NoDup_Permutation.
      * apply nodup_map_in; [apply pos_nodup|]. intros [a b] [a' b'] H H' X. cbn [snd] in X. apply Hp in H, H'. destruct H as [H ->], H' as [H' ->]. congruence.
      * apply seq_NoDup.
      * intros x. rewrite in_map_iff, in_seq. split.
        -- intros ([a b] & <- & H). apply Hp in H. cbn [snd]. lia.
        -- intros Hx. exists (s x, x). split; auto. apply Hp. split; auto. lia.
    + intros [i j] H. apply Hp in H. destruct H as [H ->]. cbn [fst snd]. apply (num_eqb _ NF). apply (E (s j) j); auto.
Qed.

(** ** The effect on bitstrings *)
Definition put (v : nat -> nat) (qs bs : list nat) : nat -> nat := fold_left (fun w e => assign w (fst e) (snd e)) (combine qs bs) v.
Lemma put_out qs : forall bs v x, ~ In x qs -> put v qs bs x = v x.
Proof.
  unfold put. induction qs as [|q qs IH]; intros [|b bs] v x H; simpl; auto. rewrite IH by (intros Y; apply H; right; auto). apply assign_other. intros ->. apply H. left. auto.
Qed.
Lemma put_in qs : forall bs v, NoDup qs -> length bs = length qs -> map (put v qs bs) qs = bs.
Proof.
  induction qs as [|q qs IH]; intros [|b bs] v N L; try discriminate; auto. inversion N; subst. change (put v (q :: qs) (b :: bs)) with (put (assign v q b) qs bs). cbn [map]. f_equal.
  - rewrite put_out by auto. apply assign_same.
  - apply IH; auto.
Qed.
Lemma put_bits qs bs v : Forall (fun b => b < 2) bs -> bits v -> bits (put v qs bs).
Proof.
  unfold put. revert bs v. induction qs as [|q qs IH]; intros [|b bs] v H B; simpl; auto. inversion H; subst. apply IH; auto. intros x. unfold assign. destruct (x =? q); auto.
Qed.
Lemma put_number (v w : nat -> nat) qs x : NoDup qs -> bits w -> (forall y, ~ In y qs -> w y = v y) -> put v qs (to_bits (length qs) (number (map w qs))) x = w x.
Proof.
  intros N B H. assert (E : to_bits (length qs) (number (map w qs)) = map w qs).
  { apply number_inj; [rewrite to_bits_len, map_length; auto|apply to_bits_lt|apply Forall_forall; intros b Hb; apply in_map_iff in Hb; destruct Hb as (y & <- & _); apply B|].
    rewrite number_to_bits. apply Nat.mod_small, bits_number. auto. }
  rewrite E. destruct (in_dec Nat.eq_dec x qs) as [Hx|Hx]; [|rewrite put_out, H; auto].
  assert (M : map (put v qs (map w qs)) qs = map w qs) by (apply put_in; auto; apply map_length). apply (ext_in_map M). auto.
Qed.

Lemma index_position Q q : In q Q -> index Nat.eqb q Q = Ok (position Q q).
Proof.
  intros H. destruct (index_ok Nat.eqb_eq H) as (i & E & _). unfold position. rewrite E. auto.
Qed.
Lemma get_position (v : nat -> nat) Q q : In q Q -> get (map v Q) (position Q q) = Ok (v q).
Proof. intros H. destruct (position_in H) as [E _]. unfold get. rewrite nth_error_map, E. auto. Qed.
Lemma upd_position (B : Type) (f : nat -> B) Q q y : NoDup Q -> In q Q -> upd (map f Q) (position Q q) y = map (fun x => if x =? q then y else f x) Q.
Proof.
  intros N H. destruct (position_in H) as [E L]. apply nth_error_ext. intros i. rewrite upd_nth, map_length, !nth_error_map. destruct (Nat.eqb_spec (position Q q) i) as [<-|Hne].
  - rewrite E. apply Nat.ltb_lt in L. rewrite L. cbn [andb option_map]. rewrite Nat.eqb_refl. auto.
  - cbn [andb]. destruct (nth_error Q i) as [x|] eqn:X; auto. cbn [option_map]. destruct (Nat.eqb_spec x q) as [Exq|]; auto. exfalso. apply Hne. apply position_unique; auto. rewrite X, Exq. auto.
Qed.
Lemma mapM_ok (B C : Type) (f : B -> res C) (k : B -> C) l : (forall x, In x l -> f x = Ok (k x)) -> mapM f l = Ok (map k l).
Proof. induction l as [|x l IH]; intros H; simpl; auto. rewrite (H x) by (left; auto). cbn [bind]. rewrite IH by (intros; apply H; right; auto). auto. Qed.
Lemma get_positions (v : nat -> nat) Q qs : incl qs Q -> mapM (get (map v Q)) (map (position Q) qs) = Ok (map v qs).
Proof.
  intros H. induction qs as [|q qs IH]; auto. cbn [map mapM]. rewrite get_position by (apply H; left; auto). cbn [bind]. rewrite IH by (intros x Hx; apply H; right; auto). auto.
Qed.
Lemma put_positions Q qs : NoDup Q -> incl qs Q -> forall bs v,
  fold_left (fun b e => upd b (fst e) (snd e)) (combine (map (position Q) qs) bs) (map v Q) = map (put v qs bs) Q.
Proof.
  intros N. unfold put. induction qs as [|q qs IH]; intros H [|b bs] v; auto. cbn [map combine fold_left fst snd]. rewrite upd_position; auto; [|apply H; left; auto].
  rewrite <- IH by (intros x Hx; apply H; right; auto). auto.
Qed.

Definition after (s : nat -> nat) (qs : list nat) (v : nat -> nat) : nat -> nat := put v qs (to_bits (length qs) (s (number (map v qs)))).

Definition permutes (h : gate) (s : nat -> nat) : Prop :=
  let n := 2 ^ length (snd h) in
  (forall j, j < n -> s j < n) /\ (forall i j, i < n -> j < n -> s i = s j -> i = j) /\
  forall i j, i < n -> j < n ->
      (i = s j -> phase F (entry A (fst h) [i; j])) /\ (i <> s j -> entry A (fst h) [i; j] = zero A).

Lemma classical_step_ok (h : gate) s Q v : is_gate h -> permutes h s -> NoDup Q -> incl (snd h) Q -> bits v ->
  classical_step Q (mkA (shape (fst h)) (map (fun x => negb (is_zero F x)) (data (fst h)))) (snd h) (map v Q) = Ok (map (after s (snd h) v) Q).
Proof.
  intros (_ & Nq & S & W) (B & I & E) N H Bv. destruct h as [m qs]. cbn [fst snd] in *. unfold classical_step. rewrite (mapM_index H). cbn [bind]. rewrite get_positions by auto. cbn [bind shape data]. rewrite S.
  set (n := 2 ^ length qs) in *. set (j := of_bits (map v qs)). assert (Hj : j < n) by (apply bits_number; auto).
  rewrite (@filter_one _ _ (seq 0 n) (s j)).
  - unfold after. rewrite put_positions by auto. auto.
  - apply seq_NoDup.
  - apply in_seq. pose proof (B j Hj). lia.
  - intros i Hi. apply in_seq in Hi. assert (Z : negb (is_zero F (zero A)) = false) by (apply negb_false_iff, is_zero_ok; auto).
    rewrite <- Z. rewrite (map_nth (fun x => negb (is_zero F x))).
    assert (En : nth (i * n + j) (data m) (zero A) = entry A m [i; j]). { unfold entry. rewrite S. cbn [ravel prod fold_right]. f_equal. lia. }
    rewrite En, negb_true_iff, <- not_true_iff_false, is_zero_ok. destruct (E i j) as [E1 E2]; [lia|auto|]. split; [|intros X; apply phase_nz; auto].
    intros X. destruct (Nat.eq_dec i (s j)); auto. elim X. auto.
Qed.

(** ** The effect on states *)
Lemma after_bits s qs v : bits v -> bits (after s qs v).
Proof. apply put_bits, to_bits_lt. Qed.
Lemma after_number (h : gate) s v : is_gate h -> permutes h s -> bits v -> number (map (after s (snd h) v) (snd h)) = s (number (map v (snd h))).
Proof.
  intros (_ & N & _) (B & _) Bv. unfold after. rewrite put_in by (auto; apply to_bits_len). rewrite number_to_bits. apply Nat.mod_small. apply B, bits_number. auto.
Qed.
Lemma act_permutes (h : gate) s Q psi v : is_gate h -> permutes h s -> state_of Q psi -> bits v ->
  exists e, phase F e /\ act F h psi (after s (snd h) v) = mul A e (psi v).
Proof.
  intros Hh HP HS Bv. pose proof Hh as (_ & N & _ & _). pose proof HP as (B & I & E). set (qs := snd h) in *. set (j := number (map v qs)). assert (Hj : j < 2 ^ length qs) by (apply bits_number; auto).
  exists (entry A (fst h) [s j; j]). split; [apply (E (s j) j); auto|]. unfold act. fold qs.
  transitivity (so qs (fun w => mul A (mul A (entry A (fst h) [s j; j]) (psi w)) (if forallb (fun x => w x =? v x) qs then one A else zero A)) (after s qs v)).
  - apply so_ext. intros w Hw Rw. assert (Bw : bits w). { intros x. destruct (in_dec Nat.eq_dec x qs) as [Hx|Hx]; [apply Rw; auto|rewrite Hw; auto; apply after_bits; auto]. }
    unfold element. fold qs. assert (EA : number (map (after s qs v) qs) = s j) by apply (after_number Hh HP Bv). rewrite EA. destruct (forallb (fun x => w x =? v x) qs) eqn:Ef.
    + rewrite forallb_forall in Ef. assert (Em : map w qs = map v qs) by (apply map_ext_in; intros x Hx; apply Nat.eqb_eq, Ef; auto). rewrite Em. fold j. ring.
    + assert (Hne : s j <> s (number (map w qs))).
      { intros X. apply I in X; auto; [|apply bits_number; auto]. apply number_inj in X; [| rewrite !map_length; auto| |].
        - assert (T : forallb (fun x => w x =? v x) qs = true) by (apply forallb_forall; intros x Hx; apply Nat.eqb_eq; symmetry; apply (ext_in_map X); auto). congruence.
        - apply Forall_forall. intros b Hb. apply in_map_iff in Hb. destruct Hb as (y & <- & _). apply Bv.
        - apply Forall_forall. intros b Hb. apply in_map_iff in Hb. destruct Hb as (y & <- & _). apply Bw. }
      destruct (E (s j) (number (map w qs))) as [_ E2]; [auto|apply bits_number; auto|]. rewrite (E2 Hne). ring.
  - rewrite (@so_delta K F SR qs v _ Q); auto; [|intros w w' Hw; f_equal; apply HS; auto]. f_equal. apply HS. intros q _. unfold update. destruct (memb q qs) eqn:Eq; auto. apply put_out. apply memb_nIn. auto.
Qed.
End Classical.
