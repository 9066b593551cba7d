(** decompose_hyper_inds for the tensor of a unitary gate. *)
From Coq Require Import List Arith Lia Permutation Bool Ring.
Import ListNotations.
From Verif Require Import P_Base P_Opt P_PyMain.
From Verif Require Import M_Base M_Path M_PyTree M_OSet M_Tensor M_Contract M_Decompose M_Circuit S_Path S_PyTree S_Random S_Network S_Fuse S_Tensor S_Contract S_Decompose S_Circuit.
From Verif Require Import P_Path P_Split P_PathMain P_PyBuild P_PyTens P_OSet P_Fuse P_Sum P_Array P_Tensordot P_ContractMain P_Decompose P_DecomposeNet P_DecomposeSum P_Circuit P_Gates P_Same.
From Verif Require Import M_Path M_PyTree.
Set Implicit Arguments.
Unset Strict Implicit.

(** Deciding a property of all assignments. *)
Lemma decide_bits xs (P : (nat -> nat) -> bool) : (forall v w, (forall x, v x = w x) -> P v = P w) -> forall v,
  {forall w, same_off xs w v -> in_range (fun _ => 2) xs w -> P w = true} + {exists w, same_off xs w v /\ in_range (fun _ => 2) xs w /\ P w = false}.
Proof.
  intros HP. induction xs as [|k xs IH]; intros v.
  - destruct (P v) eqn:E; [left; intros w H _; rewrite <- E; apply HP; intros x; apply H; intros []|right; exists v; split; [intros x _; auto|split; auto; intros x []]].
  - assert (X : forall i, i < 2 -> (exists w, same_off xs w (assign v k i) /\ in_range (fun _ => 2) xs w /\ P w = false) -> exists w, same_off (k :: xs) w v /\ in_range (fun _ => 2) (k :: xs) w /\ P w = false).
    { intros i Hi (w & W1 & W2 & W3). exists w. split; [|split; auto].
      - intros x Hx. rewrite W1 by (intros H; apply Hx; right; auto). apply assign_other. intros ->. apply Hx. left. auto.
      - intros x [->|Hx]; [|apply W2; auto]. destruct (in_dec Nat.eq_dec x xs); [apply W2; auto|]. rewrite W1, assign_same by auto. auto. }
    destruct (IH (assign v k 0)) as [H0|H0]; [|right; apply (X 0); auto; lia]. destruct (IH (assign v k 1)) as [H1|H1]; [|right; apply (X 1); auto; lia].
    left. intros w W1 W2. assert (Wk : w k < 2) by (apply W2; left; auto). assert (W3 : in_range (fun _ => 2) xs w) by (intros x Hx; apply W2; right; auto).
    assert (Y : forall i, w k = i -> same_off xs w (assign v k i)).
    { intros i <- x Hx. unfold assign. destruct (Nat.eqb_spec x k) as [->|Ne]; auto. apply W1. intros [E|E]; congruence. }
    destruct (w k) as [|[|]] eqn:Ek; [apply H0; auto|apply H1; auto|lia].
Defined.

Section Rep.
Variable K : Type.
Variable A : alg K.
Variable eqb : K -> K -> bool.
Hypothesis EQ : forall a b, eqb a b = true <-> a = b.
Variable dim : nat -> nat.
Notation tens := (tensor A dim).

(** Every index has a representative among those that are left before the test for
    equal entries. *)
Lemma aux_rep : forall fuel a xs h f b ys h', length xs < fuel -> tens a xs f -> NoDup xs -> NoDup (map fst h) ->
  decompose_aux A eqb fuel a xs h = Ok (b, ys, h') ->
  exists zs rp, incl zs xs /\ (forall x, In x xs -> In (rp x) zs) /\ (forall z, In z zs -> rp z = z) /\
    (forall v, agrees h' v <-> agrees h v /\ forall x, In x xs -> v x = v (rp x)) /\
    (ys = zs \/ ys = [] /\ exists e, forall v, in_range dim xs v -> agrees h' v -> f v = e).
Proof.
  induction fuel as [|fuel IH]; intros a xs h f b0 ys h0 L T HN HK H; [lia|]. cbn [decompose_aux] in H. pose proof T as (W & S & E).
  assert (LS : length (shape a) = length xs) by (rewrite S; apply map_length). rewrite !LS, Nat.eqb_refl in H. cbn [negb] in H. rewrite (unique_id HN), Nat.eqb_refl in H. cbn [negb] in H.
  destruct (first_diagonal_ok EQ T HN (l := pairs (length xs))) as (o & Eo & Ho); [intros i j; apply pairs_in|]. rewrite Eo in H. cbn [bind] in H. destruct o as [(i, j)|].
  - destruct Ho as [Hij Ho]. apply pairs_in in Hij. destruct Hij as [L1 L2].
    destruct (transpose_pad T HN L1 L2) as (b & x & y & rest & E1 & P & Nx & Ny & E2 & Tb). rewrite E1, E2 in H. cbn [bind nth tl] in H. destruct (Ho x y Nx Ny) as [D F].
    assert (HN' : NoDup (x :: y :: rest)) by (apply (Permutation_NoDup (Permutation_sym P)); auto).
    assert (Hxy : x <> y) by (inversion HN' as [|? ? N1 N2]; subst; intros ->; apply N1; left; auto).
    assert (SUB : forall z, In z (x :: y :: rest) <-> In z xs) by (intros z; split; intros Hz; [eapply Permutation_in; eauto|eapply Permutation_in; [symmetry|]; eauto]).
    destruct (diagonal_ok Tb HN' D) as [[E3 D0]|(c & E3 & Tc)]; rewrite E3 in H; cbn [bind] in H; [discriminate|].
    destruct (agrees_step HK Hxy) as (K' & G & M). set (h1 := discard _ x) in *.
    assert (EQF : forall v, v x = v y -> in_range dim xs v -> f v = f (assign v x (v y))).
    { intros v Ev V. destruct Tb as (_ & _ & Eb). assert (V1 : in_range dim (x :: y :: rest) v) by (intros z Hz; apply V, SUB, Hz).
      assert (V2 : in_range dim (x :: y :: rest) (assign v x (v y))). { intros z Hz. unfold assign. destruct (Nat.eqb_spec z x); [subst; rewrite <- Ev|]; apply V1; auto. }
      rewrite <- (Eb _ V1), <- (Eb _ V2). unfold entry_at. f_equal. apply map_ext. intros z. unfold assign. destruct (Nat.eqb_spec z x); congruence. }
    assert (Xr : ~ In x (y :: rest)) by (inversion HN'; auto).
    destruct (all_same eqb c) as [e|] eqn:AS.
    + inversion H; subst b0 ys h0. exists (y :: rest), (fun z => if z =? x then y else z). split; [intros z Hz; apply SUB; right; auto|]. split; [|split; [|split]].
      * intros z Hz. apply SUB in Hz. destruct (Nat.eqb_spec z x); [left; auto|]. destruct Hz; [congruence|auto].
      * intros z Hz. destruct (Nat.eqb_spec z x); [subst; tauto|auto].
      * intros v. rewrite G. split; intros [H1 H2]; split; auto; [|specialize (H2 x); rewrite Nat.eqb_refl in H2; apply H2, SUB; left; auto].
        intros z _. destruct (Nat.eqb_spec z x); [subst; auto|auto].
      * right. split; auto. exists e. intros v V Hv. apply G in Hv. rewrite EQF by tauto. apply (all_same_ok EQ Tc AS (v := v)). intros z Hz. apply V, SUB. right. auto.
    + assert (HN2 : NoDup (y :: rest)) by (inversion HN'; auto). assert (L' : length (y :: rest) < fuel) by (pose proof (Permutation_length P) as PL; simpl in *; lia).
      destruct (IH _ _ _ _ _ _ _ L' Tc HN2 K' H) as (zs & rp & Z1 & Z2 & Z3 & Z4 & Z5).
      exists zs, (fun z => if z =? x then rp y else rp z). split; [intros z Hz; apply SUB; right; auto|]. split; [|split; [|split]].
      * intros z Hz. apply SUB in Hz. destruct (Nat.eqb_spec z x); [apply Z2; left; auto|]. apply Z2. destruct Hz; [congruence|auto].
      * intros z Hz. destruct (Nat.eqb_spec z x); [subst; apply Z1 in Hz; tauto|auto].
      * intros v. rewrite Z4, G. split.
        -- intros [[H1 H2] H3]. split; auto. intros z Hz. destruct (Nat.eqb_spec z x) as [->|Ne]; [rewrite H2; apply H3; left; auto|]. apply H3. apply SUB in Hz. destruct Hz; [congruence|auto].
        -- intros [H1 H2]. assert (H3 : forall z, In z (y :: rest) -> v z = v (rp z)).
           { intros z Hz. assert (I : In z xs) by (apply SUB; right; auto). specialize (H2 z I). destruct (Nat.eqb_spec z x); [subst; tauto|auto]. }
           split; auto. split; auto. assert (I : In x xs) by (apply SUB; left; auto). specialize (H2 x I). rewrite Nat.eqb_refl in H2. rewrite H2. symmetry. apply H3. left. auto.
      * destruct Z5 as [Z5|(Z5 & e & Z6)]; [left; auto|]. right. split; auto. exists e. intros v V Hv. pose proof Hv as Hv'. apply Z4 in Hv'. destruct Hv' as [Hv' _]. apply G in Hv'. rewrite EQF by tauto. apply Z6; auto. intros z Hz. apply V, SUB. right. auto.
  - inversion H; subst. exists ys, (fun z => z). split; [apply incl_refl|]. split; auto. split; auto. split; [|left; auto]. intros v. split; [intros Hv; split; auto|tauto].
Qed.
Lemma decompose_rep a xs f b ys h : tens a xs f -> NoDup xs -> decompose A eqb a xs = Ok (b, ys, h) ->
  exists zs rp, incl zs xs /\ (forall x, In x xs -> In (rp x) zs) /\ (forall z, In z zs -> rp z = z) /\
    (forall v, agrees h v <-> forall x, In x xs -> v x = v (rp x)) /\
    (ys = zs \/ ys = [] /\ exists e, forall v, in_range dim xs v -> agrees h v -> f v = e).
Proof.
  intros T HN H. destruct (@aux_rep (S (length xs)) a xs [] f b ys h (Nat.lt_succ_diag_r _) T HN) as (zs & rp & Z1 & Z2 & Z3 & Z4 & Z5); [constructor|exact H|].
  exists zs, rp. split; auto. split; auto. split; auto. split; auto. intros v. rewrite Z4. split; [tauto|]. intros Hv. split; auto. intros y s x [].
Qed.
End Rep.

Section Gate.
Variable K : Type.
Variable F : nums K.
Local Notation A := (n_alg F).
Hypothesis NF : numbers F.
Let SR : semiring A := num_ring _ NF.
Let SR1 : semi_ring_theory (zero A) (one A) (add A) (mul A) eq := num_ring _ NF.
Add Ring KR : SR1.
Local Notation two := (fun _ : nat => 2).
Notation so := (sum_over A two).
Notation gate := (nda K * list nat)%type.
Let EQ := num_eqb _ NF.

Lemma zero_dec (x : K) : {x = zero A} + {x <> zero A}.
Proof. destruct (n_eqb F x (zero A)) eqn:E; [left; apply EQ; auto|right; intros H; apply EQ in H; congruence]. Qed.
Lemma so_nonzero ks f : forall v, so ks f v <> zero A -> exists w, same_off ks w v /\ in_range two ks w /\ f w <> zero A.
Proof.
  induction ks as [|k ks IH]; intros v H; [exists v; split; [intros x _; auto|]; split; auto; intros x []|]. rewrite so_cons in H.
  assert (X : forall i, i < 2 -> so ks f (assign v k i) <> zero A -> exists w, same_off (k :: ks) w v /\ in_range two (k :: ks) w /\ f w <> zero A).
  { intros i Hi Z. destruct (IH _ Z) as (w & W1 & W2 & W3). exists w. split; [|split; auto].
    - intros x Hx. rewrite W1 by (intros I; apply Hx; right; auto). apply assign_other. intros ->. apply Hx. left. auto.
    - intros x [->|Hx]; [|apply W2; auto]. destruct (in_dec Nat.eq_dec x ks); [apply W2; auto|]. rewrite W1, assign_same by auto. auto. }
  destruct (zero_dec (so ks f (assign v k 0))) as [Z0|Z0]; [|apply (X 0); auto]. destruct (zero_dec (so ks f (assign v k 1))) as [Z1|Z1]; [|apply (X 1); auto].
  exfalso. apply H. unfold sum_upto. cbn [seq map fold_right]. rewrite Z0, Z1. ring.
Qed.

Variable g : gate.
Hypothesis Hg : is_gate g.
Hypothesis Hu : unitary F g.
Variables r c : nat -> nat.
Notation qs := (snd g).
Notation xs := (map r qs ++ map c qs).
Hypothesis HX : NoDup xs.
Notation f := (fun W : nat -> nat => element F g (fun q => W (r q)) (fun q => W (c q))).
Let Nq : NoDup qs. Proof. apply Hg. Qed.

Lemma r_inj q q' : In q qs -> In q' qs -> r q = r q' -> q = q'.
Proof. intros H H' E. pose proof HX as N. apply NoDup_app in N. destruct N as (N & _ & _). revert H H' E N. clear. induction qs as [|x l IH]; simpl; [tauto|]. intros H H' E N. inversion N; subst. destruct H as [->|H], H' as [->|H']; auto; exfalso; apply H2; [rewrite E|rewrite <- E]; apply in_map; auto. Qed.
Lemma c_inj q q' : In q qs -> In q' qs -> c q = c q' -> q = q'.
Proof. intros H H' E. pose proof HX as N. apply NoDup_app in N. destruct N as (_ & N & _). revert H H' E N. clear. induction qs as [|x l IH]; simpl; [tauto|]. intros H H' E N. inversion N; subst. destruct H as [->|H], H' as [->|H']; auto; exfalso; apply H2; [rewrite E|rewrite <- E]; apply in_map; auto. Qed.
Lemma rc_neq q q' : In q qs -> In q' qs -> r q <> c q'.
Proof. intros H H' E. pose proof HX as N. apply NoDup_app in N. destruct N as (_ & _ & N). apply (N (r q)); [apply in_map; auto|rewrite E; apply in_map; auto]. Qed.

Definition patch (nm : nat -> nat) (u W : nat -> nat) (x : nat) : nat := match find (fun q => nm q =? x) qs with Some q => u q | None => W x end.
Lemma patch_bits nm u W : bits u -> bits W -> bits (patch nm u W).
Proof. intros Bu BW x. unfold patch. destruct (find _ _); auto. Qed.
Lemma patch_in nm u W q : (forall q', In q' qs -> nm q' = nm q -> q' = q) -> In q qs -> patch nm u W (nm q) = u q.
Proof.
  intros I Hq. unfold patch. destruct (find (fun q0 => nm q0 =? nm q) qs) as [q'|] eqn:E.
  - apply find_some in E. destruct E as [E1 E2]. apply Nat.eqb_eq in E2. rewrite (I q' E1 E2). auto.
  - apply (find_none _ _ E) in Hq. rewrite Nat.eqb_refl in Hq. discriminate.
Qed.
Lemma patch_out nm u W x : (forall q, In q qs -> nm q <> x) -> patch nm u W x = W x.
Proof. intros H. unfold patch. destruct (find _ _) as [q|] eqn:E; auto. apply find_some in E. destruct E as [E1 E2]. apply Nat.eqb_eq in E2. destruct (H q E1 E2). Qed.

(** No row and no column is zero. *)
Lemma row_nz W : bits W -> exists W', bits W' /\ (forall q, In q qs -> W' (r q) = W (r q)) /\ f W' <> zero A.
Proof.
  intros B. assert (Bv : bits (fun q => W (r q))) by (intros q; apply B). pose proof (unitary_rows NF (fun _ => 0) Nq Hu Bv Bv) as E. rewrite Nat.eqb_refl in E.
  destruct (@so_nonzero qs _ (fun _ => 0) (fun Z => num_nontrivial _ NF (eq_trans (eq_sym E) Z))) as (u & U1 & U2 & U3).
  assert (Bu : bits u) by (intros q; destruct (in_dec Nat.eq_dec q qs); [apply (U2 q); auto|rewrite U1; auto]).
  exists (patch c u W). split; [apply patch_bits; auto|]. assert (Er : forall q, In q qs -> patch c u W (r q) = W (r q)). { intros q Hq. apply patch_out. intros q' Hq' X. apply (rc_neq Hq Hq'). auto. }
  split; auto. intros Z. apply U3. rewrite <- (@element_ext K F g (fun q => patch c u W (r q)) (fun q => W (r q)) (fun q => patch c u W (c q)) u); [rewrite Z; ring|auto|].
  intros q Hq. apply patch_in; auto. intros q' Hq' X. apply c_inj; auto.
Qed.
Lemma col_nz W : bits W -> exists W', bits W' /\ (forall q, In q qs -> W' (c q) = W (c q)) /\ f W' <> zero A.
Proof.
  intros B. assert (Bv : bits (fun q => W (c q))) by (intros q; apply B). pose proof (unitary_cols NF (fun _ => 0) Nq Hu Bv Bv) as E. rewrite Nat.eqb_refl in E.
  destruct (@so_nonzero qs _ (fun _ => 0) (fun Z => num_nontrivial _ NF (eq_trans (eq_sym E) Z))) as (u & U1 & U2 & U3).
  assert (Bu : bits u) by (intros q; destruct (in_dec Nat.eq_dec q qs); [apply (U2 q); auto|rewrite U1; auto]).
  exists (patch r u W). split; [apply patch_bits; auto|]. assert (Er : forall q, In q qs -> patch r u W (c q) = W (c q)). { intros q Hq. apply patch_out. intros q' Hq' X. apply (rc_neq Hq' Hq). auto. }
  split; auto. intros Z. apply U3. rewrite <- (@element_ext K F g (fun q => patch r u W (r q)) u (fun q => patch r u W (c q)) (fun q => W (c q))); [rewrite Z; ring| |auto].
  intros q Hq. apply patch_in; auto. intros q' Hq' X. apply r_inj; auto.
Qed.

(** Two indices that have the same value wherever the entry is not zero. *)
Definition linked (x y : nat) : Prop := forall W, bits W -> f W <> zero A -> W x = W y.
Lemma rows_apart q q' : In q qs -> In q' qs -> q <> q' -> ~ linked (r q) (r q').
Proof.
  intros H H' Ne L. destruct (@row_nz (fun x => if x =? r q then 1 else 0)) as (W & B & E & Z); [intros x; destruct (x =? r q); lia|].
  specialize (L W B Z). rewrite !E in L by auto. rewrite Nat.eqb_refl in L. destruct (Nat.eqb_spec (r q') (r q)) as [X|X]; [apply Ne; symmetry; apply r_inj; auto|discriminate].
Qed.
Lemma cols_apart q q' : In q qs -> In q' qs -> q <> q' -> ~ linked (c q) (c q').
Proof.
  intros H H' Ne L. destruct (@col_nz (fun x => if x =? c q then 1 else 0)) as (W & B & E & Z); [intros x; destruct (x =? c q); lia|].
  specialize (L W B Z). rewrite !E in L by auto. rewrite Nat.eqb_refl in L. destruct (Nat.eqb_spec (c q') (c q)) as [X|X]; [apply Ne; symmetry; apply c_inj; auto|discriminate].
Qed.
Lemma f_ext V W : (forall x, In x xs -> V x = W x) -> f V = f W.
Proof. intros H. apply element_ext; intros q Hq; apply H, in_app_iff; [left|right]; apply in_map; auto. Qed.
Lemma linked_dec x y : In x xs -> In y xs -> {linked x y} + {~ linked x y}.
Proof.
  intros Hx Hy. destruct (@decide_bits xs (fun w => n_eqb F (f w) (zero A) || (w x =? w y))) with (v := fun _ : nat => 0) as [H|H].
  - intros v w E. rewrite (@f_ext v w) by auto. rewrite !E. auto.
  - left. intros W B Z. set (w := fun z => if memb z xs then W z else 0).
    assert (E : forall z, In z xs -> w z = W z) by (intros z Hz; unfold w; rewrite (proj2 (memb_In _ _) Hz); auto).
    specialize (H w). assert (H1 : same_off xs w (fun _ => 0)) by (intros z Hz; unfold w; rewrite (proj2 (memb_nIn _ _) Hz); auto).
    specialize (H H1 (fun z _ => ltac:(rewrite E by auto; apply B))). apply orb_true_iff in H. destruct H as [H|H]; [apply EQ in H; rewrite (@f_ext w W) in H by auto; contradiction|]. apply Nat.eqb_eq in H. rewrite !E in H by auto. auto.
  - right. intros L. destruct H as (w & W1 & W2 & W3). apply orb_false_iff in W3. destruct W3 as [W3 W4]. apply Nat.eqb_neq in W4. apply W4, L.
    + intros z. destruct (in_dec Nat.eq_dec z xs); [apply (W2 z); auto|rewrite W1; auto].
    + intros Z. apply EQ in Z. congruence.
Qed.

Variables (a b : nda K) (ys : list nat) (h : list (nat * list nat)).
Hypothesis Ta : tensor A two a xs f.
Hypothesis Hd : decompose A (n_eqb F) a xs = Ok (b, ys, h).

Lemma entries W : bits W -> entry_at A a xs W = f W.
Proof. intros B. apply Ta. intros x _. apply B. Qed.
Lemma dec_facts : incl ys xs /\ NoDup ys /\ (forall y s x, In (y, s) h -> In x s -> In x xs /\ In y xs) /\
  (forall W, bits W -> agrees h W -> f W = entry_at A b ys W) /\ (forall W, bits W -> f W <> zero A -> agrees h W) /\ ~ has_diagonal A two b ys.
Proof.
  destruct Ta as (W1 & W2 & W3). destruct (decompose_ok A EQ HX W1 W2) as [[E _]|(b' & ys' & h' & E & D1 & D2 & D3 & D4 & D5 & D6 & D7 & D8 & D9)]; [congruence|]. rewrite Hd in E. inversion E; subst b' ys' h'.
  split; auto. split; auto. split; [intros y s x H1 H2; destruct (D6 y s x H1 H2) as (? & ? & _); auto|]. split; [|split; auto].
  - intros W B Hh. rewrite <- entries by auto. apply D7; auto. intros x _. apply B.
  - intros W B Z. destruct (agrees_dec h W) as [|N]; auto. exfalso. apply Z. rewrite <- entries by auto. apply D8; auto. intros x _. apply B.
Qed.
Lemma merged_linked y s x : In (y, s) h -> In x s -> linked x y.
Proof. intros H1 H2 W B Z. destruct dec_facts as (_ & _ & _ & _ & D & _). apply (D W B Z y s x); auto. Qed.

Lemma kept_apart x y : In x ys -> In y ys -> linked x y -> x = y.
Proof.
  intros Hx Hy L. destruct (Nat.eq_dec x y) as [|Ne]; auto. exfalso. destruct dec_facts as (I & N & _ & D1 & D2 & D3). apply D3.
  destruct (decompose_rep EQ Ta HX Hd) as (zs & rp & Z1 & Z2 & Z3 & Z4 & [Z5|(Z5 & _)]); [subst zs|subst ys; destruct Hx].
  assert (X : forall v, in_range two ys v -> v x <> v y -> entry_at A b ys v = zero A).
  { intros v V Nv. set (w := fun z => if memb z xs then v (rp z) else 0).
    assert (E : forall z, In z xs -> w z = v (rp z)) by (intros z Hz; unfold w; rewrite (proj2 (memb_In _ _) Hz); auto).
    assert (E' : forall z, In z ys -> w z = v z) by (intros z Hz; rewrite E by auto; rewrite Z3; auto).
    assert (B : bits w) by (intros z; unfold w; destruct (memb z xs) eqn:M; [apply memb_In in M; apply V; auto|lia]).
    assert (G : agrees h w) by (apply Z4; intros z Hz; rewrite (E z Hz), (E' (rp z)); auto).
    transitivity (entry_at A b ys w); [unfold entry_at; f_equal; apply map_ext_in; intros z Hz; symmetry; auto|]. rewrite <- (D1 w B G). destruct (zero_dec (f w)) as [|Z]; auto. exfalso. apply Nv. rewrite <- !E' by auto. apply L; auto. }
  apply In_nth_error in Hx, Hy. destruct Hx as (i & Hi), Hy as (j & Hj). assert (i <> j) by congruence. destruct (lt_dec i j).
  - exists i, j, x, y. auto 6.
  - exists j, i, y, x. split; [lia|]. auto 6.
Qed.

(** An index of a row is still there, or it is merged with an index of a column. *)
Lemma row_kept q : In q qs -> (exists z, In z ys /\ forall v, agrees h v -> v (r q) = v z) \/ exists q', In q' qs /\ forall v, agrees h v -> v (r q) = v (c q').
Proof.
  intros Hq. assert (Ix : In (r q) xs) by (apply in_app_iff; left; apply in_map; auto). assert (Ic : forall q', In q' qs -> In (c q') xs) by (intros q' H; apply in_app_iff; right; apply in_map; auto). assert (Ir : forall q', In q' qs -> In (r q') xs) by (intros q' H; apply in_app_iff; left; apply in_map; auto).
  destruct (decompose_rep EQ Ta HX Hd) as (zs & rp & Z1 & Z2 & Z3 & Z4 & [Z5|(Z5 & e & Z6)]).
  - left. subst zs. exists (rp (r q)). split; [apply Z2; auto|]. intros v Hv. apply Z4; auto.
  - right. destruct (existsb (fun q' => rp (c q') =? rp (r q)) qs) eqn:X.
    + apply existsb_exists in X. destruct X as (q' & H1 & H2). apply Nat.eqb_eq in H2. exists q'. split; auto. intros v Hv. pose proof (proj1 (Z4 v) Hv) as Z. rewrite (Z (r q) Ix), (Z (c q') (Ic q' H1)), H2. auto.
    + exfalso. assert (NC : forall q', In q' qs -> rp (c q') <> rp (r q)).
      { intros q' H1 H2. assert (Y : existsb (fun q' => rp (c q') =? rp (r q)) qs = true) by (apply existsb_exists; exists q'; split; auto; apply Nat.eqb_eq; auto). congruence. }
      assert (NR : forall q', In q' qs -> q' <> q -> rp (r q') <> rp (r q)).
      { intros q' H1 H2 E. apply (rows_apart H1 Hq H2). intros W B Z. destruct dec_facts as (_ & _ & _ & _ & D & _). pose proof (proj1 (Z4 W) (D W B Z)) as Y. rewrite (Y (r q) Ix), (Y (r q') (Ir q' H1)), E. auto. }
      destruct dec_facts as (_ & _ & _ & D1 & D2 & _).
      (* the rows in which only the value of the index differs are equal *)
      set (v0 := fun _ : nat => 0). set (v1 := fun x : nat => if x =? q then 1 else 0).
      assert (B0 : bits v0) by (intros x; unfold v0; lia). assert (B1 : bits v1) by (intros x; unfold v1; destruct (x =? q); lia).
      assert (S : forall u, bits u -> element F g v1 u = element F g v0 u).
      { intros u Bu. set (W0 := patch r v0 (patch c u (fun _ => 0))). set (W1 := patch r v1 (patch c u (fun _ => 0))).
        assert (R0 : forall q', In q' qs -> W0 (r q') = v0 q') by (intros q' H; apply patch_in; auto; intros; apply r_inj; auto).
        assert (R1 : forall q', In q' qs -> W1 (r q') = v1 q') by (intros q' H; apply patch_in; auto; intros; apply r_inj; auto).
        assert (Pc : forall q', In q' qs -> patch c u (fun _ => 0) (c q') = u q') by (intros q' H; apply patch_in; auto; intros; apply c_inj; auto).
        assert (C0 : forall q', In q' qs -> W0 (c q') = u q') by (intros q' H; unfold W0; rewrite patch_out; auto; intros q2 H2; apply rc_neq; auto).
        assert (C1 : forall q', In q' qs -> W1 (c q') = u q') by (intros q' H; unfold W1; rewrite patch_out; auto; intros q2 H2; apply rc_neq; auto).
        assert (Bz : bits (patch c u (fun _ => 0))) by (apply patch_bits; auto; intros x; lia).
        assert (BW0 : bits W0) by (apply patch_bits; auto). assert (BW1 : bits W1) by (apply patch_bits; auto).
        assert (F0 : f W0 = element F g v0 u) by (apply element_ext; auto). assert (F1 : f W1 = element F g v1 u) by (apply element_ext; auto).
        rewrite <- F0, <- F1.
        assert (SA : forall x, In x xs -> rp x <> rp (r q) -> W1 x = W0 x).
        { intros x Hx N. apply in_app_iff in Hx. destruct Hx as [Hx|Hx]; apply in_map_iff in Hx; destruct Hx as (q' & <- & H); [|rewrite C0, C1; auto]. rewrite R0, R1 by auto. unfold v0, v1. destruct (Nat.eqb_spec q' q); [subst; tauto|auto]. }
        assert (RQ : forall x, In x xs -> rp x = rp (r q) -> x = r q).
        { intros x Hx E. apply in_app_iff in Hx. destruct Hx as [Hx|Hx]; apply in_map_iff in Hx; destruct Hx as (q' & <- & H); [|destruct (NC q' H E)]. destruct (Nat.eq_dec q' q) as [->|N]; auto. destruct (NR q' H N E). }
        assert (AG : agrees h W0 <-> agrees h W1).
        { rewrite (Z4 W0), (Z4 W1). assert (Irp : forall x, In x xs -> In (rp x) xs) by (intros x Hx; apply Z1, Z2; auto).
          split; intros Y x Hx; destruct (Nat.eq_dec (rp x) (rp (r q))) as [E|E].
          - pose proof (RQ x Hx E) as ->. f_equal. symmetry. apply RQ; auto.
          - rewrite (SA x Hx E), (SA (rp x)); auto. rewrite Z3 by (apply Z2; auto). auto.
          - pose proof (RQ x Hx E) as ->. f_equal. symmetry. apply RQ; auto.
          - rewrite <- (SA x Hx E), <- (SA (rp x)); auto. rewrite Z3 by (apply Z2; auto). auto. }
        assert (RG : forall W, bits W -> in_range two xs W) by (intros W B x _; apply B).
        destruct (agrees_dec h W0) as [G|G]; [rewrite (Z6 W0), (Z6 W1); auto; apply AG; auto|].
        assert (Y0 : f W0 = zero A) by (destruct (zero_dec (f W0)); auto; exfalso; auto). assert (Y1 : f W1 = zero A) by (destruct (zero_dec (f W1)); auto; exfalso; apply G, AG; auto). congruence. }
      pose proof (unitary_rows NF v0 Nq Hu B0 B1) as E1. pose proof (unitary_rows NF v0 Nq Hu B0 B0) as E2. rewrite Nat.eqb_refl in E2.
      assert (NE : number (map v0 qs) =? number (map v1 qs) = false).
      { apply Nat.eqb_neq. intros E. apply number_inj in E; [|rewrite !map_length; auto|apply Forall_forall; intros x Hx; apply in_map_iff in Hx; destruct Hx as (? & <- & _); auto|apply Forall_forall; intros x Hx; apply in_map_iff in Hx; destruct Hx as (? & <- & _); auto].
        assert (Y : v0 q = v1 q) by (apply (ext_in_map E q Hq)). unfold v0, v1 in Y. rewrite Nat.eqb_refl in Y. discriminate. }
      rewrite NE in E1. apply (num_nontrivial _ NF). rewrite <- E1, <- E2. apply so_ext. intros u U1 U2.
      rewrite S; auto. intros x. destruct (in_dec Nat.eq_dec x qs); [apply (U2 x); auto|rewrite U1; auto].
Qed.

(** An index of a column is still there, or it is merged with an index of a row. *)
Lemma col_kept q : In q qs -> (exists z, In z ys /\ forall v, agrees h v -> v (c q) = v z) \/ exists q', In q' qs /\ forall v, agrees h v -> v (c q) = v (r q').
Proof.
  intros Hq. assert (Ix : In (c q) xs) by (apply in_app_iff; right; apply in_map; auto). assert (Ic : forall q', In q' qs -> In (c q') xs) by (intros q' H; apply in_app_iff; right; apply in_map; auto). assert (Ir : forall q', In q' qs -> In (r q') xs) by (intros q' H; apply in_app_iff; left; apply in_map; auto).
  destruct (decompose_rep EQ Ta HX Hd) as (zs & rp & Z1 & Z2 & Z3 & Z4 & [Z5|(Z5 & e & Z6)]).
  - left. subst zs. exists (rp (c q)). split; [apply Z2; auto|]. intros v Hv. apply Z4; auto.
  - right. destruct (existsb (fun q' => rp (r q') =? rp (c q)) qs) eqn:X.
    + apply existsb_exists in X. destruct X as (q' & H1 & H2). apply Nat.eqb_eq in H2. exists q'. split; auto. intros v Hv. pose proof (proj1 (Z4 v) Hv) as Z. rewrite (Z (c q) Ix), (Z (r q') (Ir q' H1)), H2. auto.
    + exfalso. assert (NR : forall q', In q' qs -> rp (r q') <> rp (c q)).
      { intros q' H1 H2. assert (Y : existsb (fun q' => rp (r q') =? rp (c q)) qs = true) by (apply existsb_exists; exists q'; split; auto; apply Nat.eqb_eq; auto). congruence. }
      assert (NC : forall q', In q' qs -> q' <> q -> rp (c q') <> rp (c q)).
      { intros q' H1 H2 E. apply (cols_apart H1 Hq H2). intros W B Z. destruct dec_facts as (_ & _ & _ & _ & D & _). pose proof (proj1 (Z4 W) (D W B Z)) as Y. rewrite (Y (c q) Ix), (Y (c q') (Ic q' H1)), E. auto. }
      destruct dec_facts as (_ & _ & _ & D1 & D2 & _).
      set (v0 := fun _ : nat => 0). set (v1 := fun x : nat => if x =? q then 1 else 0).
      assert (B0 : bits v0) by (intros x; unfold v0; lia). assert (B1 : bits v1) by (intros x; unfold v1; destruct (x =? q); lia).
      assert (S : forall u, bits u -> element F g u v1 = element F g u v0).
      { intros u Bu. set (W0 := patch c v0 (patch r u (fun _ => 0))). set (W1 := patch c v1 (patch r u (fun _ => 0))).
        assert (C0 : forall q', In q' qs -> W0 (c q') = v0 q') by (intros q' H; apply patch_in; auto; intros; apply c_inj; auto).
        assert (C1 : forall q', In q' qs -> W1 (c q') = v1 q') by (intros q' H; apply patch_in; auto; intros; apply c_inj; auto).
        assert (Pr : forall q', In q' qs -> patch r u (fun _ => 0) (r q') = u q') by (intros q' H; apply patch_in; auto; intros; apply r_inj; auto).
        assert (R0 : forall q', In q' qs -> W0 (r q') = u q') by (intros q' H; unfold W0; rewrite patch_out; auto; intros q2 H2 E; apply (rc_neq H H2); auto).
        assert (R1 : forall q', In q' qs -> W1 (r q') = u q') by (intros q' H; unfold W1; rewrite patch_out; auto; intros q2 H2 E; apply (rc_neq H H2); auto).
        assert (Bz : bits (patch r u (fun _ => 0))) by (apply patch_bits; auto; intros x; lia).
        assert (BW0 : bits W0) by (apply patch_bits; auto). assert (BW1 : bits W1) by (apply patch_bits; auto).
        assert (F0 : f W0 = element F g u v0) by (apply element_ext; auto). assert (F1 : f W1 = element F g u v1) by (apply element_ext; auto).
        rewrite <- F0, <- F1.
        assert (SA : forall x, In x xs -> rp x <> rp (c q) -> W1 x = W0 x).
        { intros x Hx N. apply in_app_iff in Hx. destruct Hx as [Hx|Hx]; apply in_map_iff in Hx; destruct Hx as (q' & <- & H); [rewrite R0, R1; auto|]. rewrite C0, C1 by auto. unfold v0, v1. destruct (Nat.eqb_spec q' q); [subst; tauto|auto]. }
        assert (RQ : forall x, In x xs -> rp x = rp (c q) -> x = c q).
        { intros x Hx E. apply in_app_iff in Hx. destruct Hx as [Hx|Hx]; apply in_map_iff in Hx; destruct Hx as (q' & <- & H); [destruct (NR q' H E)|]. destruct (Nat.eq_dec q' q) as [->|N]; auto. destruct (NC q' H N E). }
        assert (AG : agrees h W0 <-> agrees h W1).
        { rewrite (Z4 W0), (Z4 W1). assert (Irp : forall x, In x xs -> In (rp x) xs) by (intros x Hx; apply Z1, Z2; auto).
          split; intros Y x Hx; destruct (Nat.eq_dec (rp x) (rp (c q))) as [E|E].
          - pose proof (RQ x Hx E) as ->. f_equal. symmetry. apply RQ; auto.
          - rewrite (SA x Hx E), (SA (rp x)); auto. rewrite Z3 by (apply Z2; auto). auto.
          - pose proof (RQ x Hx E) as ->. f_equal. symmetry. apply RQ; auto.
          - rewrite <- (SA x Hx E), <- (SA (rp x)); auto. rewrite Z3 by (apply Z2; auto). auto. }
        assert (RG : forall W, bits W -> in_range two xs W) by (intros W B x _; apply B).
        destruct (agrees_dec h W0) as [G|G]; [rewrite (Z6 W0), (Z6 W1); auto; apply AG; auto|].
        assert (Y0 : f W0 = zero A) by (destruct (zero_dec (f W0)); auto; exfalso; auto). assert (Y1 : f W1 = zero A) by (destruct (zero_dec (f W1)); auto; exfalso; apply G, AG; auto). congruence. }
      pose proof (unitary_cols NF v0 Nq Hu B0 B1) as E1. pose proof (unitary_cols NF v0 Nq Hu B0 B0) as E2. rewrite Nat.eqb_refl in E2.
      assert (NE : number (map v0 qs) =? number (map v1 qs) = false).
      { apply Nat.eqb_neq. intros E. apply number_inj in E; [|rewrite !map_length; auto|apply Forall_forall; intros x Hx; apply in_map_iff in Hx; destruct Hx as (? & <- & _); auto|apply Forall_forall; intros x Hx; apply in_map_iff in Hx; destruct Hx as (? & <- & _); auto].
        assert (Y : v0 q = v1 q) by (apply (ext_in_map E q Hq)). unfold v0, v1 in Y. rewrite Nat.eqb_refl in Y. discriminate. }
      rewrite NE in E1. apply (num_nontrivial _ NF). rewrite <- E1, <- E2. apply so_ext. intros u U1 U2.
      rewrite S; auto. intros x. destruct (in_dec Nat.eq_dec x qs); [apply (U2 x); auto|rewrite U1; auto].
Qed.
End Gate.
