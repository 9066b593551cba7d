(** generate_random_tensors with k = 0. *)
From Coq Require Import List Arith Lia Permutation ZArith.
Import ListNotations.
From Verif Require Import M_Base M_Path M_PyTree M_Testing S_Random S_Testing P_Base P_Testing P_TestMain.
Set Implicit Arguments.
Section K0.
Variables (R : Type) (g : rng R) (order : list nat -> list nat).
Hypothesis G : rng_ok g.
Hypothesis Ho : order_ok order.
Lemma sample_0 (A : Type) r (pop : list A) : exists r', sample g r pop 0 = Ok ([], r').
Proof.
  unfold sample. replace (Z.of_nat (length pop) <? 0)%Z with false by (symmetry; apply Z.ltb_ge; lia). cbn [Z.ltb Z.compare orb].
  destruct (ro_sample G r (n := length pop) (k := 0)) as (E & _); [lia|]. change (Z.to_nat 0) with 0. destruct (rsample g r (length pop) 0) as (ps, r'). cbn [fst] in E.
  destruct ps; [|discriminate]. exists r'. reflexivity.
Qed.
Lemma times_sample_0 n m : forall r, exists r', times (fun r => sample g r (seq 0 n) 0) m r = Ok (repeat [] m, r').
Proof.
  induction m as [|m IH]; intros r; cbn [times repeat]; [eauto|]. destruct (sample_0 r (seq 0 n)) as (r1 & ->). cbn [bind].
  destruct (IH r1) as (r2 & ->). cbn [bind]. eauto.
Qed.
Lemma draw_0 n n_inds n_out r : n <> 0 \/ n_out <> 0 -> draw_inds g order n n_inds 0 n_out r = Err Throw.
Proof.
  intros H. unfold draw_inds. change (Z.of_nat 0) with 0%Z. destruct (sample_0 r (order (seq 0 n))) as (r1 & ->). cbn [bind].
  destruct n as [|n].
  - destruct H as [H|H]; [lia|]. cbn -[Z.of_nat Z.add Z.sub]. destruct (times_sample_0 0 (n_inds - 1 - n_out) r1) as (r2 & E). cbn [seq] in E. rewrite E. cbn [bind].
    unfold n_nhyper_output_inds. cbn [Nat.leb]. destruct n_out; [lia|]. reflexivity.
  - replace (filter (fun x => negb (memb x [])) (seq 0 (S n))) with (seq 0 (S n)).
    2:{ generalize (seq 0 (S n)). intros l. induction l as [|x l IH]; cbn; auto. f_equal. exact IH. }
    rewrite Nat.sub_0_r. cbn [grow]. unfold sample at 1. pose proof (Permutation_length (Ho (seq 0 (S n)))) as L. rewrite seq_length in L. rewrite L.
    replace (Z.of_nat (S n) <? 1)%Z with false by (symmetry; apply Z.ltb_ge; lia). cbn [Z.ltb Z.compare orb].
    destruct (ro_sample G r1 (n := S n) (k := 1)) as (E & _ & P); [lia|]. change (Z.to_nat 1) with 1. destruct (rsample g r1 (S n) 1) as (ps, r2). cbn [fst] in E, P.
    destruct ps as [|p [|? ?]]; try discriminate. cbn [mapM]. specialize (P p (or_introl eq_refl)).
    destruct (nth_error (order (seq 0 (S n))) p) as [x|] eqn:Ex; [|apply nth_error_None in Ex; lia]. rewrite (get_some Ex). cbn [bind]. reflexivity.
Qed.
Lemma draw_00 n_inds r : 0 < n_inds -> exists r', draw_inds g order 0 n_inds 0 0 r = Ok (repeat [] n_inds, r').
Proof.
  intros H. unfold draw_inds. change (Z.of_nat 0) with 0%Z. destruct (sample_0 r (order (seq 0 0))) as (r1 & ->). change (0 - 0) with 0. cbn -[Z.of_nat Z.add Z.sub Nat.sub].
  destruct (times_sample_0 0 (n_inds - 1 - 0) r1) as (r2 & E). cbn [seq] in E. rewrite E. cbn -[Nat.sub Nat.eqb]. rewrite app_nil_r, repeat_length.
  replace (n_inds - 1 - 0) with (n_inds - 1) by lia. destruct n_inds; [lia|]. replace (S n_inds - 1) with n_inds by lia. rewrite Nat.eqb_refl. cbn. eauto.
Qed.
Lemma no_tensors n : forall i, flat_map (fun e : nat * list nat => map (fun t => (t, fst e)) (snd e)) (combine (seq i n) (repeat [] n)) = [].
Proof. induction n as [|n IH]; intros i; cbn; auto. Qed.
Lemma attempts_0 n_inds r m : 0 < n_inds -> exists r', attempts g order 0 n_inds 0 0 (S m) r = Ok ([], [], r').
Proof.
  intros H. cbn [attempts]. unfold attempt. destruct (draw_00 r H) as (r1 & ->). cbn [bind]. rewrite repeat_length, no_tensors. cbn. eauto.
Qed.
Lemma times_0 n_inds n_cc : 0 < n_inds -> forall r, exists r', times (attempts g order 0 n_inds 0 0 10) n_cc r = Ok (repeat ([], []) n_cc, r').
Proof.
  intros H. induction n_cc as [|m IH]; intros r; cbn [times repeat]; [eauto|]. destruct (@attempts_0 n_inds r 9 H) as (r1 & ->). cbn [bind].
  destruct (IH r1) as (r2 & ->). cbn [bind]. eauto.
Qed.
Lemma combine_none n_inds m : forall n, combine_tensors n_inds n (repeat ([], []) m) = [] /\ combine_output n_inds n (repeat ([], []) m) = [].
Proof. induction m as [|m IH]; intros n; cbn; auto. Qed.
Lemma generate_0 names fuel n n_inds n_out n_cc b r :
  generate_random_tensors g order n n_inds 0 n_out n_cc b names fuel r =
  if (n =? 0) && (n_out =? 0) && (0 <? n_inds) && (0 <? n_cc) then Ok ([], []) else Err Throw.
Proof.
  unfold generate_random_tensors. replace (n <? 0) with false by (destruct n; auto). rewrite Bool.orb_false_r.
  destruct (Z.ltb_spec (Z.of_nat n_inds - Z.of_nat n_out) (Z.of_nat n + 1 - Z.of_nat 0)) as [H|H].
  { destruct (Nat.eqb_spec n 0), (Nat.eqb_spec n_out 0), (Nat.ltb_spec 0 n_inds); cbn [andb]; try lia; reflexivity. }
  assert (Hi : (0 <? n_inds) = true) by (apply Nat.ltb_lt; lia). rewrite Hi. rewrite Bool.andb_true_r.
  destruct n_cc as [|m]. { rewrite Bool.andb_false_r. reflexivity. }
  change (0 <? S m) with true. rewrite Bool.andb_true_r. apply Nat.ltb_lt in Hi.
  destruct ((n =? 0) && (n_out =? 0)) eqn:E.
  - apply andb_prop in E. destruct E as (E1 & E2). apply Nat.eqb_eq in E1, E2. subst. destruct (@times_0 n_inds (S m) Hi r) as (r1 & ->). cbn [bind Nat.eqb].
    destruct (combine_none n_inds (S m) 0) as (-> & ->). cbn [length]. pose proof (ro_shuffle G r1 0) as P. destruct (rshuffle g r1 0) as (ps, r2). cbn [fst seq] in P.
    apply Permutation_sym, Permutation_nil in P. subst. cbn. destruct b; reflexivity.
  - assert (X : n <> 0 \/ n_out <> 0). { destruct (Nat.eqb_spec n 0), (Nat.eqb_spec n_out 0); auto; discriminate. }
    cbn [times attempts]. unfold attempt at 1. rewrite (@draw_0 n n_inds n_out r X). reflexivity.
Qed.
End K0.
