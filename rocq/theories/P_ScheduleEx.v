(** Proofs about the temperatures of a run: errors and refutations. *)
From Coq Require Import QArith Qabs ZArith Bool List Lia Lqa.
From Verif Require Import M_Base M_Fixed M_App M_Schedule S_Fixed S_Schedule P_Base P_Fixed P_FixedMain P_FixedConv P_Schedule P_ScheduleMain.
Import ListNotations.
Set Implicit Arguments. Unset Strict Implicit.
Local Open Scope Z_scope.

Lemma listed_ok l n_steps stop : (forall k, n_steps = Some k -> 1 <= k) ->
  schedule (Listed l) n_steps stop = Ok (firstn stop (match n_steps with Some k => firstn (Z.to_nat k) l | None => l end)).
Proof.
  intros H. unfold schedule, check_steps. destruct n_steps as [k|]; [|reflexivity].
  specialize (H k eq_refl). destruct (k <=? 0) eqn:E; [lia|reflexivity].
Qed.

Lemma errors_ok b b' n_steps n stop : is_float b -> is_float b' ->
  (n <= 0 -> forall bs, schedule bs (Some n) stop = Err Throw) /\
  schedule (Between b b') None stop = Err Throw /\
  ((val b == val b')%Q -> schedule (Between b b') n_steps stop = Err Throw).
Proof.
  intros [_ F] [_ F']. split; [|split; [reflexivity|]].
  - intros H bs. unfold schedule, check_steps. destruct (n <=? 0) eqn:E; [reflexivity|lia].
  - intros E. unfold schedule, check_steps. destruct n_steps as [k|]; [|reflexivity].
    destruct (k <=? 0); [reflexivity|]. cbn [bind expand].
    assert (X : eq b b' = true).
    { unfold eq. pose proof (cmp_finite F F') as H. unfold related. destruct (cmp b b'); try lra. destruct b, b'; try discriminate; reflexivity. }
    rewrite X. reflexivity.
Qed.

Lemma big_lt a : (a <= 1000)%Q -> (Qabs a == a)%Q -> (Qabs a < pow2 1024)%Q.
Proof. intros H E. rewrite E. pose proof (@pow2_lt 10 1024 ltac:(lia)) as X. change (pow2 10) with (1024 # 1)%Q in X. lra. Qed.


Lemma tiny_le n (x : Q) : (Qle_bool (inject_Z n * (1 # 1024)) (Qabs x) = true) -> 0 <= n -> (inject_Z n * pow2 (-1022) <= Qabs x)%Q.
Proof.
  intros H N. apply Qle_bool_iff in H. eapply Qle_trans; [|exact H].
  rewrite (Qmult_comm _ (pow2 _)), (Qmult_comm _ (1 # 1024)). apply Qmult_le_compat_r.
  - change (1 # 1024)%Q with (pow2 (-10)). apply pow2_le. lia.
  - change 0%Q with (inject_Z 0). rewrite <- Zle_Qle. exact N.
Qed.

Lemma last_temperature_refuted : ~ (forall b0 b1 n l, is_float b0 -> is_float b1 -> ~ (val b0 == val b1)%Q -> (1 <= n)%nat ->
  schedule (Between b0 b1) (Some (Z.of_nat n)) n = Ok l -> exists x, In x l /\ (val x == val b1)%Q).
Proof.
  intros H. assert (F : is_float (Num false 1 1)) by (repeat split; simpl; lia).
  destruct (H (Zero false) (Num false 1 1) 2%nat [Zero false; Num false 1 0]) as (x & [<-|[<-|[]]] & E); auto.
  - repeat split.
  - intros C. discriminate C.
  - discriminate E.
  - discriminate E.
Qed.

Lemma number_of_steps_refuted : exists b0 b1, is_float b0 /\ is_float b1 /\ usual_range (val b0) (val b1) 10 /\
  schedule (Between b0 b1) (Some 10) 1000 = Ok (repeat b0 6).
Proof.
  exists (Num false 1 53), (Num false (2 ^ 52 + 1) 1). split; [repeat split; simpl; lia|]. split; [repeat split; vm_compute; congruence|]. split.
  - split; [|apply tiny_le; [vm_compute; reflexivity|lia]]. exists 2%Q. split; [|vm_compute; discriminate].
    split; [exists 2, 0; split; [reflexivity|]; split; [unfold low_ok; simpl; lia|reflexivity]|apply big_lt; [vm_compute; discriminate|reflexivity]].
  - vm_compute. reflexivity.
Qed.

Lemma infinite_temperature b0 s n stop : is_float b0 -> (1 <= n)%nat -> Z.of_nat n <= 2 ^ 53 ->
  schedule (Between b0 (Inf s)) (Some (Z.of_nat n)) stop = Ok [].
Proof.
  intros [D F] Hn H53. unfold schedule, check_steps. destruct (Z.of_nat n <=? 0) eqn:E; [lia|]. rewrite Nat2Z.id. cbn [bind expand].
  assert (E1 : eq b0 (Inf s) = false) by (destruct b0; try discriminate; destruct s; reflexivity). rewrite E1.
  assert (E2 : dsub (Inf s) b0 = Inf s) by (destruct b0; try discriminate; reflexivity). rewrite E2.
  destruct (of_nat_ok H53) as (Fn & Vn & _).
  assert (E3 : exists s', ddiv (Inf s) (of_nat n) = Inf s') by (destruct (of_nat n); try discriminate; eexists; reflexivity).
  destruct E3 as (s' & ->). unfold numeric_range. assert (E4 : eq (Inf s') (Zero false) = false) by (destruct s'; reflexivity). rewrite E4. cbn [bind].
  assert (E5 : forall g, values b0 (Inf s) (Inf s') g 0 n = []).
  { intros g. destruct n as [|n']; [reflexivity|]. cbn [values]. assert (X : dadd b0 (dmul (of_nat 0) (Inf s')) = NaN) by (destruct b0; reflexivity). rewrite X.
    destruct g, s; reflexivity. }
  rewrite E5. unfold performed. rewrite firstn_nil. rewrite firstn_nil. reflexivity.
Qed.

Lemma iterator_refuted b l n_steps stop : (forall k, n_steps = Some k -> (1 <= k)%nat) -> (1 <= stop)%nat ->
  performed (b :: l) n_steps stop <> [] /\ loop_iterator (b :: l) n_steps stop = Err Throw.
Proof.
  intros H Hs. destruct stop as [|stop]; [lia|]. destruct n_steps as [k|].
  - specialize (H k eq_refl). destruct k as [|k]; [lia|]. split; [discriminate|reflexivity].
  - split; [discriminate|reflexivity].
Qed.
