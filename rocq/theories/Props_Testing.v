(** C62, C63: tnco.testing. *)
From Coq Require Import List Arith Lia Permutation.
Import ListNotations.
From Verif Require Import M_Base M_Path M_PyTree M_Testing S_Random S_Testing P_Testing P_TestMain P_TestZero.
Set Implicit Arguments.

(** * C62: get_connected_components *)

(** In a network without tensors without indices it returns the connected components. *)
Theorem C62_connected_components_partial (ts : list (list nat)) :
  (forall xs, In xs ts -> xs <> []) -> exists comps, get_connected_components ts = Ok comps /\ components_of ts comps.
Proof. intros H. pose proof (components_ok ts) as C. rewrite (filled_id H) in C. exact C. Qed.
Print Assumptions C62_connected_components_partial.

(** In general they are those of the network without these tensors, numbered in there. *)
Theorem C62_connected_components_of_rest (ts : list (list nat)) :
  exists comps, get_connected_components ts = Ok comps /\
    components_of (filter (fun xs => match xs with [] => false | _ => true end) ts) comps.
Proof.
  destruct (components_ok ts) as (comps & E & C). exists comps. split; auto. unfold filled in C.
  rewrite (filter_ext _ (fun xs : list nat => match xs with [] => false | _ => true end)) in C by (intros []; auto). exact C.
Qed.
Print Assumptions C62_connected_components_of_rest.

Example C62_applies : get_connected_components [[1; 2]; [2; 3]; [10; 11]; [3]; [11; 12; 1]; [20]] = Ok [[0; 1; 2; 3; 4]; [5]] /\
  get_connected_components [[1; 2]; [2; 3]; [10; 11]] = Ok [[0; 1]; [2]].
Proof. split; reflexivity. Qed.

(** A tensor without indices gets no component, and the tensors after it the numbers of
    others: with indices [], [7] the answer is that the only component is tensor 0. *)
Theorem C62_connected_components_refuted :
  ~ (forall ts comps, get_connected_components ts = Ok comps -> components_of ts comps).
Proof.
  intros H. pose proof (co_all (H [[]; [7]] [[0]] eq_refl) 1) as [_ G]. simpl in G. destruct G as [G|[]]; [lia|discriminate].
Qed.
Print Assumptions C62_connected_components_refuted.

(** * C63: generate_random_tensors *)

Section Generate.
Variables (R : Type) (g : rng R) (order : list nat -> list nat) (names : nat -> nat -> nat) (fuel : nat).
Variables (n_tensors n_inds k n_output_inds n_cc : nat) (randomize_names : bool) (r : R).

(** Whatever the generator draws: what is returned has the numbers of tensors, indices,
    output indices and components that were asked for, and its indices connect as many
    tensors as asked for. Missing: with k = 1 the components (C63_components_refuted). *)
Theorem C63_random_network_partial ts out : rng_ok g -> order_ok order -> 1 <= k ->
  generate_random_tensors g order n_tensors n_inds k n_output_inds n_cc randomize_names names fuel r = Ok (ts, out) ->
  random_network n_tensors n_inds k n_output_inds n_cc ts out /\ (2 <= k -> has_components n_tensors n_cc ts).
Proof. intros Hg Ho Hk E. pose proof (@generate_ok R g order names fuel Hg Ho n_tensors n_inds k n_output_inds n_cc randomize_names Hk r) as H. rewrite E in H. tauto. Qed.

(** It raises ValueError (or TypeError without components) if the indices do not
    suffice to connect the tensors; no assertion of its fails. *)
Theorem C63_raises : rng_ok g -> order_ok order -> 1 <= k ->
  (n_tensors < k \/ n_inds + k < n_output_inds + n_tensors + 1 ->
   generate_random_tensors g order n_tensors n_inds k n_output_inds n_cc randomize_names names fuel r = Err Throw) /\
  (forall e, generate_random_tensors g order n_tensors n_inds k n_output_inds n_cc randomize_names names fuel r = Err e -> e = Throw \/ e = Fuel).
Proof.
  intros Hg Ho Hk. pose proof (@generate_ok R g order names fuel Hg Ho n_tensors n_inds k n_output_inds n_cc randomize_names Hk r) as H. split.
  - intros K. exact (few_raises g order names fuel n_cc randomize_names r K).
  - intros e E. rewrite E in H. exact H.
Qed.
End Generate.
Print Assumptions C63_random_network_partial.
Print Assumptions C63_raises.

(** With k = 0 it raises ValueError (or TypeError without components), except that it
    returns the empty network if there are neither tensors nor output indices. *)
Theorem C63_k_0 : forall (R : Type) (g : rng R) order names fuel n_tensors n_inds n_output_inds n_cc randomize_names r, rng_ok g -> order_ok order ->
  (n_tensors = 0 /\ n_output_inds = 0 /\ 0 < n_inds /\ 0 < n_cc ->
   generate_random_tensors g order n_tensors n_inds 0 n_output_inds n_cc randomize_names names fuel r = Ok ([], [])) /\
  (~ (n_tensors = 0 /\ n_output_inds = 0 /\ 0 < n_inds /\ 0 < n_cc) ->
   generate_random_tensors g order n_tensors n_inds 0 n_output_inds n_cc randomize_names names fuel r = Err Throw).
Proof.
  intros R g order names fuel n_tensors n_inds n_output_inds n_cc b r Hg Ho. rewrite (generate_0 Hg Ho). split.
  - intros (-> & -> & H1 & H2). apply Nat.ltb_lt in H1, H2. rewrite H1, H2. reflexivity.
  - intros H. destruct (Nat.eqb_spec n_tensors 0), (Nat.eqb_spec n_output_inds 0), (Nat.ltb_spec 0 n_inds), (Nat.ltb_spec 0 n_cc); cbn [andb]; auto. tauto.
Qed.
Print Assumptions C63_k_0.

(** The names are as many as asked for and all different. *)
Theorem C63_random_inds names fuel n seed l : generate_random_inds names fuel n seed = Ok l -> NoDup l /\ length l = n.
Proof. exact (@random_inds_ok names fuel n seed l). Qed.
Print Assumptions C63_random_inds.

(** A generator that always takes the first elements, the first draw not. *)
Definition ex_rng : rng nat := mkRng
  (fun r n k => (match r with 0 => rev (seq (n - k) k) | _ => seq 0 k end, S r)) (fun r n => (r mod n, S r)) (fun r n => (rev (seq 0 n), S r)) (fun r => (r, S r)).
Lemma ex_rng_ok : rng_ok ex_rng.
Proof.
  constructor; simpl.
  - intros [|r] n k H; simpl.
    + split; [rewrite rev_length; apply seq_length|]. split; [apply NoDup_rev, seq_NoDup|]. intros p Hp. apply (proj2 (in_rev _ _)) in Hp. apply in_seq in Hp. lia.
    + split; [apply seq_length|]. split; [apply seq_NoDup|]. intros p Hp. apply in_seq in Hp. lia.
  - intros r n H. apply Nat.mod_upper_bound. lia.
  - intros r n. apply Permutation_sym, Permutation_rev.
Qed.
Example C63_applies : rng_ok ex_rng /\ order_ok (@rev nat) /\
  generate_random_tensors ex_rng (@rev nat) 4 6 2 2 2 true (fun s i => i / 2) 100 0 =
    Ok ([[0; 1]; [2; 0; 1]; [3; 2; 4]; [3; 5]; [6; 7]; [8; 6; 9]; [10; 8; 11]; [10; 11]], [7; 9; 4; 5]) /\
  generate_random_tensors ex_rng (@rev nat) 3 5 3 2 2 true (fun s i => i / 2) 100 0 =
    Ok ([[0; 1; 2; 3]; [0; 1; 2; 4; 3]; [0; 1; 2]; [5; 6; 7]; [5; 6; 7; 8]; [5; 6; 7; 9; 8]], [9; 8; 4; 3]).
Proof. split; [exact ex_rng_ok|]. split; [intros l; apply Permutation_sym, Permutation_rev|]. split; reflexivity. Qed.

(** With k = 1 no index connects tensors: one component was asked for, the network has
    two. *)
Theorem C63_components_refuted :
  ~ (forall (g : rng nat) order names fuel n_tensors n_inds k n_output_inds n_cc randomize_names r ts out, rng_ok g -> order_ok order -> 1 <= k ->
       generate_random_tensors g order n_tensors n_inds k n_output_inds n_cc randomize_names names fuel r = Ok (ts, out) ->
       has_components n_tensors n_cc ts).
Proof.
  intros H. destruct (H ex_rng (@rev nat) (fun s i => i) 100 2 2 1 0 1 false 0 [[1]; [0]] [] ex_rng_ok) as (comps & C & L & L2); auto.
  - intros l. apply Permutation_sym, Permutation_rev.
  - destruct comps as [|c [|? ?]]; try discriminate. assert (A0 : In 0 c) by (pose proof (proj2 (co_all C 0)) as A; simpl in A; rewrite app_nil_r in A; apply A; lia).
    assert (A1 : In 1 c) by (pose proof (proj2 (co_all C 1)) as A; simpl in A; rewrite app_nil_r in A; apply A; lia).
    apply (co_conn C c 0 1 (or_introl eq_refl) A0) in A1. destruct A1 as [_ A1].
    assert (G : forall t u, connected [[1]; [0]] t u -> t = 0 -> u = 0); [|apply G in A1; auto; discriminate].
    clear. intros t u K. induction K as [|t u v x K IH (xs & X1 & X2) (ys & Y1 & Y2)]; auto. intros ->. rewrite IH in X1 by auto. simpl in X1. injection X1 as <-. destruct X2 as [<-|[]].
    destruct v as [|[|v]]; auto; simpl in Y1; [injection Y1 as <-; destruct Y2 as [E|[]]; discriminate|destruct v; discriminate].
Qed.
Print Assumptions C63_components_refuted.
