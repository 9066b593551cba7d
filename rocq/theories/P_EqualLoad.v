(** A network that load_tn leaves alone equals the one that was given. *)
From Coq Require Import List Arith ZArith Lia Bool.
Import ListNotations.
From Verif Require Import M_Base M_Path M_PyTree M_Random M_Fuse M_Tensor M_Contract M_Decompose M_TnApp M_LoadTn M_Equal S_Tensor S_LoadTn S_Equal P_Base P_LoadTn P_LoadTnUse P_Equal.
Set Implicit Arguments.
Unset Strict Implicit.

Section Load.
Variables (K : Type) (A : alg K) (sub : K -> K -> K) (small : K -> bool) (eqb : K -> K -> bool) (R : Type) (g : prng R) (lg : N -> Z) (arr : list nat -> list nat).

Lemma bind_ok (X Y : Type) (m : res X) (k : X -> res Y) y : bind m k = Ok y -> exists x, m = Ok x /\ k x = Ok y.
Proof. destruct m as [x|]; cbn [bind]; [eauto|discriminate]. Qed.
Lemma load_made o dec width r o' : load_tn A eqb g lg arr o dec width r = Ok o' -> exists Ts out sp, make_network Ts out sp = Ok (o_net o').
Proof.
  unfold load_tn. intros H. apply bind_ok in H. destruct H as ([u h] & _ & H). destruct u as [[[ar ts] out] tags].
  apply bind_ok in H. destruct H as ([u fp] & _ & H). destruct u as [[[ar' ts'] out'] tags'].
  apply bind_ok in H. destruct H as ([Ts gs] & _ & H). apply bind_ok in H. destruct H as (n' & H & E). injection E as <-. eauto.
Qed.
Lemma network_list (ts : list (M_TnApp.tensor K)) out sp n : make_network ts out sp = Ok n -> n_list n = ts.
Proof.
  intros E. unfold make_network in E. destruct (negb _); [discriminate|]. destruct (match out with Some _ => _ | None => _ end); cbn [bind] in E; [|discriminate]. destruct (negb _); [discriminate|]. destruct (negb _); [discriminate|]. injection E as <-. reflexivity.
Qed.

Variable G : Type.
Variable eq_tags : G -> G -> bool.
(** The tags of the network as one value. *)
Variable tags_of : option (list (nat * nat)) -> option path -> G.

Lemma load_equal o dec width r : (forall x, eq_tags x x = true) ->
  built (o_net o) -> length (o_tags o) = length (n_list (o_net o)) ->
  n_sparse (o_net o) <> [] \/ (exists t a t', In t (n_list (o_net o)) /\ t_array t = Some a /\ In t' (n_list (o_net o)) /\ t_array t' = None) \/
    (dec = false \/ exists t, In t (n_list (o_net o)) /\ t_array t = None) /\ (forall w, width = Some w -> (w <= 0)%Z) ->
  (forall t a x, In t (n_list (o_net o)) -> t_array t = Some a -> In x (data a) -> small (sub x x) = true) ->
  exists o', load_tn A eqb g lg arr o dec width r = Ok o' /\ forall mem ids ids',
    let n := mkNw (o_net o) ids (tags_of (o_hyper o) (o_path o)) in
    let n' := mkNw (o_net o') ids' (tags_of (o_hyper o') (o_path o')) in
    Forall2 (fun i t => mem i = Some t) ids (n_list (o_net o)) -> Forall2 (fun i t => mem i = Some t) ids' (n_list (o_net o')) ->
    in_memory mem n' /\ eq_network A sub small eq_tags n' n = Ok true.
Proof.
  intros T B L C S. destruct (@load_unchanged K A eqb R g lg arr o dec width r B L C) as (o' & E & EL & O & SP & _ & EH & EP). exists o'. split; auto. intros mem ids ids' n n' M M'.
  assert (B' : built (o_net o')).
  { destruct (load_made E) as (Ts & out & sp & N). exists Ts, out, sp. split; auto. intros t I. apply (built_made B). rewrite <- EL, (network_list N). auto. }
  assert (I : in_memory mem n) by (split; auto). assert (I' : in_memory mem n') by (split; auto). split; auto.
  apply (networks_true A sub small eq_tags I' I). subst n n'. cbn [w_net w_ids w_tags] in *. rewrite EH, EP. split; auto. split; [cbn [w_net]; congruence|]. split; [|split; auto].
  intros k i j t u (_ & _ & Ht & Hu). cbn [w_net] in *. rewrite EL in Ht. right. assert (t = u) by congruence. subst u.
  apply nth_error_In in Ht. apply eq_tensor_true; try (apply (built_made B); auto). apply tensors_refl; [apply (built_made B); auto|]. intros a x. apply S. auto.
Qed.
End Load.
