(** What it means to ask an optimizer for the same, or for more. *)
From Coq Require Import List ZArith Permutation.
Import ListNotations.
From Verif Require Import M_Base M_Opt M_FinWidth M_Random M_App M_Parallel M_Tensor M_TnApp M_LoadTn M_Seed M_PyTree S_Random.
Set Implicit Arguments.

(** What the user does not control: the order in which sets list their elements, the
    element at which a set of integers starts, the schedule. *)
Definition environment := ((list nat -> list nat) * (list nat -> nat) * list event)%type.
(** A call in an environment. *)
Definition im_in {P R B} (g : prng P) next32 py_seed (cpp_seed : nat -> R) {K} (A : alg K) eqb lg (rule : B -> rand R) (e : environment) :=
  let '(arr, pick, es) := e in im_call g next32 py_seed cpp_seed A eqb lg rule arr pick es.
Definition fw_in {P R B} (g : prng P) next32 py_seed (cpp_seed : nat -> R) {K} (A : alg K) eqb lg mx fr0 (rule : B -> frand R) u (e : environment) :=
  let '(arr, pick, es) := e in fw_call g next32 py_seed cpp_seed A eqb lg mx fr0 rule u arr pick es.

(** An order in which Python lists the elements of sets. *)
Definition lists_sets (arr : list nat -> list nat) : Prop := forall l, Permutation (arr l) l.

(** An ordinary network: no index belongs to more than two tensors, and an output index
    belongs to one only. *)
Definition ordinary {K} (n : tnet K) : Prop :=
  let occ := concat (map (@t_inds K) (n_list n)) in
  forall x, count x occ <= 2 /\ (In x (n_out n) -> count x occ <= 1).
(** Some tensor is given by its indices only. *)
Definition abstract {K} (n : tnet K) : Prop := exists t, In t (n_list n) /\ t_array t = None.

(** The temperatures at which a call makes updates, if there is no timeout. *)
Definition temperatures_of {B K} (c : call B K) : list B :=
  match ca_steps c with Some k => firstn (Z.to_nat k) (ca_betas c) | None => ca_betas c end.

(** The same call with more runs. *)
Definition more_runs {B K} (c c' : call B K) : Prop :=
  ca_tn c' = ca_tn c /\ ca_dec c' = ca_dec c /\ ca_fuse c' = ca_fuse c /\ ca_projs c' = ca_projs c /\
  ca_betas c' = ca_betas c /\ ca_steps c' = ca_steps c /\ ca_runs c <= ca_runs c'.
(** The same call which goes on for longer. *)
Definition more_steps {B K} (c c' : call B K) : Prop :=
  ca_tn c' = ca_tn c /\ ca_dec c' = ca_dec c /\ ca_fuse c' = ca_fuse c /\ ca_projs c' = ca_projs c /\
  ca_runs c' = ca_runs c /\ exists extra, temperatures_of c' = temperatures_of c ++ extra.

(** What Python guarantees about sets. *)
Definition possible (e : environment) : Prop := let '(arr, pick, _) := e in lists_sets arr /\ pick_ok pick.
(** No run is cut short by a timeout. *)
Definition in_full (e : environment) : Prop := possible e /\ ~ In Tick (snd e).
(** The order of sets is the same (as it is within a Python session), or the network is
    ordinary and there is nothing to decompose. *)
Definition same_order {B K} (e e' : environment) (c : call B K) : Prop :=
  fst (fst e) = fst (fst e') \/ ordinary (o_net (ca_tn c)) /\ (ca_dec c = false \/ abstract (o_net (ca_tn c))).
