(** Specification vocabulary for tnco.testing: the connected components of a network,
    and what a random network has to be. *)
From Coq Require Import List Arith Sorted Permutation.
Import ListNotations.
From Verif Require Import S_Random M_Testing.
Set Implicit Arguments.

(** [comps] are the connected components of the network: each tensor is in exactly one
    of them, and with the tensors that it is connected to and no others. They are listed
    by their first tensors, and each in increasing order. *)
Record components_of (ts : list (list nat)) (comps : list (list nat)) : Prop := {
  co_all : forall t, In t (concat comps) <-> t < length ts;
  co_once : NoDup (concat comps);
  co_some : forall c, In c comps -> c <> [];
  co_conn : forall c t u, In c comps -> In t c -> (In u c <-> u < length ts /\ connected ts t u);
  co_sorted : forall c, In c comps -> StronglySorted lt c;
  co_order : StronglySorted lt (map (hd 0) comps)
}.

(** How many tensors have the index [x], when none has it twice. *)
Definition holders (ts : list (list nat)) (x : nat) : nat := count_occ Nat.eq_dec (concat ts) x.

(** What the documentation of generate_random_tensors promises of the tensors [ts] and
    the output indices [out]. An output index also connects to the outside. *)
Record random_network (n_tensors n_inds k n_output_inds n_cc : nat) (ts : list (list nat)) (out : list nat) : Prop := {
  rn_tensors : length ts = n_tensors * n_cc;
  rn_inds : length (nodup Nat.eq_dec (concat ts)) = n_inds * n_cc;
  rn_output : length out = n_output_inds * n_cc /\ NoDup out /\ incl out (concat ts);
  rn_different : NoDup ts;
  rn_once : forall xs, In xs ts -> xs <> [] /\ NoDup xs;
  rn_inner : forall x, In x (concat ts) -> ~ In x out -> holders ts x = k;
  rn_outer : forall x, In x out -> holders ts x = 1 \/ holders ts x = k - 1
}.

(** The network has [n_cc] connected components of [n_tensors] tensors each. *)
Definition has_components (n_tensors n_cc : nat) (ts : list (list nat)) : Prop :=
  exists comps, components_of ts comps /\ length comps = n_cc /\ forall c, In c comps -> length c = n_tensors.

(** What is assumed of the random generator and of the order of a set. *)
Record rng_ok {R : Type} (g : rng R) : Prop := {
  ro_sample : forall r n k, k <= n ->
    length (fst (rsample g r n k)) = k /\ NoDup (fst (rsample g r n k)) /\ forall p, In p (fst (rsample g r n k)) -> p < n;
  ro_range : forall r n, 0 < n -> fst (rrange g r n) < n;
  ro_shuffle : forall r n, Permutation (fst (rshuffle g r n)) (seq 0 n)
}.
Definition order_ok (order : list nat -> list nat) : Prop := forall l, Permutation (order l) l.
