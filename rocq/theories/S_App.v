(** Specification vocabulary for the results of an optimization: cost and width of the
    contractions of a network, in terms of the network only. *)
From Coq Require Import List Arith NArith ZArith.
Import ListNotations.
From Verif Require Import M_Base M_Path M_PyTree S_Path S_PyTree S_Random S_Network.
Set Implicit Arguments.

(** [l] lists the indices with property [P], once each. *)
Definition lists (l : list nat) (P : nat -> Prop) : Prop := NoDup l /\ forall x, In x l <-> P x.

Section Spec.
Variables (ts : list (list nat)) (out sparse : list nat) (np : option Z) (dim : nat -> N).

Definition sparse_index (x : nat) : bool := existsb (Nat.eqb x) sparse.
Definition dense_index (x : nat) : bool := negb (sparse_index x).
(** The number of projections; without sparse indices it does not matter. *)
Definition projections : Z := match np with Some k => k | None => 1 end.

(** The number of values that the indices [l] take together: the product of their
    dimensions, the sparse ones taking at most as many as there are projections. *)
Definition size (l : list nat) : Z := fold_right (fun x k => (Z.of_N (dim x) * k)%Z) 1%Z l.
Definition values (l : list nat) : Z := (size (filter dense_index l) * Z.min (size (filter sparse_index l)) projections)%Z.

(** [k] is the cost of the contractions [cs] when the indices [sl] are sliced. A
    contraction costs as many operations as the indices of its two tensors and the
    slices take values. *)
Inductive cost_is (sl : list nat) : list term -> Z -> Prop :=
| cost_none : cost_is sl [] 0
| cost_one a b cs l k :
    lists l (fun x => stays ts out (tensors a) x \/ stays ts out (tensors b) x \/ In x sl) ->
    cost_is sl cs k -> cost_is sl (C a b :: cs) (values l + k).

(** The width of a tensor with the indices [l]. *)
Definition log_size (lg : N -> Z) (l : list nat) : Z := fold_right (fun x k => (lg (dim x) + k)%Z) 0%Z l.
Definition width (lg : N -> Z) (l : list nat) : Z :=
  (log_size lg (filter dense_index l) + Z.min (log_size lg (filter sparse_index l)) (lg (Z.to_N projections)))%Z.
(** The tensor made of the tensors [k] is at most [mx] wide when the indices [sl] are
    sliced. *)
Definition fits (lg : N -> Z) (mx : Z) (sl : list nat) (k : list nat) : Prop :=
  exists l, lists l (fun x => stays ts out k x /\ ~ In x sl) /\ (width lg l <= mx)%Z.
End Spec.

(** A network that can be optimized: no tensor has an index twice, the indices have
    positive dimensions, the number of projections is positive and is given if there are
    sparse indices; those are indices of the network. *)
Record network_ok (ts : list (list nat)) (d : pydims) (dim : nat -> N) (sparse : list nat) (np : option Z) : Prop := {
  nk_nodup : forall xs, In xs ts -> NoDup xs;
  nk_dims  : forall t x, has ts t x -> dim_is d x (dim x) /\ dim x <> 0%N;
  nk_projs : forall k, np = Some k -> (1 <= k)%Z;
  nk_given : sparse <> [] -> np <> None;
  nk_sparse : forall x, In x sparse -> exists t, has ts t x
}.

(** Any two tensors that have an index are connected. *)
Definition one_component (ts : list (list nat)) : Prop :=
  forall t u x y, has ts t x -> has ts u y -> connected ts t u.

(** The paths contract the components of the network, one each: [comps] lists their
    contractions and the tensors they leave. Each tensor with an index is in one
    component. *)
Definition component_paths (ts : list (list nat)) (paths : list path) (comps : list (list term * term)) : Prop :=
  Forall2 (fun p k => contracts_component ts p (fst k) (snd k)) paths comps /\
  (forall t x, has ts t x -> exists a k, nth_error comps a = Some k /\ In t (tensors (snd k))) /\
  (forall a b k k' t, nth_error comps a = Some k -> nth_error comps b = Some k' ->
     In t (tensors (snd k)) -> In t (tensors (snd k')) -> a = b).

(** Path [p] on [n] tensors performs the contractions [cs], then [extra], and leaves a
    single tensor. *)
Definition completes (n : nat) (p : path) (cs extra : list term) : Prop :=
  exists rest, performs n p (cs ++ extra) rest /\ (0 < n -> length p = n - 1 /\ exists t, rest = [t]).

(** All tensors are connected. *)
Definition all_connected (ts : list (list nat)) : Prop :=
  forall t u, t < length ts -> u < length ts -> connected ts t u.

(** [zs] are the costs of the components when the indices of each component that are in
    its list of [sls] are sliced. *)
Inductive priced (ts : list (list nat)) (out sparse : list nat) (np : option Z) (dim : nat -> N)
  : list (list term * term) -> list (list nat) -> list Z -> Prop :=
| priced_none : priced ts out sparse np dim [] [] []
| priced_one k ks sl sls z zs :
    (forall x, In x sl -> exists t, In t (tensors (snd k)) /\ has ts t x) ->
    cost_is ts out sparse np dim sl (fst k) z ->
    priced ts out sparse np dim ks sls zs -> priced ts out sparse np dim (k :: ks) (sl :: sls) (z :: zs).
