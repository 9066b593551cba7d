(** Specification vocabulary for random contraction paths: when tensors of a network
    are connected. *)
From Coq Require Import List Arith.
Import ListNotations.
From Verif Require Import S_Path M_Random.

(** Tensor [t] of the network has the index [x]. *)
Definition has (ts : list (list nat)) (t x : nat) : Prop := exists xs, nth_error ts t = Some xs /\ In x xs.

(** Two tensors are connected: a chain of tensors leads from one to the other, each
    sharing an index with the next. *)
Inductive connected (ts : list (list nat)) : nat -> nat -> Prop :=
| conn_refl t : connected ts t t
| conn_step t u v x : connected ts t u -> has ts u x -> has ts v x -> connected ts t v.

(** Tensors made from the tensors [l] and [k] share an index: some index occurs in
    both. *)
Definition share (ts : list (list nat)) (l k : list nat) : Prop :=
  exists t u x, In t l /\ In u k /\ has ts t x /\ has ts u x.

(** [p] contracts a connected component of the network to one tensor: it is a valid
    path, performs the contractions [cs], all within the component, and leaves the
    tensor [root], made of all the tensors of the component. Each contraction is
    of two tensors that share an index. *)
Definition contracts_component (ts : list (list nat)) (p : list (nat * nat)) (cs : list term) (root : term) : Prop :=
  (exists rest, performs (length ts) p cs rest /\ In root rest) /\
  (forall c, In c cs -> incl (tensors c) (tensors root)) /\
  (forall c, In c cs -> exists a b, c = C a b /\ share ts (tensors a) (tensors b)) /\
  (forall t u, In t (tensors root) -> In u (tensors root) <-> connected ts t u).

(** What is assumed of the random generator and of the order of sets. *)
Definition prng_ok {R : Type} (g : prng R) : Prop :=
  (forall r n, 0 < n -> fst (randrange g r n) < n) /\
  (forall r n, 1 < n -> let '(a, b) := fst (sample2 g r n) in a < n /\ b < n /\ a <> b).
Definition pick_ok (pick : list nat -> nat) : Prop := forall l, l <> [] -> In (pick l) l.
