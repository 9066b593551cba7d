(** Specification vocabulary for tensor networks: which indices an intermediate tensor
    has. *)
From Coq Require Import List Arith.
Import ListNotations.
From Verif Require Import S_Random.

(** Index [x] is in one tensor of the network only. *)
Definition lonely (ts : list (list nat)) (x : nat) : Prop := exists t, forall u, has ts u x <-> u = t.

(** Index [x] stays after the tensors [l] have been contracted with each other: it
    occurs in one of them, and it is an output, or occurs in some other tensor of
    the network too, or occurs in a single tensor of the network. *)
Definition stays (ts : list (list nat)) (out : list nat) (l : list nat) (x : nat) : Prop :=
  (exists t, In t l /\ has ts t x) /\
  (In x out \/ lonely ts x \/ exists u, u < length ts /\ ~ In u l /\ has ts u x).
