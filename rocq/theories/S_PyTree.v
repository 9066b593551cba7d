(** Specification vocabulary for Python contraction trees: what a tree whose leaves
    are numbered from 0 contracts, when leaf [l] stands for input tensor number
    [l] of [names]. *)
From Coq Require Import List Arith NArith.
Import ListNotations.
From Verif Require Import M_Base M_Path M_PyTree S_Tree S_Path.

(** The contraction that a tree stands for. *)
Fixpoint term_of (names : list nat) (T : bt) : term :=
  match T with
  | Lf p => S_Path.T (nth p names 0)
  | Nd _ l r => join (term_of names l) (term_of names r)
  end.
(** Its contractions, one for each internal node, in post-order. *)
Fixpoint contractions (names : list nat) (T : bt) : list term :=
  match T with
  | Lf _ => []
  | Nd _ l r => contractions names l ++ contractions names r ++ [join (term_of names l) (term_of names r)]
  end.
(** The same for a term. *)
Fixpoint subterms (a : term) : list term :=
  match a with
  | S_Path.T _ => []
  | C l r => subterms l ++ subterms r ++ [C l r]
  end.

(** Index [x] occurs in one of the tensors [l] of [ts]. *)
Definition occurs (ts : list (list nat)) (l : list nat) (x : nat) : Prop :=
  exists t xs, In t l /\ nth_error ts t = Some xs /\ In x xs.
(** Index [x] occurs in one tensor of [l] only. *)
Definition only_once (ts : list (list nat)) (l : list nat) (x : nat) : Prop :=
  exists t, forall t', In t' l /\ (exists xs, nth_error ts t' = Some xs /\ In x xs) <-> t' = t.
(** Index [x] occurs in three different tensors of [l]. *)
Definition thrice (ts : list (list nat)) (l : list nat) (x : nat) : Prop :=
  exists a b c, NoDup [a; b; c] /\ forall t, In t [a; b; c] -> In t l /\ exists xs, nth_error ts t = Some xs /\ In x xs.
(** Index [x] has dimension [k]: all indices have the given one, or [x] is found in
    the dictionary. *)
Definition dim_is (d : pydims) (x : nat) (k : N) : Prop :=
  match d with PyInt j => k = j | PyDict l => dict_get l x = Ok k end.
