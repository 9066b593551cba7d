(** Specification vocabulary for what a Python contraction tree reports. *)
From Coq Require Import QArith ZArith NArith List.
From Verif Require Import M_Base M_Tree M_CTree M_Path M_PyTree M_PyNodes M_PyViews S_Tree S_Path S_PyTree.
Import ListNotations.
Set Implicit Arguments.

(** The output indices of the tensors [all]: those that occur in one of these tensors
    only, and the requested ones. *)
Definition open (ts : list (list nat)) (all : list nat) (output : option (list nat)) (x : nat) : Prop :=
  only_once ts all x \/ exists o, output = Some o /\ In x o.
(** The tensor made of the tensors [l] among [all] has the index [x]: it occurs in one of
    them, and in another one of [all] too or as an output index. *)
Definition kept (ts : list (list nat)) (all : list nat) (output : option (list nat)) (l : list nat) (x : nat) : Prop :=
  occurs ts l x /\ ((exists v xs, In v all /\ ~ In v l /\ nth_error ts v = Some xs /\ In x xs) \/ open ts all output x).

(** [xs] lists the set [P], each element once. *)
Definition lists_set (xs : list nat) (P : nat -> Prop) : Prop := NoDup xs /\ forall x, In x xs <-> P x.
(** The number of entries of a tensor with the indices [P]. *)
Definition entries (d : pydims) (P : nat -> Prop) (s : N) : Prop :=
  exists xs ks, lists_set xs P /\ Forall2 (dim_is d) xs ks /\ s = fold_right N.mul 1%N ks.

(** The views of the tree [t], whose nodes are the tree [T], say what the tensors [all]
    of [ts] are. *)
Definition reports (ts : list (list nat)) (d : pydims) (output : option (list nat)) (all : list nat) (t : pytree) (T : bt) : Prop :=
  lists_set (all_inds t) (occurs ts all) /\
  (forall S, subtree S T -> exists xs, py_inds t (top S) = Ok xs /\ lists_set xs (kept ts all output (tensors (term_of (tensors_pos t) S)))) /\
  (exists xs, output_inds t = Ok xs /\ lists_set xs (fun x => occurs ts all x /\ open ts all output x)) /\
  (forall x k, dict_get (py_dims t) x = Ok k <-> occurs ts all x /\ dim_is d x k) /\
  (forall lg, exists w, max_width lg t = Ok w /\
     (forall S s, subtree S T -> entries d (kept ts all output (tensors (term_of (tensors_pos t) S))) s -> (lg s <= w)%Q) /\
     (exists S s, subtree S T /\ entries d (kept ts all output (tensors (term_of (tensors_pos t) S))) s /\ w = lg s)).
