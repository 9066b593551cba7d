(** Property C20: contraction cost of the cost models. *)
From Coq Require Import Permutation.
From Verif Require Import M_Base M_Bitset M_CTree M_Cost S_Opt P_CostMain.
Local Open Scope Z_scope.

(** For a valid contraction of [a] and [b] into [c], in whatever order the three
    index sets are passed. *)
Theorem C20_cost_is_a_product_over_the_union : forall m (a b c : bitset) d n x y z,
  cmodel_ok m n -> length a = n -> length b = n -> length c = n ->
  (forall i, xorb (nth i a false) (nth i b false) = true -> nth i c false = true) ->
  (forall i, nth i c false = true -> nth i a false || nth i b false = true) ->
  Permutation [x; y; z] [a; b; c] ->
  ccost_of m x y z d =
  let j i := nth i a false || nth i b false || nth i c false in
  match m with
  | Simple => prod_over j (dimension d) n
  | Sparse sp np =>
      prod_over (fun i => j i && negb (nth i sp false)) (dimension d) n *
      Z.min (prod_over (fun i => j i && nth i sp false) (dimension d) n) np
  end.
Proof. exact c20_product. Qed.
Print Assumptions C20_cost_is_a_product_over_the_union.

Theorem C20_integer_and_vector_dims_agree : forall m a b c k n,
  cmodel_ok m n -> length a = n -> length b = n ->
  ccost_of m a b c (DInt k) = ccost_of m a b c (DVec (repeat k n)).
Proof. exact c20_uniform. Qed.
Print Assumptions C20_integer_and_vector_dims_agree.

Theorem C20_monotone_in_the_union : forall m a b c a' b' c' d n, cmodel_ok m n ->
  length a = n -> length b = n -> length a' = n -> length b' = n ->
  (forall i, (i < n)%nat -> 1 <= dimension d i) ->
  (forall i, nth i a false || nth i b false = true -> nth i a' false || nth i b' false = true) ->
  ccost_of m a b c d <= ccost_of m a' b' c' d.
Proof. exact c20_monotone. Qed.
Print Assumptions C20_monotone_in_the_union.

Theorem C20_sparse_at_most_dense : forall sp np a b c d n,
  length sp = n -> 1 <= np -> length a = n -> length b = n ->
  (forall i, (i < n)%nat -> 1 <= dimension d i) ->
  1 <= ccost_of (Sparse sp np) a b c d <= ccost_of Simple a b c d /\
  (prod_over (fun i => (nth i a false || nth i b false) && nth i sp false) (dimension d) n <= np ->
   ccost_of (Sparse sp np) a b c d = ccost_of Simple a b c d).
Proof. exact c20_sparse. Qed.
Print Assumptions C20_sparse_at_most_dense.

(** Tensors {0,1} and {1,2} contracted to {0,2}; index 1 and 2 sparse. *)
Example C20_applies :
  let a := [true; true; false] in let b := [false; true; true] in let c := [true; false; true] in
  let d := DVec [2; 3; 5]%N in
  (forall i, xorb (nth i a false) (nth i b false) = true -> nth i c false = true) /\
  (forall i, nth i c false = true -> nth i a false || nth i b false = true) /\
  ccost_of Simple c a b d = 30 /\ ccost_of (Sparse [false; true; true] 4) b c a d = 8.
Proof.
  cbn zeta. split; [|split; [|split; vm_compute; reflexivity]]; intros [|[|[|[|i]]]]; simpl; auto.
Qed.
