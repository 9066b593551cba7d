(** C46: the singular value decomposition of a tensor. numpy's factorisation of a
    matrix is a parameter, of which the theorems assume what numpy documents
    ([factorises], [decomposes]). *)
From Coq Require Import List Arith Permutation Reals Lia.
Import ListNotations.
From Verif Require Import M_Base M_Tensor M_Svd S_Tensor S_Svd S_SvdReal P_SvdReal P_Svd P_SvdMain.
From Verif Require Props_Tensor.
Set Implicit Arguments.
Local Open Scope nat_scope.

(** If the threshold drops zeros only, the three tensors joined over the new index are
    the tensor. The new index is new (or the caller's); the other indices are shared out
    between the first tensor (those asked for, in that order) and the third; the size of
    the new index is at most the smaller of the two sides. *)
Theorem C46_svd_factors_the_tensor (K : Type) (A : alg K) f (large : K -> bool) names fuel (a : nda K) dim inds left o :
  semiring A -> factorises A f -> (forall x, large x = false -> x = zero A) ->
  NoDup inds -> proper_part left inds -> well_shaped a -> shape a = map dim inds -> (forall x, In x inds -> 0 < dim x) ->
  usable names fuel inds o ->
  exists U Sg V name right k,
    svd A f large names fuel a inds left o = Ok [(U, left ++ [name]); (Sg, [name]); (V, name :: right)] /\
    ~ In name inds /\ (forall x, o = Some x -> name = x) /\
    Permutation (left ++ right) inds /\
    well_shaped U /\ well_shaped Sg /\ well_shaped V /\
    shape U = map dim left ++ [k] /\ shape Sg = [k] /\ shape V = k :: map dim right /\
    k <= Nat.min (prod (map dim left)) (prod (map dim right)) /\
    (forall r, r < k -> large (entry A Sg [r]) = true) /\
    forall v, in_range dim inds v ->
      entry_at A a inds v = joined A dim (U, left ++ [name]) (Sg, [name]) (V, name :: right) name k v.
Proof. exact (@svd_exact K A f large names fuel a dim inds left o). Qed.
Print Assumptions C46_svd_factors_the_tensor.

(** Over the real numbers, with any threshold: every kept singular value is at least the
    threshold, and an entry is off by at most the threshold for every dropped value. *)
Theorem C46_truncation_error f names atol fuel (a : nda R) dim inds left o :
  decomposes f -> (0 <= atol)%R -> NoDup inds -> proper_part left inds -> well_shaped a -> shape a = map dim inds ->
  (forall x, In x inds -> 0 < dim x) -> usable names fuel inds o ->
  exists U Sg V name right k,
    svd reals f (at_least atol) names fuel a inds left o = Ok [(U, left ++ [name]); (Sg, [name]); (V, name :: right)] /\
    ~ In name inds /\ Permutation (left ++ right) inds /\
    shape U = map dim left ++ [k] /\ shape Sg = [k] /\ shape V = k :: map dim right /\
    (forall r, r < k -> (atol <= entry reals Sg [r])%R) /\
    forall v, in_range dim inds v ->
      (Rabs (entry_at reals a inds v - joined reals dim (U, left ++ [name]) (Sg, [name]) (V, name :: right) name k v)
       <= INR (Nat.min (prod (map dim left)) (prod (map dim right)) - k) * atol)%R.
Proof. exact (@svd_approx f names atol fuel a dim inds left o). Qed.
Print Assumptions C46_truncation_error.

(** With nothing on one side there is one tensor only: the same one, its indices in the
    order asked for. *)
Theorem C46_nothing_to_split (K : Type) (A : alg K) f (large : K -> bool) names fuel (a : nda K) dim inds left o :
  semiring A -> NoDup inds -> left = [] \/ Permutation left inds -> well_shaped a -> shape a = map dim inds -> usable names fuel inds o ->
  exists t l, svd A f large names fuel a inds left o = Ok [(t, l)] /\
    (left = [] -> l = inds) /\ (left <> [] -> l = left) /\ well_shaped t /\ shape t = map dim l /\
    forall v, in_range dim inds v -> entry_at A t l v = entry_at A a inds v.
Proof. exact (@svd_trivial K A f large names fuel a dim inds left o). Qed.
Print Assumptions C46_nothing_to_split.

(** Wrong arguments are refused: a wrong number of indices, an unknown index on the
    left, a name which is taken. *)
Theorem C46_wrong_arguments_are_refused (K : Type) (A : alg K) f (large : K -> bool) names fuel (a : nda K) inds left o :
  length (shape a) <> length inds \/ (exists x, In x left /\ ~ In x inds) \/ (exists x, o = Some x /\ In x inds) ->
  svd A f large names fuel a inds left o = Err Throw.
Proof. exact (@svd_refuses K A f large names fuel a inds left o). Qed.
Print Assumptions C46_wrong_arguments_are_refused.

(** Not every tensor can be decomposed: one with an empty dimension is refused. *)
Theorem C46_empty_dimensions_refuted (K : Type) (A : alg K) f (large : K -> bool) names fuel (a : nda K) dim inds left o x :
  NoDup inds -> proper_part left inds -> well_shaped a -> shape a = map dim inds -> In x inds -> dim x = 0 -> usable names fuel inds o ->
  svd A f large names fuel a inds left o = Err Throw.
Proof. exact (@svd_no_empty K A f large names fuel a dim inds left o x). Qed.
Print Assumptions C46_empty_dimensions_refuted.

(** Nor does it always return: with a seed, all the random names are the same, and if it
    is taken svd never returns. *)
Theorem C46_seeded_names_terminate_refuted (K : Type) (A : alg K) f (large : K -> bool) names (a : nda K) inds left c :
  (forall k, names k = c) -> In c inds -> length (shape a) = length inds -> (forall x, In x left -> In x inds) ->
  forall fuel, svd A f large names fuel a inds left None = Err Fuel.
Proof. exact (fun H1 H2 H3 H4 fuel => @svd_loops K A f large names fuel a inds left c H1 H2 H3 H4). Qed.
Print Assumptions C46_seeded_names_terminate_refuted.

(** A tensor over the naturals with the indices 5, 3, 4 of dimensions 2, 2 and 3, split
    into (4, 5) and 3; the factorisation is the trivial one (a matrix times the
    identity), which exists over every semiring. Over the reals, a factorisation with
    normalised columns. *)
Definition ex_dim (x : nat) : nat := match x with 4 => 3 | _ => 2 end.
Definition ex_a : nda nat := mkA [2; 2; 3] [1; 2; 3; 4; 5; 6; 7; 8; 9; 10; 11; 12].
Definition ex_names (k : nat) : nat := k + 4.
Example C46_applies :
  factorises Props_Tensor.nat_alg (plain Props_Tensor.nat_alg) /\ decomposes normalise /\
  NoDup [5; 3; 4] /\ proper_part [4; 5] [5; 3; 4] /\ well_shaped ex_a /\ shape ex_a = map ex_dim [5; 3; 4] /\ usable ex_names 3 [5; 3; 4] None /\
  svd Props_Tensor.nat_alg (plain Props_Tensor.nat_alg) (fun x => 0 <? x) ex_names 3 ex_a [5; 3; 4] [4; 5] None =
    Ok [(mkA [3; 2; 2] [1; 4; 7; 10; 2; 5; 8; 11; 3; 6; 9; 12], [4; 5; 6]); (mkA [2] [1; 1], [6]); (mkA [2; 2] [1; 0; 0; 1], [6; 3])] /\
  svd Props_Tensor.nat_alg (plain Props_Tensor.nat_alg) (fun x => 0 <? x) ex_names 3 ex_a [5; 3; 4] [4; 9] None = Err Throw /\
  svd Props_Tensor.nat_alg (plain Props_Tensor.nat_alg) (fun x => 0 <? x) (fun _ => 4) 100 ex_a [5; 3; 4] [4; 5] None = Err Fuel.
Proof.
  split; [exact (plain_factorises Props_Tensor.nat_alg_ok)|]. split; [exact normalise_decomposes|].
  split; [repeat constructor; simpl; intuition discriminate|].
  split; [split; [repeat constructor; simpl; intuition discriminate|split; [simpl; tauto|split; [discriminate|exists 3; simpl; intuition discriminate]]]|].
  split; [reflexivity|]. split; [reflexivity|]. split; [exists 2; split; [lia|simpl; unfold ex_names; lia]|].
  split; [vm_compute; reflexivity|]. split; vm_compute; reflexivity.
Qed.
