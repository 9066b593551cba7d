(** Property C67: the comparison of tensors and networks. *)
From Coq Require Import List Arith ZArith QArith Bool.
Import ListNotations.
From Verif Require Import M_Base M_Path M_PyTree M_Random M_Tensor M_TnApp M_LoadTn M_Equal S_Tensor S_TnApp S_LoadTn S_Equal P_Equal P_EqualLoad.
Local Open Scope nat_scope.

(** ** C67 *)
(** The full claim: == is an equivalence that always answers, and says that two tensors
    (networks) are the same up to the tolerance. Two tensors of the constructor: the
    comparison raises exactly if both have arrays and the shapes clash; otherwise it
    tells whether they are alike. Tensors with the same dimensions can be compared. *)
Theorem C67_tensors_partial (K : Type) (A : alg K) (sub : K -> K -> K) (small : K -> bool) (t u : tensor K) : made t -> made u ->
  (incomparable t u -> eq_tensor A sub small t u = Err Throw) /\
  (~ incomparable t u -> exists b, eq_tensor A sub small t u = Ok b /\ (b = true <-> alike A sub small t u)) /\
  (t_dims t = t_dims u -> ~ incomparable t u).
Proof. exact (@tensors_compared K A sub small t u). Qed.
Print Assumptions C67_tensors_partial.

(** The order does not matter. *)
Theorem C67_symmetric (K : Type) (A : alg K) (sub : K -> K -> K) (small : K -> bool) (t u : tensor K) :
  (forall x y, small (sub x y) = small (sub y x)) -> eq_tensor A sub small t u = eq_tensor A sub small u t.
Proof. exact (@tensors_sym K A sub small t u). Qed.
Print Assumptions C67_symmetric.

(** A tensor equals itself exactly if each of its entries is near itself: for floats,
    if it is neither infinite nor NaN. *)
Theorem C67_reflexive_partial (K : Type) (A : alg K) (sub : K -> K -> K) (small : K -> bool) (t : tensor K) : made t ->
  (eq_tensor A sub small t t = Ok true <-> forall a x, t_array t = Some a -> In x (data a) -> small (sub x x) = true).
Proof. exact (@tensors_refl K A sub small t). Qed.
Print Assumptions C67_reflexive_partial.

(** Two networks whose tensors are objects of the same memory [mem]. *)
Theorem C67_networks (K : Type) (A : alg K) (sub : K -> K -> K) (small : K -> bool) (G : Type) (eq_tags : G -> G -> bool) mem (n m : network K G) :
  in_memory mem n -> in_memory mem m ->
  (eq_network A sub small eq_tags n m = Ok true <-> alike_networks A sub small n m /\ eq_tags (w_tags n) (w_tags m) = true).
Proof. exact (@networks_true K A sub small G eq_tags mem n m). Qed.
Print Assumptions C67_networks.

(** It always answers if the tensors that face each other have the same dimensions. *)
Theorem C67_networks_answer_partial (K : Type) (A : alg K) (sub : K -> K -> K) (small : K -> bool) (G : Type) (eq_tags : G -> G -> bool) mem (n m : network K G) :
  in_memory mem n -> in_memory mem m -> Forall2 (fun t u => t_dims t = t_dims u) (n_list (w_net n)) (n_list (w_net m)) ->
  exists b, eq_network A sub small eq_tags n m = Ok b /\ (b = true <-> alike_networks A sub small n m /\ eq_tags (w_tags n) (w_tags m) = true).
Proof. exact (@networks_compared K A sub small G eq_tags mem n m). Qed.
Print Assumptions C67_networks_answer_partial.

(** It raises exactly if the first two facing tensors that differ cannot be compared. *)
Theorem C67_networks_raise (K : Type) (A : alg K) (sub : K -> K -> K) (small : K -> bool) (G : Type) (eq_tags : G -> G -> bool) mem (n m : network K G) e :
  in_memory mem n -> in_memory mem m ->
  (eq_network A sub small eq_tags n m = Err e <-> e = Throw /\ exists k i j t u, facing n m k i j t u /\ i <> j /\ incomparable t u /\
     forall k' i' j' t' u', k' < k -> facing n m k' i' j' t' u' -> i' = j' \/ alike A sub small t' u').
Proof. exact (@networks_err K A sub small G eq_tags mem n m e). Qed.
Print Assumptions C67_networks_raise.

(** A network equals itself, whatever its entries. *)
Theorem C67_network_itself (K : Type) (A : alg K) (sub : K -> K -> K) (small : K -> bool) (G : Type) (eq_tags : G -> G -> bool) mem (n : network K G) :
  in_memory mem n -> eq_tags (w_tags n) (w_tags n) = true -> eq_network A sub small eq_tags n n = Ok true.
Proof. exact (@network_itself K A sub small G eq_tags mem n). Qed.
Print Assumptions C67_network_itself.

(** If only equal entries are near each other, equal networks have the same tensors and
    stand for the same tensor of the outputs. *)
Theorem C67_equal_networks_mean_the_same (K : Type) (A : alg K) (sub : K -> K -> K) (small : K -> bool) (G : Type) (eq_tags : G -> G -> bool) mem (n m : network K G) l :
  (forall x y, small (sub x y) = true <-> x = y) -> in_memory mem n -> in_memory mem m -> eq_network A sub small eq_tags n m = Ok true ->
  arrays_are (w_net n) l -> n_list (w_net m) = n_list (w_net n) /\ arrays_are (w_net m) l /\ n_dims (w_net m) = n_dims (w_net n) /\
  forall v, value A (w_net m) l v = value A (w_net n) l v.
Proof. exact (@networks_exact K A sub small G eq_tags mem n m l). Qed.
Print Assumptions C67_equal_networks_mean_the_same.

(** A network that load_tn neither decomposes nor fuses is returned as an equal network,
    if its entries are near themselves. This is the assertion tn_ == tn of sample
    (tnco/app/circuit/sampling.py:218), where there are no arrays. *)
Theorem C67_load_gives_an_equal_network (K : Type) (A : alg K) (sub : K -> K -> K) (small : K -> bool) (eqb : K -> K -> bool) (R : Type) (g : prng R) lg arr
  (G : Type) (eq_tags : G -> G -> bool) tags_of o dec width r : (forall x, eq_tags x x = true) ->
  built (o_net o) -> length (o_tags o) = length (n_list (o_net o)) ->
  n_sparse (o_net o) <> [] \/ (exists t a t', In t (n_list (o_net o)) /\ t_array t = Some a /\ In t' (n_list (o_net o)) /\ t_array t' = None) \/
    (dec = false \/ exists t, In t (n_list (o_net o)) /\ t_array t = None) /\ (forall w, width = Some w -> (w <= 0)%Z) ->
  (forall t a x, In t (n_list (o_net o)) -> t_array t = Some a -> In x (data a) -> small (sub x x) = true) ->
  exists o', load_tn A eqb g lg arr o dec width r = Ok o' /\ forall mem ids ids',
    let n := mkNw (o_net o) ids (tags_of (o_hyper o) (o_path o)) in
    let n' := mkNw (o_net o') ids' (tags_of (o_hyper o') (o_path o')) in
    Forall2 (fun i t => mem i = Some t) ids (n_list (o_net o)) -> Forall2 (fun i t => mem i = Some t) ids' (n_list (o_net o')) ->
    in_memory mem n' /\ eq_network A sub small eq_tags n' n = Ok true.
Proof. exact (@load_equal K A sub small eqb R g lg arr G eq_tags tags_of o dec width r). Qed.
Print Assumptions C67_load_gives_an_equal_network.

(** *** Examples: fractions, atol = 1e-5 *)
Definition q_alg : alg Q := mkAlg 0%Q 1%Q Qplus Qmult.
Definition q_small (x : Q) : bool := Qle_bool 0 x && negb (Qle_bool (1 # 100000) x) || Qle_bool x 0 && negb (Qle_bool x (- 1 # 100000)).
Definition vec (l : list Q) : tensor Q := mkT [0] [Z.of_nat (length l)] (Some (mkA [length l] l)).
Lemma vec_made l : l <> [] -> made (vec l).
Proof.
  intros N. split.
  - exists [0], DNone, (Some (mkA [length l] l)). unfold make_tensor, vec. destruct l as [|x l]; [contradiction|]. remember (length (x :: l)) as k eqn:E. cbn [bind shape map existsb length]. rewrite (proj2 (Z.ltb_ge (Z.of_nat k) 1)) by (subst k; cbn [length]; Lia.lia). cbn [orb negb Nat.eqb eqb_dims]. rewrite Z.eqb_refl. reflexivity.
  - intros a E. injection E as <-. unfold well_shaped. cbn. Lia.lia.
Qed.
Definition eqq := eq_tensor q_alg Qminus q_small.

Example C67_applies : made (vec [1; 2]%Q) /\ made (vec [1 + (1 # 200000); 2]%Q) /\ eqq (vec [1; 2]%Q) (vec [1 + (1 # 200000); 2]%Q) = Ok true /\
  eqq (vec [1; 2]%Q) (vec [1; 3]%Q) = Ok false /\ incomparable (vec [1; 2]%Q) (vec [1; 2; 3]%Q).
Proof.
  split; [apply vec_made; discriminate|]. split; [apply vec_made; discriminate|]. split; [vm_compute; reflexivity|]. split; [vm_compute; reflexivity|].
  eexists _, _. split; [reflexivity|]. split; [reflexivity|]. exists 0, 2, 3. cbn. repeat split; discriminate.
Qed.
(** A network of one tensor, twice in memory (places 7 and 8). *)
Definition one_net (i : nat) (t : tensor Q) : network Q nat := mkNw (mkN [t] [0] [(0, nth 0 (t_dims t) 0%Z)] [0] []) [i] 0.
Lemma one_built l : l <> [] -> built (w_net (one_net 0 (vec l))).
Proof.
  intros N. exists [vec l], None, None. split; [|intros t [<-|[]]; apply vec_made; auto]. unfold make_network, same_dims, vec. cbn. rewrite Z.eqb_refl. reflexivity.
Qed.
Example C67_networks_apply : let mem i := if (i =? 7) || (i =? 8) then Some (vec [1; 2]%Q) else None in
  in_memory mem (one_net 7 (vec [1; 2]%Q)) /\ in_memory mem (one_net 8 (vec [1; 2]%Q)) /\
  eq_network q_alg Qminus q_small Nat.eqb (one_net 7 (vec [1; 2]%Q)) (one_net 8 (vec [1; 2]%Q)) = Ok true.
Proof. split; [|split; [|vm_compute; reflexivity]]; (split; [apply one_built; discriminate|repeat constructor]). Qed.

Example C67_load_applies : let o := mkO (w_net (one_net 0 (vec [1; 2]%Q))) [Empty] None None in
  built (o_net o) /\ length (o_tags o) = length (n_list (o_net o)) /\
  (forall t a x, In t (n_list (o_net o)) -> t_array t = Some a -> In x (data a) -> q_small (x - x)%Q = true).
Proof.
  split; [apply one_built; discriminate|]. split; [reflexivity|]. intros t a x [<-|[]] E I. injection E as <-. destruct I as [<-|[<-|[]]]; reflexivity.
Qed.

(** == is not transitive: 0, 0.8e-5 and 1.6e-5. *)
Theorem C67_transitive_refuted : exists t u v : tensor Q, made t /\ made u /\ made v /\
  eqq t u = Ok true /\ eqq u v = Ok true /\ eqq t v = Ok false.
Proof.
  exists (vec [0%Q]), (vec [8 # 1000000]%Q), (vec [16 # 1000000]%Q). repeat (split; [apply vec_made; discriminate|]). repeat split; vm_compute; reflexivity.
Qed.
Print Assumptions C67_transitive_refuted.

(** The comparison can raise instead of giving False: for two tensors, for a tensor and
    another object, and for networks with different numbers of tensors. *)
Theorem C67_answers_refuted : (exists t u : tensor Q, made t /\ made u /\ t_inds t = t_inds u /\ eqq t u = Err Throw) /\
  (forall t, eq_tensor_any q_alg Qminus q_small t None = Err Throw) /\
  (exists mem (n m : network Q nat), in_memory mem n /\ in_memory mem m /\ length (n_list (w_net n)) <> length (n_list (w_net m)) /\
     eq_network q_alg Qminus q_small Nat.eqb n m = Err Throw) /\
  (forall n : network Q nat, eq_network_any q_alg Qminus q_small Nat.eqb n None = Ok false).
Proof.
  split. { exists (vec [1; 2]%Q), (vec [1; 2; 3]%Q). repeat (split; [apply vec_made; discriminate|]). split; [reflexivity|vm_compute; reflexivity]. }
  split; [reflexivity|]. split; [|reflexivity].
  set (three := vec [1; 2; 3]%Q).
  exists (fun i => match i with 0 => Some (vec [1; 2]%Q) | 1 | 2 => Some three | _ => None end), (one_net 0 (vec [1; 2]%Q)), (mkNw (mkN [three; three] [0] [(0, 3%Z)] [] []) [1; 2] 0).
  split. { split; [apply one_built; discriminate|repeat constructor]. }
  split. { split; [|repeat constructor]. exists [three; three], None, None. split; [vm_compute; reflexivity|]. intros t [<-|[<-|[]]]; apply vec_made; discriminate. }
  split; [discriminate|vm_compute; reflexivity].
Qed.
Print Assumptions C67_answers_refuted.

(** A tensor with an entry that is not finite ([None], whose difference with anything is
    NaN) does not equal itself, nor an identical copy. A network that has it equals
    itself, but not the same network with a copy. *)
Definition f_alg : alg (option Q) := mkAlg (Some 0%Q) (Some 1%Q) (fun x _ => x) (fun x _ => x).
Definition f_sub (x y : option Q) : option Q := match x, y with Some a, Some b => Some (a - b)%Q | _, _ => None end.
Definition f_small (x : option Q) : bool := match x with Some a => q_small a | None => false end.
Theorem C67_reflexive_refuted : exists (t : tensor (option Q)) (n m : network (option Q) nat) mem, made t /\
  eq_tensor f_alg f_sub f_small t t = Ok false /\ in_memory mem n /\ in_memory mem m /\ w_net n = w_net m /\ w_tags n = w_tags m /\
  eq_network f_alg f_sub f_small Nat.eqb n n = Ok true /\ eq_network f_alg f_sub f_small Nat.eqb n m = Ok false.
Proof.
  set (t := mkT [0] [2%Z] (Some (mkA [2] [Some 1%Q; None]))). set (w := mkN [t] [0] [(0, 2%Z)] [0] []).
  assert (M : made t) by (split; [exists [0], DNone, (Some (mkA [2] [Some 1%Q; None])); reflexivity|intros a E; injection E as <-; reflexivity]).
  assert (B : built w) by (exists [t], None, None; split; [reflexivity|intros u [<-|[]]; exact M]).
  exists t, (mkNw w [0] 0), (mkNw w [1] 0), (fun _ => Some t). repeat (split; [solve [auto | vm_compute; reflexivity | split; [exact B|repeat constructor]]|]). vm_compute. reflexivity.
Qed.
Print Assumptions C67_reflexive_refuted.
