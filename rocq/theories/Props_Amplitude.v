(** C34: the tensor network of a circuit represents its amplitudes. *)
From Coq Require Import List Arith ZArith NArith Lia Bool QArith Qcanon Permutation.
Import ListNotations.
From Verif Require Import M_Base M_Path M_Random M_Tensor M_Contract M_Circuit S_Random S_Network S_Tensor S_Contract S_Circuit S_Amplitude.
From Verif Require Import P_Load P_LoadErr P_Gauss Props_Random.
Local Open Scope nat_scope.

(** load accepts all circuits with valid states. The sum, over all values of all
    indices that are not open, of the product of the entries of the arrays is the
    amplitude of the circuit, up to a phase [c] that is 1 if gates are not
    simplified. The output indices are the open ends, and no other index is in a
    single tensor. In a network that is neither
    decomposed nor fused every open index is in one tensor, once, and every other
    index is twice in the network. For any numbers with conjugation, any generator,
    and any iteration order [arr] of Python sets. *)
Theorem C34_network_is_amplitude : forall (K : Type) (F : nums K) (ix : nat -> mark -> nat) (R : Type) (g : prng R) (lg : N -> Z) (arr : list nat -> list nat) (r : nat -> R)
    (circuit : list (nda K * list nat)) (Q : list nat) (initial final : state_arg K) (simplify um dec : bool) (fuse_width : option Z),
  numbers F -> distinct ix -> prng_ok g -> (forall l, Permutation (arr l) l) ->
  (forall h, In h circuit -> is_gate h) -> (simplify || dec = true -> forall h, In h circuit -> unitary F h) ->
  NoDup Q -> (forall q, In q Q <-> touches circuit q) ->
  names_normalized F -> valid_state F Q initial -> valid_state F Q final -> proper_state initial -> proper_state final ->
  exists arrays ts os c, load F ix g lg arr r circuit initial final simplify um dec fuse_width = Ok (arrays, ts, os) /\
    phase F c /\ (simplify = false -> c = one (n_alg F)) /\
    shaped (fun _ => 2) arrays ts /\ Forall well_shaped arrays /\ (forall xs, In xs ts -> NoDup xs) /\ NoDup os /\
    (forall x, In x os <-> open_end ix Q (closing F initial) (closing F final) x) /\ (forall x, In x os -> In x (concat ts)) /\ (forall x, lonely ts x -> In x os) /\
    (dec = false -> fuse_width = None -> forall x, In x (concat ts) ->
       (In x os -> count_occ Nat.eq_dec (concat ts) x = 1) /\ (~ In x os -> count_occ Nat.eq_dec (concat ts) x = 2)) /\
    forall ks V, NoDup ks -> (forall x, In x ks <-> In x (concat ts) /\ ~ In x os) -> bits V ->
      amplitude F circuit Q (closing F initial) (closing F final) (fun q => V (ix q Ini)) (fun q => V (ix q Fin)) =
      mul (n_alg F) c (sum_over (n_alg F) (fun _ => 2) ks (network (n_alg F) arrays ts) V).
Proof.
  intros K F ix R g lg arr r circuit Q initial final simplify um dec fuse_width NF IX Hg Harr HG HU NQ HQ NN Vi Vf Pi Pf.
  destruct (load_ok NF IX lg r um fuse_width Hg Harr HG HU NQ HQ NN Vi Vf Pi Pf) as (arrays & ts & os & c & E & Pc & Cs & S & W & N & No & Io & O & LN & C & V).
  exists arrays, ts, os, c. repeat (split; [assumption|]). split; [|assumption].
  intros D Fu x Hx. rewrite (C D Fu x Hx). split; intros H; [rewrite (proj2 (P_Split.memb_In _ _) H)|rewrite (proj2 (P_Split.memb_nIn _ _) H)]; reflexivity.
Qed.
Print Assumptions C34_network_is_amplitude.

(** The same is true of what contract makes of that network, along any path. *)
Theorem C34_contraction_is_amplitude : forall (K : Type) (F : nums K) (ix : nat -> mark -> nat) (R : Type) (g : prng R) (lg : N -> Z) (arr : list nat -> list nat) (r : nat -> R)
    (circuit : list (nda K * list nat)) (Q : list nat) (initial final : state_arg K) (simplify um dec : bool) (fuse_width : option Z) arrays ts os p dims ts' os' ar',
  numbers F -> distinct ix -> prng_ok g -> (forall l, Permutation (arr l) l) ->
  (forall h, In h circuit -> is_gate h) -> (simplify || dec = true -> forall h, In h circuit -> unitary F h) ->
  NoDup Q -> (forall q, In q Q <-> touches circuit q) ->
  names_normalized F -> valid_state F Q initial -> valid_state F Q final -> proper_state initial -> proper_state final ->
  load F ix g lg arr r circuit initial final simplify um dec fuse_width = Ok (arrays, ts, os) ->
  contract (n_alg F) arr p ts (Some os) (Some arrays) dims = Ok (ts', os', ar') ->
  exists ars c, ar' = Some ars /\ phase F c /\ (simplify = false -> c = one (n_alg F)) /\
    forall ks V, NoDup ks -> (forall x, In x ks <-> In x (concat ts') /\ ~ In x os') -> bits V ->
      amplitude F circuit Q (closing F initial) (closing F final) (fun q => V (ix q Ini)) (fun q => V (ix q Fin)) =
      mul (n_alg F) c (sum_over (n_alg F) (fun _ => 2) ks (network (n_alg F) ars ts') V).
Proof. intros K F ix R g lg arr r circuit Q initial final simplify um dec fuse_width arrays ts os p dims ts' os' ar' NF IX. exact (@load_contract K F NF ix IX R g lg arr r circuit Q initial final simplify um dec fuse_width arrays ts os p dims ts' os' ar'). Qed.
Print Assumptions C34_contraction_is_amplitude.

(** States that are not valid are refused. *)
Theorem C34_invalid_states_raise : forall (K : Type) (F : nums K) (ix : nat -> mark -> nat) (R : Type) (g : prng R) (lg : N -> Z) (arr : list nat -> list nat) (r : nat -> R)
    (circuit : list (nda K * list nat)) (Q : list nat) (initial final : state_arg K) (simplify um dec : bool) (fuse_width : option Z),
  numbers F -> distinct ix ->
  (forall h, In h circuit -> is_gate h) -> (simplify = true -> forall h, In h circuit -> unitary F h) ->
  (forall q, In q Q <-> touches circuit q) -> dict_keys initial -> dict_keys final ->
  ~ (valid_state F Q initial /\ valid_state F Q final) ->
  load F ix g lg arr r circuit initial final simplify um dec fuse_width = Err Throw.
Proof. intros K F ix R g lg arr r circuit Q initial final simplify um dec fuse_width NF IX. exact (@load_refuses K F NF ix IX R g lg arr r circuit Q initial final simplify um dec fuse_width). Qed.
Print Assumptions C34_invalid_states_raise.

(** A rotation, a CX gate and an S gate; qubit 0 starts in the state '0', qubit 1 is
    open at the start, and qubit 1 ends in a given state. *)
Definition gate_r : nda (Qc * Qc) := mkA [2; 2] [(Q2Qc (3 # 5), Q2Qc 0); (Q2Qc (4 # 5), Q2Qc 0); (Q2Qc (-4 # 5), Q2Qc 0); (Q2Qc (3 # 5), Q2Qc 0)].
Definition circuit_2 : list (nda (Qc * Qc) * list nat) := [(gate_r, [0]); (gate_cx, [0; 1]); (gate_s, [1]); (gate_x, [1]); (gate_x, [1])].
Definition start_2 : state_arg (Qc * Qc) := SDict [(0, Tok T0)].
Definition end_2 : state_arg (Qc * Qc) := SDict [(1, Vec (mkA [2] [(Q2Qc (3 # 5), Q2Qc 0); (Q2Qc 0, Q2Qc (4 # 5))])); (7, Tok TPlus)].
Definition value_2 (simplify dec : bool) (fuse_width : option Z) (V : nat -> nat) : res (Qc * Qc) :=
  let! (r, os) := load gauss code ex_g (fun k => Z.of_N (N.log2 k)) (@rev nat) (fun n => n) circuit_2 start_2 end_2 simplify true dec fuse_width in
  let (arrays, ts) := r in
  Ok (sum_over gauss_alg (fun _ => 2) (filter (fun x => negb (memb x os)) (M_OSet.iter (M_OSet.ofs (concat ts)))) (network gauss_alg arrays ts) V).
Example C34_applies : numbers gauss /\ distinct code /\ prng_ok ex_g /\ (forall h, In h circuit_2 -> is_gate h /\ unitary gauss h) /\ (forall q, In q [0; 1] <-> touches circuit_2 q) /\
  names_normalized gauss /\ valid_state gauss [0; 1] start_2 /\ valid_state gauss [0; 1] end_2 /\ proper_state start_2 /\ proper_state end_2 /\
  (let V := fun x => if (x =? code 1 Ini) || (x =? code 0 Fin) then 1 else 0 in
   let a := amplitude gauss circuit_2 [0; 1] (closing gauss start_2) (closing gauss end_2) (fun q => V (code q Ini)) (fun q => V (code q Fin)) in
   a = (Q2Qc (-12 # 25), Q2Qc 0) /\
   value_2 false false None V = Ok a /\ value_2 true false None V = Ok a /\ value_2 false true None V = Ok a /\ value_2 true true (Some 3%Z) V = Ok a) /\
  load gauss code ex_g (fun k => Z.of_N (N.log2 k)) (@rev nat) (fun n => n) circuit_2 (SStr TOther) end_2 true true true None = Err Throw.
Proof.
  split; [exact gauss_numbers|]. split; [exact code_distinct|]. split; [exact ex_g_ok|]. split.
  { intros g Hg. cut (gateb g = true /\ unitaryb g = true). { intros [H1 H2]. split; [apply gateb_ok; auto|apply unitaryb_ok; auto]. }
    repeat (destruct Hg as [<-|Hg]; [split; vm_compute; reflexivity|]). destruct Hg. }
  split. { intros q. split; [intros [<-|[<-|[]]]; exists (gate_cx, [0; 1]); simpl; auto|]. intros (h & Hh & Hq). repeat (destruct Hh as [<-|Hh]; [simpl in *; tauto|]). destruct Hh. }
  split; [repeat split|]. split. { split; [repeat constructor; simpl; tauto|]. split; [intros q [H|[]]; discriminate|intros q a [H|[]]; discriminate]. }
  split. { split; [repeat constructor; simpl; intuition discriminate|]. split; [intros q [H|[H|[]]]; discriminate|]. intros q a [H|[H|[]]] _; [inversion H; subst; auto|discriminate]. }
  split; [intros q a [H|[]]; discriminate|]. split; [intros q a [H|[H|[]]]; [inversion H; subst; reflexivity|discriminate]|].
  split; [|vm_compute; reflexivity]. repeat (split; [vm_compute; repeat f_equal; apply Qc_is_canon; reflexivity|]). vm_compute; repeat f_equal; apply Qc_is_canon; reflexivity.
Qed.
