(** load refuses the states that are not valid. *)
From Coq Require Import List Arith NArith ZArith Lia Permutation Bool.
Import ListNotations.
From Verif Require Import P_Base P_Opt P_PyMain.
From Verif Require Import M_Base M_Path M_PyTree M_OSet M_Random M_Fuse M_Tensor M_Contract M_Decompose M_Circuit S_Path S_PyTree S_Random S_Network S_Fuse S_Tensor S_Contract S_Decompose S_Circuit S_Amplitude.
From Verif Require Import P_Path P_Split P_PathMain P_PyBuild P_PyTens P_OSet P_Fuse P_Sum P_Array P_Circuit P_Gates P_Same P_Simplify P_Amplitude P_Load.
From Verif Require Import M_Path M_PyTree.
Set Implicit Arguments.
Unset Strict Implicit.
Local Open Scope nat_scope.

Section LoadErr.
Variable K : Type.
Variable F : nums K.
Hypothesis NF : numbers F.
Variable ix : nat -> mark -> nat.
Hypothesis IX : distinct ix.

Lemma get_state_valid Q s d : dict_keys s -> get_state F Q s = Ok d -> valid_state F Q s.
Proof.
  intros N H. destruct s as [|t|l|]; cbn [get_state valid_state dict_keys] in *; auto; [| |discriminate].
  - intros ->. discriminate.
  - split; auto. destruct (mapM _ l) as [vs|] eqn:E; cbn [bind] in H; [|discriminate].
    assert (G : forall q s, In (q, s) l -> exists a, In (q, a) vs /\ match s with Tok t => token_vec F t = Some a | Vec b => b = a end).
    { clear - E. revert vs E. induction l as [|(q0, s0) l IH]; intros vs E; cbn [mapM] in E; [intros q s []|]. cbn [snd fst] in E.
      destruct (match s0 with Tok t => match token_vec F t with Some a => Ok (q0, a) | None => Err Throw end | Vec a => Ok (q0, a) end) as [y|] eqn:E0; cbn [bind] in E; [|discriminate].
      destruct (mapM _ l) as [ws|] eqn:E1; cbn [bind] in E; [|discriminate]. inversion E; subst vs. intros q s [X|X].
      - inversion X; subst. destruct s as [t|a]; [destruct (token_vec F t) as [a|] eqn:Et; [|discriminate]|]; inversion E0; subst y; exists a; split; auto; left; auto.
      - destruct (IH ws eq_refl q s X) as (a & H1 & H2). exists a. split; [right|]; auto. }
    split.
    + intros q X. destruct (G q _ X) as (a & _ & Y). discriminate.
    + intros q a X Hq. destruct (G q _ X) as (b & H1 & ->). destruct (forallb _ (filter _ vs)) eqn:EF; [|discriminate]. rewrite forallb_forall in EF. specialize (EF (q, b)). cbn [snd] in EF.
      assert (Y : In (q, b) (filter (fun e => memb (fst e) Q) vs)) by (apply filter_In; split; auto; apply memb_In; auto). specialize (EF Y). apply andb_true_iff in EF. destruct EF as [E1 E2]. split; auto. apply P_ContractMain.list_eqb_ok. auto.
Qed.
Lemma get_state_throws Q s e : get_state F Q s = Err e -> e = Throw.
Proof.
  intros H. destruct s as [|t|l|]; cbn [get_state] in *; [discriminate|destruct (token_vec F t); congruence| |congruence].
  destruct (mapM _ l) as [vs|e'] eqn:E; cbn [bind] in H; [destruct (forallb _ _); congruence|]. inversion H; subst e'. clear H. revert E. induction l as [|(q0, s0) l IH]; cbn [mapM]; [discriminate|]. cbn [snd fst].
  destruct s0 as [t|a]; [destruct (token_vec F t)|]; cbn [bind]; try congruence; (destruct (mapM _ l) as [ws|e'] eqn:E1; cbn [bind]; [discriminate|intros X; inversion X; subst; auto]).
Qed.

Theorem load_refuses (R : Type) (g : prng R) lg arr r circuit Q initial final simplify um dec fuse_width :
  (forall h, In h circuit -> is_gate h) -> (simplify = true -> forall h, In h circuit -> unitary F h) ->
  (forall q, In q Q <-> touches circuit q) -> dict_keys initial -> dict_keys final ->
  ~ (valid_state F Q initial /\ valid_state F Q final) ->
  load F ix g lg arr r circuit initial final simplify um dec fuse_width = Err Throw.
Proof.
  intros HG HU HQ Ki Kf NV. unfold load. set (Q' := qubits_of circuit).
  assert (HQ' : forall q, In q Q' <-> In q Q).
  { intros q. rewrite HQ. unfold Q', qubits_of. rewrite unique_in, in_concat. unfold touches. split.
    - intros (l & Hl & Hq). apply in_map_iff in Hl. destruct Hl as (h & <- & Hh). eauto.
    - intros (h & Hh & Hq). exists (snd h). split; auto. apply in_map. auto. }
  assert (VV : forall s, valid_state F Q' s -> valid_state F Q s).
  { intros s V. destruct s; cbn [valid_state] in *; auto. destruct V as (V1 & V2 & V3). split; auto. split; auto. intros q a H1 H2. apply (V3 q a); auto. apply HQ'. auto. }
  assert (FG : exists gs n, final_gates F ix simplify um circuit = Ok (gs, n) /\ (forall h, In h gs -> is_gate h)).
  { destruct simplify.
    - destruct (@simplification_keeps_operator K F ix um circuit NF IX) as (gs & n & c & E & P & T & G & Rn); [intros h Hh; split; auto|]. exists gs, n. split; auto. intros h Hh. apply G. auto.
    - unfold final_gates. cbn [bind]. eexists _, 0. split; [reflexivity|]. intros h Hh. apply in_app_iff in Hh. destruct Hh as [Hh|Hh]; auto. apply in_map_iff in Hh. destruct Hh as (q & <- & _). apply eye_gate. }
  destruct FG as (gs & n & -> & Gg). cbn [bind]. unfold network_of.
  destruct (@build_ok K F ix gs [] zeros Gg) as (bs & last & E & _). { split; [constructor|]. split; [intros q; auto|]. intros q. simpl. unfold zeros. split; [tauto|lia]. }
  rewrite E. cbn [bind]. fold Q'. destruct (get_state F Q' initial) as [di|e] eqn:Ei; cbn [bind]; [|rewrite (get_state_throws Ei); auto].
  destruct (get_state F Q' final) as [df|e] eqn:Ef; cbn [bind]; [|rewrite (get_state_throws Ef); auto].
  exfalso. apply NV. split; apply VV; [apply (get_state_valid Ki Ei)|apply (get_state_valid Kf Ef)].
Qed.

(** Contracting the network that load gives, along any path. *)
Theorem load_contract (A := n_alg F) (R : Type) (g : prng R) lg arr r circuit Q initial final simplify um dec fuse_width arrays ts os p dims ts' os' ar' :
  prng_ok g -> (forall l, Permutation (arr l) l) ->
  (forall h, In h circuit -> is_gate h) -> (simplify || dec = true -> forall h, In h circuit -> unitary F h) ->
  NoDup Q -> (forall q, In q Q <-> touches circuit q) ->
  names_normalized F -> valid_state F Q initial -> valid_state F Q final -> proper_state initial -> proper_state final ->
  load F ix g lg arr r circuit initial final simplify um dec fuse_width = Ok (arrays, ts, os) ->
  contract A arr p ts (Some os) (Some arrays) dims = Ok (ts', os', ar') ->
  exists ars c, ar' = Some ars /\ phase F c /\ (simplify = false -> c = one A) /\
    forall ks V, NoDup ks -> (forall x, In x ks <-> In x (concat ts') /\ ~ In x os') -> bits V ->
      amplitude F circuit Q (closing F initial) (closing F final) (fun q => V (ix q Ini)) (fun q => V (ix q Fin)) = mul A c (sum_over A (fun _ => 2) ks (network A ars ts') V).
Proof.
  intros Hg Harr HG HU NQ HQ NN Vi Vf Pi Pf HL HC.
  destruct (load_ok NF IX lg r um fuse_width Hg Harr HG HU NQ HQ NN Vi Vf Pi Pf) as (arrays' & ts0 & os0 & c & E & Pc & Cs & S & W & N & No & Io & O & _ & _ & V). rewrite HL in E. inversion E; subst arrays' ts0 os0.
  destruct (P_Keeps.contract_keeps_value (num_ring _ NF) Harr N W S HC) as (ars & -> & _ & _ & _ & _ & Io2 & _ & _ & _ & V2). exists ars, c. split; auto. split; auto. split; auto.
  intros ks w Nk Ik B. set (ks0 := filter (fun x => negb (memb x os)) (unique (concat ts))).
  assert (Nk0 : NoDup ks0) by (apply P_PathMain.NoDup_filter, unique_nodup). assert (Ik0 : forall x, In x ks0 <-> In x (concat ts) /\ ~ In x os) by (intros x; unfold ks0; rewrite filter_In, unique_in, negb_true_iff, memb_nIn; tauto).
  rewrite (V ks0 w) by auto. f_equal. symmetry. apply V2; auto; [intros x; rewrite Ik, Io2; tauto|intros x _; apply B].
Qed.
End LoadErr.
