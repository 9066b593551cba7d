(** The contraction that sample makes gives amplitudes of the circuit. *)
From Coq Require Import List Arith NArith ZArith Reals Lia Permutation Bool Ring.
Import ListNotations.
From Verif Require Import P_Base P_Opt P_PyMain.
From Verif Require Import M_Base M_Path M_PyTree M_OSet M_Random M_Fuse M_Tensor M_Contract M_Decompose M_Circuit M_Sampling S_Path S_PyTree S_Random S_Network S_Fuse S_Tensor S_Contract S_Decompose S_Circuit S_Amplitude S_Sampling.
From Verif Require Import P_Path P_Split P_PathMain P_PyBuild P_PyTens P_OSet P_Fuse P_Sum P_Array P_Tensordot P_ContractMain P_ContractThm P_Symbols P_Decompose P_DecomposeNet P_DecomposeSum P_Keeps P_Circuit P_Gates P_Same P_Simplify P_Amplitude P_DecGate P_DecChain P_Kronecker P_Load.
From Verif Require Import M_Path M_PyTree.
Set Implicit Arguments.
Unset Strict Implicit.
Local Open Scope nat_scope.

Section Net.
Variable K : Type.
Variable F : nums K.
Local Notation A := (n_alg F).
Hypothesis NF : numbers F.
Let SR : semiring A := num_ring _ NF.
Let SR1 : semi_ring_theory (zero A) (one A) (add A) (mul A) eq := num_ring _ NF.
Add Ring KR : SR1.
Local Notation two := (fun _ : nat => 2).
Notation so := (sum_over A two).
Notation gate := (nda K * list nat)%type.

Lemma times_if (B : Type) (p : B -> bool) (l : list B) : times F (map (fun x => if p x then one A else zero A) l) = if forallb p l then one A else zero A.
Proof. unfold times. induction l as [|x l IH]; simpl; auto. rewrite IH. destruct (p x); simpl; [ring|ring]. Qed.
Lemma basis_entry b c : b < 2 -> c < 2 -> entry A (basis F b) [c] = if c =? b then one A else zero A.
Proof. intros Hb Hc. destruct b as [|[|]]; try lia; destruct c as [|[|]]; try lia; reflexivity. Qed.
Lemma basis_shaped b : well_shaped (basis F b) /\ shape (basis F b) = [2].
Proof. unfold well_shaped, basis. destruct (b =? 0); auto. Qed.

Lemma zero_state_state Q : state_of Q (zero_state F Q).
Proof.
  intros v w H. unfold zero_state. assert (E : forallb (fun q => v q =? 0) Q = forallb (fun q => w q =? 0) Q); [|rewrite E; auto].
  induction Q as [|q Q IH]; simpl; auto. rewrite (H q) by (left; auto). f_equal. apply IH. intros x Hx. apply H. right. auto.
Qed.

(** The amplitude of open qubits is an entry of the state. *)
Lemma amplitude_run gs Q vi vf : NoDup Q -> (forall g, In g gs -> incl (snd g) Q) -> bits vf ->
  amplitude F gs Q (closing F (SStr T0)) (closing F SNone) vi vf = run F gs (zero_state F Q) vf.
Proof.
  intros NQ HI B. unfold amplitude. cbn [closing].
  assert (ST : forall v w, (forall q, In q Q -> v q = w q) -> run F gs (zero_state F Q) v = run F gs (zero_state F Q) w) by (apply run_state; auto; apply zero_state_state).
  transitivity (so Q (fun w => mul A (run F gs (zero_state F Q) w) (if forallb (fun x => w x =? vf x) Q then one A else zero A)) (fun _ => 0)).
  - apply so_ext. intros w _ _. rewrite times_if. transitivity (mul A (if forallb (fun q => w q =? vf q) Q then one A else zero A) (run F gs (zero_state F Q) w)); [|ring]. f_equal.
    apply P_Load.run_ext. intros u. unfold zero_state. rewrite <- times_if. f_equal.
  - rewrite (@so_delta K F SR Q vf _ Q); auto. apply ST. intros q Hq. unfold update. rewrite (proj2 (memb_In _ _) Hq). auto.
Qed.

Variable ix : nat -> mark -> nat.
Hypothesis IX : distinct ix.
Variable qubit_of : nat -> nat.
Hypothesis QO : forall q m, qubit_of (ix q m) = q.

Lemma contraction_ok (G : Type) (g : prng G) lg arr r circuit Q simplify um dec fuse_width :
  prng_ok g -> (forall l, Permutation (arr l) l) ->
  (forall h, In h circuit -> is_gate h) -> (simplify || dec = true -> forall h, In h circuit -> unitary F h) ->
  NoDup Q -> (forall q, In q Q <-> touches circuit q) -> names_normalized F ->
  exists arrays ts os c, load F ix g lg arr r circuit (SStr T0) SNone simplify um dec fuse_width = Ok (arrays, ts, os) /\ phase F c /\
    NoDup (map qubit_of os) /\ (forall q, In q (map qubit_of os) <-> In q Q) /\ (forall xs, In xs (ts ++ map (fun x => [x]) os) -> NoDup xs) /\
    forall p cs t b, performs (length (ts ++ map (fun x => [x]) os)) p cs [t] -> bits b ->
      exists x, amplitude_of F arr (ts ++ map (fun x => [x]) os) p (arrays ++ map (basis F) (map b (map qubit_of os))) = Ok x /\
        run F circuit (zero_state F Q) b = mul A c x.
Proof.
  intros Hg Harr HG HU NQ HQ NN.
  destruct (@load_ok K F NF ix IX G g lg arr r circuit Q (SStr T0) SNone simplify um dec fuse_width Hg Harr HG HU NQ HQ NN) as (arrays & ts & os & c & E & Pc & _ & S & W & N & No & Io & O & LN & _ & V); try exact I; [discriminate|].
  exists arrays, ts, os, c. split; auto. split; auto.
  assert (OF : forall x, In x os <-> exists q, In q Q /\ x = ix q Fin).
  { intros x. rewrite Io. unfold open_end. cbn [closing]. split; [intros (q & Hq & [[_ H]|[-> _]]); [discriminate|eauto]|intros (q & Hq & ->); exists q; auto]. }
  split; [|split; [|split]].
  - apply nodup_map_in; auto. intros x y Hx Hy Exy. apply OF in Hx, Hy. destruct Hx as (q & _ & ->), Hy as (q' & _ & ->). rewrite !QO in Exy. congruence.
  - intros q. rewrite in_map_iff. split; [intros (x & <- & Hx); apply OF in Hx; destruct Hx as (q' & Hq & ->); rewrite QO; auto|]. intros Hq. exists (ix q Fin). rewrite QO. split; auto. apply OF. eauto.
  - intros xs Hx. apply in_app_iff in Hx. destruct Hx as [Hx|Hx]; auto. apply in_map_iff in Hx. destruct Hx as (x & <- & _). repeat constructor. auto.
  - intros p cs t b P B. unfold amplitude_of. set (sing := map (fun x : nat => [x]) os) in *. set (vecs := map (basis F) (map b (map qubit_of os))).
    assert (Sv : Forall2 (fun a xs => shape a = map two xs) vecs sing). { unfold vecs, sing. clear. induction os; cbn [map]; constructor; auto. }
    assert (Wv : Forall well_shaped vecs). { unfold vecs. apply Forall_forall. intros a Ha. apply in_map_iff in Ha. destruct Ha as (x & <- & _). apply basis_shaped. }
    assert (S' : shaped two (arrays ++ vecs) (ts ++ sing)) by (apply Forall2_app; auto).
    assert (Hs : forall x, In x (concat sing) <-> In x os).
    { intros x. unfold sing. rewrite in_concat. split; [intros (l & Hl & Hx); apply in_map_iff in Hl; destruct Hl as (y & <- & Hy); destruct Hx as [<-|[]]; auto|]. intros Hx. exists [x]. split; [apply in_map_iff; eauto|left; auto]. }
    destruct (@contract_complete K A SR arr Harr p (ts ++ sing) (Some []) (arrays ++ vecs) None two cs t) as (zs & out' & az & E1 & _ & _ & Nz & Iz & Wz & Sz & Vz); auto.
    { intros xs Hx. apply in_app_iff in Hx. destruct Hx as [Hx|Hx]; auto. apply in_map_iff in Hx. destruct Hx as (x & <- & _). repeat constructor. auto. }
    { apply Forall_app; auto. } { exists two. auto. } { intros x []. }
    assert (Z : zs = []).
    { destruct zs as [|x zs]; auto. exfalso. destruct (proj1 (Iz x) (or_introl eq_refl)) as [_ [Ho|(t0 & Ht)]]; [destruct Ho|].
      assert (Hin : forall u, has ts u x -> u = t0). { intros u (xs & U1 & U2). apply Ht. exists xs. split; auto. rewrite nth_error_app1; auto. apply nth_error_Some. rewrite U1. discriminate. }
      destruct (in_dec Nat.eq_dec x os) as [Hx|Hx].
      - pose proof (O x Hx) as Y. apply has_concat in Y. destruct Y as (u & Y). pose proof (Hin u Y) as U. assert (Lu : u < length ts) by (destruct Y as (xs & Y & _); apply nth_error_Some; rewrite Y; discriminate).
        apply In_nth_error in Hx. destruct Hx as (j & Hj). assert (length ts + j = t0); [|lia]. apply Ht. exists [x]. split; [|left; auto]. rewrite nth_error_app2 by lia. replace (length ts + j - length ts) with j by lia. unfold sing. rewrite nth_error_map, Hj. auto.
      - assert (Y : In x (concat (ts ++ sing))) by (apply has_concat; exists t0; apply Ht; auto). rewrite concat_app, in_app_iff, Hs in Y. destruct Y as [Y|Y]; [|tauto]. apply has_concat in Y. destruct Y as (u & Y).
        apply Hx, LN. exists t0. intros u'. split; [apply Hin|]. intros ->. rewrite <- (Hin u Y). auto. }
    subst zs. rewrite E1. cbn [bind]. rewrite Sz. cbn [map]. eexists. split; [reflexivity|].
    set (ks := filter (fun x => negb (memb x os)) (unique (concat ts))).
    assert (Nk : NoDup ks) by (apply NoDup_filter, unique_nodup). assert (Ik : forall x, In x ks <-> In x (concat ts) /\ ~ In x os) by (intros x; unfold ks; rewrite filter_In, unique_in, negb_true_iff, memb_nIn; tauto).
    set (u := fun x => b (qubit_of x)). set (U := update (fun _ => 0) os u). assert (BU : bits U) by (intros x; unfold U, update, u; destruct (memb x os); auto).
    specialize (V ks U Nk Ik BU). rewrite amplitude_run in V; auto; [|intros h Hh q Hq; apply HQ; exists h; auto|intros q; apply BU].
    transitivity (run F circuit (zero_state F Q) (fun q => U (ix q Fin))).
    { apply (@run_state K F Q); [intros h Hh q Hq; apply HQ; exists h; auto|apply zero_state_state|]. intros q Hq. unfold U, update, u. rewrite (proj2 (memb_In _ _)) by (apply OF; eauto). rewrite QO. auto. }
    rewrite V. f_equal. change (entry A az []) with (entry_at A az [] (fun _ => 0)).
    assert (La : length arrays = length ts) by (apply forall2_len in S; auto).
    rewrite (Vz (os ++ ks) (fun _ => 0)).
    + rewrite so_app. transitivity (so os (fun w => mul A (so ks (network A arrays ts) w) (if forallb (fun x => w x =? u x) os then one A else zero A)) (fun _ => 0)).
      * symmetry. apply (@so_delta K F SR os u _ (concat ts)); auto; [apply so_depends_on, network_depends; auto|]. intros x _. apply B.
      * apply so_ext. intros w _ Hw. transitivity (so ks (fun w => mul A (if forallb (fun x => w x =? u x) os then one A else zero A) (network A arrays ts w)) w).
        -- rewrite (@so_mul_l K A SR two ks (network A arrays ts) (fun w => if forallb (fun x => w x =? u x) os then one A else zero A) os); [ring| |intros x Hx Hk; apply Ik in Hk; tauto].
           intros y z Hyz. assert (Ey : forallb (fun x => y x =? u x) os = forallb (fun x => z x =? u x) os); [|rewrite Ey; auto]. clear - Hyz. induction os as [|x l IH]; simpl; auto. rewrite (Hyz x) by (left; auto). f_equal. apply IH. intros; apply Hyz; right; auto.
        -- apply so_ext. intros w' Hw' _. rewrite (network_app NF) by auto. transitivity (mul A (network A arrays ts w') (if forallb (fun x => w' x =? u x) os then one A else zero A)); [ring|]. f_equal.
           assert (Ro : forall x, In x os -> w' x < 2). { intros x Hx. rewrite Hw'; [apply Hw; auto|]. intros Hk. apply Ik in Hk. tauto. }
           transitivity (network A (map snd (map (fun x => (x, basis F (u x))) os)) (map (fun x => [x]) (map fst (map (fun x => (x, basis F (u x))) os))) w').
           ++ rewrite (@states_network K F), map_map. cbn [fst snd]. rewrite <- times_if. f_equal. apply map_ext_in. intros x Hx. symmetry. apply basis_entry; auto. apply B.
           ++ rewrite !map_map. cbn [fst snd]. unfold vecs, sing. rewrite !map_map. auto.
    + apply NoDup_app. split; auto. split; auto. intros x H1 H2. apply Ik in H2. tauto.
    + intros x. rewrite in_app_iff, Ik. transitivity (In x (concat (ts ++ sing))).
      * rewrite concat_app, in_app_iff, Hs. split; [intros [H|H]; auto; tauto|]. intros [H|H]; [destruct (in_dec Nat.eq_dec x os); auto|auto].
      * rewrite has_concat. split; [intros H; split; [auto|intros []]|tauto].
    + intros x [].
Qed.
End Net.
