(** sample, from the circuit to the bitstrings. *)
From Coq Require Import List Arith NArith ZArith Reals Lia Lra Permutation Bool Ring.
Import ListNotations.
From Verif Require Import P_Base P_Opt P_PyMain.
From Verif Require Import M_Base M_Path M_PyTree M_OSet M_Random M_Fuse M_Tensor M_Contract M_Decompose M_Circuit M_Sampling S_Path S_Random S_Tensor S_Circuit S_Amplitude S_Sampling.
From Verif Require Import P_Path P_Split P_PathMain P_PyBuild P_OSet P_Fuse P_Sum P_Array P_ContractMain P_Circuit P_Gates P_Same P_Amplitude P_Load P_SampleNet P_Classical P_Draws P_Born P_Sampling.
From Verif Require Import M_Path M_PyTree.
Set Implicit Arguments.
Unset Strict Implicit.
Local Open Scope nat_scope.

Section Main.
Variable K : Type.
Variable F : nums K.
Local Notation A := (n_alg F).
Hypothesis NF : numbers F.
Notation gate := (nda K * list nat)%type.
Variable abs2 : K -> R.
Hypothesis MOD : modulus F abs2.
Variable ix : nat -> mark -> nat.
Hypothesis IX : distinct ix.
Variable qubit_of : nat -> nat.
Hypothesis QO : forall q m, qubit_of (ix q m) = q.
Variables (G : Type) (g : prng G) (lg : N -> Z) (arr : list nat -> list nat) (r : nat -> nat -> G).
Variables (simplify um dec : bool) (fuse_width : option Z).
Variable opt : nat -> list (list nat) -> path.
Hypothesis Hg : prng_ok g.
Hypothesis Harr : forall l, Permutation (arr l) l.
Hypothesis NN : names_normalized F.
Hypothesis HP : forall i ts, ts <> [] -> (forall xs, In xs ts -> NoDup xs) -> exists cs c, performs (length ts) (opt i ts) cs [c].

Lemma prepare_gate_ok (circuit gs1 : list gate) h l Q : circuit = gs1 ++ h :: l -> NoDup Q ->
  (forall k, In k (gs1 ++ [h]) -> is_gate k /\ unitary F k /\ incl (snd k) Q) -> length (snd h) = 1 \/ permutation_gate F h ->
  exists o, prepare_gate F ix qubit_of g lg arr r simplify um dec fuse_width opt circuit (length gs1) h = Ok o /\ op_ok F abs2 arr Q gs1 h o.
Proof.
  intros EC NQ HG H1. assert (Hh : is_gate h /\ unitary F h /\ incl (snd h) Q) by (apply HG, in_app_iff; right; left; auto). destruct Hh as (Hh & Uh & Ih).
  unfold prepare_gate, M_Circuit.gate. destruct h as [m qs]. pose proof (classical_ok NF Hh) as CL. cbn [fst snd] in *. destruct (is_classical F m) eqn:EM.
  - eexists. split; [reflexivity|]. destruct (proj1 CL eq_refl) as (s & Hs). apply (@OC K F abs2 arr Q gs1 (m, qs) _ s); [exact Hs|]. intros v Bv. cbn [step_op]. f_equal. apply (@classical_step_ok K F NF (m, qs) s Q v); auto.
  - destruct H1 as [H1|H1]; [|apply CL in H1; discriminate]. destruct qs as [|q [|]]; try discriminate.
    replace (firstn (S (length gs1)) circuit) with (gs1 ++ [(m, [q])]).
    2:{ rewrite EC. change (S (length gs1)) with (1 + length gs1). rewrite Nat.add_comm, firstn_app_2. auto. }
    set (pre := gs1 ++ [(m, [q])]) in *. set (Qp := qubits_of pre).
    destruct (@contraction_ok K F NF ix IX qubit_of QO G g lg arr (r (length gs1)) pre Qp simplify um dec fuse_width) as (arrays & ts & os & c & EL & Pc & No & Io & ND & V); auto.
    { intros k Hk. apply HG. auto. } { intros _ k Hk. apply HG. auto. } { apply unique_nodup. } { intros x. apply qubits_of_in. }
    rewrite EL. cbn [bind]. eexists. split; [reflexivity|]. set (ts' := ts ++ map (fun x => [x]) os) in *. set (out := map qubit_of os) in *.
    assert (Hq : In q Qp) by (apply qubits_of_in; exists (m, [q]); unfold pre; rewrite in_app_iff; split; [right; left; auto|left; auto]).
    assert (Ho : In q out) by (apply Io; auto). assert (IQ : In q Q) by (apply Ih; left; auto).
    assert (IO : incl out Q). { intros x Hx. apply Io in Hx. revert x Hx. apply qubits_incl. intros k Hk. apply HG. auto. }
    destruct (HP (length gs1) (ts := ts')) as (cs & t & PF). { unfold ts'. intros X. apply app_eq_nil in X. destruct X as [_ X]. apply map_eq_nil in X. unfold out in Ho. rewrite X in Ho. destruct Ho. } { exact ND. }
    apply (@OQ K F abs2 arr Q gs1 (m, [q]) _ q); auto. intros v Bv. cbn [step_op]. unfold quantum_step.
    rewrite (mapM_index (xs := Q) (ys := [q])) by (intros x [<-|[]]; auto). cbn [bind map]. rewrite (mapM_index IO). cbn [bind]. rewrite get_positions by auto. cbn [bind]. rewrite get_position by auto. cbn [bind].
    destruct (V _ cs t v PF Bv) as (x0 & E0 & R0). rewrite E0. cbn [bind]. rewrite (index_position Ho). cbn [bind].
    destruct (V _ cs t (flip v q) PF (flip_bits q Bv)) as (x1 & E1 & R1).
    rewrite (map_map v (basis F)), (@upd_position _ (fun x => basis F (v x)) out q (basis F (1 - v q)) No Ho).
    assert (EB : map (fun x => if x =? q then basis F (1 - v q) else basis F (v x)) out = map (basis F) (map (flip v q) out)).
    { rewrite map_map. apply map_ext. intros x. unfold flip, assign. destruct (x =? q); auto. }
    rewrite EB, E1. cbn [bind]. rewrite (@upd_position _ v Q q (1 - v q) NQ IQ). fold pre. fold Qp. cbv zeta. rewrite R0, R1, !(abs2_phase NF MOD _ Pc). auto.
Qed.

Lemma prepare_all_ok (circuit : list gate) Q : NoDup Q -> (forall k, In k circuit -> is_gate k /\ unitary F k /\ incl (snd k) Q) -> (forall k, In k circuit -> length (snd k) = 1 \/ permutation_gate F k) ->
  forall l gs1, circuit = gs1 ++ l -> exists ops, prepare_all F ix qubit_of g lg arr r simplify um dec fuse_width opt circuit (length gs1) l = Ok ops /\ ops_ok F abs2 arr Q gs1 l ops.
Proof.
  intros NQ HG H1. induction l as [|h l IH]; intros gs1 EC; [exists []; split; [auto|constructor]|].
  destruct (@prepare_gate_ok circuit gs1 h l Q) as (o & E & O); auto.
  { intros k Hk. apply HG. rewrite EC. apply in_app_iff in Hk. rewrite in_app_iff. destruct Hk as [Hk|[<-|[]]]; [auto|right; left; auto]. } { apply H1. rewrite EC, in_app_iff. right. left. auto. }
  destruct (IH (gs1 ++ [h])) as (ops & E' & O'); [rewrite <- app_assoc; auto|]. rewrite app_length in E'. cbn [length] in E'. rewrite Nat.add_comm in E'. cbn [Nat.add] in E'.
  exists (o :: ops). cbn [prepare_all]. rewrite E. cbn [bind]. rewrite E'. split; auto. constructor; auto.
Qed.

(** The order of the qubits in the bitstrings. *)
Definition order (circuit : list gate) (qubit_order : option (list nat)) : list nat := match qubit_order with Some o => o | None => arr (qubits_of circuit) end.
Definition order_fits (circuit : list gate) (qubit_order : option (list nat)) : Prop :=
  match qubit_order with Some o => NoDup o /\ forall q, In q o <-> touches circuit q | None => True end.
Lemma order_ok circuit qo : order_fits circuit qo -> NoDup (order circuit qo) /\ forall q, In q (order circuit qo) <-> touches circuit q.
Proof.
  destruct qo as [o|]; simpl; auto. intros _. split.
  - apply (Permutation_NoDup (Permutation_sym (Harr _))), unique_nodup.
  - intros q. rewrite <- qubits_of_in. split; apply Permutation_in; [apply Harr|symmetry; apply Harr].
Qed.
Lemma prepare_ok (circuit : list gate) qo : (forall h, In h circuit -> is_gate h) -> (forall h, In h circuit -> unitary F h) ->
  (forall h, In h circuit -> length (snd h) = 1 \/ permutation_gate F h) -> order_fits circuit qo ->
  exists ops, prepare F ix qubit_of g lg arr r simplify um dec fuse_width opt circuit qo = Ok (ops, qubits_of circuit) /\ ops_ok F abs2 arr (order circuit qo) [] circuit ops.
Proof.
  intros HG HU H1 HO. destruct (order_ok HO) as (NQ & IQ).
  destruct (@prepare_all_ok circuit (order circuit qo) NQ) with (l := circuit) (gs1 := @nil gate) as (ops & E & O); auto.
  { intros k Hk. split; auto. split; auto. intros q Hq. apply IQ. exists k. auto. }
  exists ops. split; auto. unfold prepare. assert (X : forallb (fun h => (length (snd h) =? 1) || is_classical F (fst h)) circuit = true).
  { apply forallb_forall. intros h Hh. apply orb_true_iff. destruct (H1 h Hh) as [H|H]; [left; apply Nat.eqb_eq; auto|right; apply (classical_ok NF); auto]. }
  rewrite X. cbn [negb]. assert (Y : match qo with Some o => negb (forallb (fun q => memb q (qubits_of circuit)) o && forallb (fun q => memb q o) (qubits_of circuit)) | None => false end = false).
  { destruct qo as [o|]; auto. apply negb_false_iff, andb_true_iff. rewrite !forallb_forall. destruct HO as [_ HO]. split; intros q Hq; apply memb_In; [apply qubits_of_in, HO; auto|apply HO, qubits_of_in; auto]. }
  rewrite Y. cbn [length] in E. rewrite E. auto.
Qed.

Notation sample_ := (sample F abs2 ix qubit_of g lg arr r simplify um dec fuse_width opt).

Lemma sample_chance circuit qo dec_ n bss : (forall h, In h circuit -> is_gate h) -> (forall h, In h circuit -> unitary F h) ->
  (forall h, In h circuit -> length (snd h) = 1 \/ permutation_gate F h) -> order_fits circuit qo ->
  length bss = n -> Forall (bitstring (length (order circuit qo))) bss ->
  chance (gives dec_ (bss, order circuit qo)) (sample_ circuit qo n) = fold_right Rmult 1%R (map (born F abs2 circuit (order circuit qo)) bss).
Proof.
  intros HG HU H1 HO L B. destruct (order_ok HO) as (NQ & IQ). destruct (prepare_ok HG HU H1 HO) as (ops & EP & O). unfold sample. rewrite EP. fold (order circuit qo). set (Q := order circuit qo) in *.
  rewrite <- (@many_chance K F NF abs2 MOD arr Q NQ circuit ops) with (dec := list_eq_dec (list_eq_dec Nat.eq_dec)) (n := n); auto.
  - rewrite !chance_E, E_then. apply E_ext. intros [x|e]; cbn [E gives]; auto. destruct (dec_ (bss, Q) (x, Q)), (list_eq_dec (list_eq_dec Nat.eq_dec) bss x); auto; congruence.
  - intros k Hk. split; auto. intros q Hq. apply IQ. exists k. auto.
Qed.
Lemma sample_possible circuit qo n u : (forall h, In h circuit -> is_gate h) -> (forall h, In h circuit -> unitary F h) ->
  (forall h, In h circuit -> length (snd h) = 1 \/ permutation_gate F h) -> order_fits circuit qo -> (forall i, 0 <= u i < 1)%R ->
  exists bss, play u (sample_ circuit qo n) = Ok (bss, order circuit qo) /\ length bss = n /\
    Forall (fun bs => bitstring (length (order circuit qo)) bs /\ (0 < born F abs2 circuit (order circuit qo) bs)%R) bss.
Proof.
  intros HG HU H1 HO Hu. destruct (order_ok HO) as (NQ & IQ). destruct (prepare_ok HG HU H1 HO) as (ops & E & O). unfold sample. rewrite E. fold (order circuit qo). set (Q := order circuit qo) in *.
  destruct (@many_possible K F NF abs2 MOD arr Q NQ circuit ops) with (n := n) (u := u) as (bss & EB & L & FB); auto.
  { intros k Hk. split; auto. intros q Hq. apply IQ. exists k. auto. }
  exists bss. destruct (@play_then (list (list nat)) (list (list nat) * list nat) (sample_many F abs2 arr Q ops n) u) as (m & Hm). rewrite Hm, EB. auto.
Qed.
Lemma sample_refuses circuit qo n : (forall h, In h circuit -> is_gate h) ->
  (exists h, In h circuit /\ length (snd h) <> 1 /\ ~ permutation_gate F h) \/ (exists o, qo = Some o /\ ~ forall q, In q o <-> touches circuit q) ->
  sample_ circuit qo n = Return (Err Throw).
Proof.
  intros HG H. unfold sample, prepare. destruct (forallb (fun h => (length (snd h) =? 1) || is_classical F (fst h)) circuit) eqn:X; auto. cbn [negb]. rewrite forallb_forall in X.
  destruct H as [(h & Hh & H1 & H2)|(o & -> & H)].
  - exfalso. specialize (X h Hh). apply orb_true_iff in X. destruct X as [X|X]; [apply Nat.eqb_eq in X; auto|]. apply H2, (classical_ok NF); auto.
  - destruct (forallb (fun q => memb q (qubits_of circuit)) o && forallb (fun q => memb q o) (qubits_of circuit)) eqn:Y; auto. exfalso. apply H. apply andb_true_iff in Y. rewrite !forallb_forall in Y. destruct Y as [Y1 Y2].
    intros q. rewrite <- qubits_of_in. split; intros Hq; apply memb_In; auto.
Qed.
End Main.

(** ** Counting *)
Lemma hit_ok d b : NoDup (map fst d) -> NoDup (map fst (hit d b)) /\ (forall k, In k (map fst (hit d b)) <-> In k (map fst d) \/ k = b) /\
  (forall k c, In (k, c) (hit d b) <-> (k <> b /\ In (k, c) d) \/ (k = b /\ ((c = 1 /\ ~ In b (map fst d)) \/ exists c', In (b, c') d /\ c = S c'))).
Proof.
  induction d as [|[k0 c0] d IH]; intros N; cbn [hit].
  - split; [repeat constructor; auto|]. split; [simpl; intros k; split; [intros [<-|[]]; auto|intros [[]| ->]; auto]|].
    intros k c. split.
    + intros [E|[]]. injection E as <- <-. right. split; auto.
    + intros [[_ []]|[-> [[-> _]|(c' & [] & _)]]]. left. auto.
  - inversion N as [|? ? N1 N2]; subst. destruct (IH N2) as (I1 & I2 & I3). destruct (list_eqb k0 b) eqn:E.
    + apply list_eqb_ok in E. subst k0. cbn [map fst] in *. split; [auto|]. split; [simpl; intros k; split; [intros [H|H]; auto|intros [H|H]; auto; destruct H; auto]|].
      intros k c. split.
      * intros [H|H]; [injection H as <- <-; right; split; auto; right; exists c0; split; auto; left; auto|]. left. split; [|right; auto]. intros ->. apply N1. change b with (fst (b, c)). apply in_map. auto.
      * intros [[H1 [H2|H2]]|[-> [[-> H]|(c' & [H|H] & ->)]]]; [injection H2; congruence|right; auto|elim H; left; auto|injection H as <-; left; auto|]. exfalso. apply N1. change b with (fst (b, c')). apply in_map. auto.
    + assert (Ne : k0 <> b) by (intros ->; rewrite (proj2 (list_eqb_ok b b) eq_refl) in E; discriminate). cbn [map fst] in *. split; [|split].
      * constructor; auto. intros H. apply I2 in H. destruct H; auto.
      * intros k. simpl. rewrite I2. tauto.
      * intros k c. simpl. rewrite I3. split.
        -- intros [H|[[H1 H2]|[-> [[-> H]|(c' & H & ->)]]]]; [injection H as <- <-; left; auto|left; auto|right; split; auto; left; split; auto; intros [H'|H']; auto|right; split; auto; right; eauto].
        -- intros [[H1 [H2|H2]]|[-> [[-> H]|(c' & [H|H] & ->)]]]; [left; auto|right; left; auto|right; right; split; auto; left; split; auto|injection H; congruence|right; right; split; auto; right; eauto].
Qed.
Local Notation dec := (list_eq_dec Nat.eq_dec).
Lemma hits_ok bs : forall d pre, NoDup (map fst d) -> (forall k c, In (k, c) d <-> In k pre /\ c = count_occ dec pre k) ->
  NoDup (map fst (fold_left hit bs d)) /\ (forall k c, In (k, c) (fold_left hit bs d) <-> In k (pre ++ bs) /\ c = count_occ dec (pre ++ bs) k).
Proof.
  induction bs as [|b bs IH]; intros d pre N H; cbn [fold_left]; [rewrite app_nil_r; auto|]. replace (pre ++ b :: bs) with ((pre ++ [b]) ++ bs) by (rewrite <- app_assoc; auto).
  destruct (@hit_ok d b N) as (H1 & H2 & H3). apply IH; auto. intros k c. rewrite H3, in_app_iff, count_occ_app. cbn [count_occ In].
  assert (Hk : In b (map fst d) <-> In b pre). { rewrite in_map_iff. split; [intros ([k' c'] & <- & X); apply H in X; tauto|]. intros X. exists (b, count_occ dec pre b). split; auto. apply H. auto. }
  destruct (dec b k) as [<-|Ne].
  - split.
    + intros [[X _]|[_ [[-> X]|(c' & X & ->)]]]; [congruence| |].
      * split; auto. rewrite Hk in X. apply (count_occ_not_In dec) in X. lia.
      * apply H in X. destruct X as [X ->]. split; auto. lia.
    + intros [_ ->]. right. split; auto. destruct (in_dec dec b pre) as [X|X].
      * right. exists (count_occ dec pre b). split; [apply H; auto|lia].
      * left. rewrite Hk. split; auto. apply (count_occ_not_In dec) in X. lia.
  - rewrite H, Nat.add_0_r. split; [intros [[_ X]|[X _]]; [tauto|congruence]|]. intros [[X|[X|[]]] ->]; [left; auto|congruence].
Qed.
Lemma insert_desc_perm e l : Permutation (insert_desc e l) (e :: l).
Proof. induction l as [|x l IH]; simpl; auto. destruct (snd x <=? snd e); auto. rewrite IH. apply perm_swap. Qed.
Lemma sort_desc_perm l : Permutation (fold_right insert_desc [] l) l.
Proof. induction l as [|x l IH]; simpl; auto. rewrite insert_desc_perm, IH. auto. Qed.
From Coq Require Import Sorted.
Lemma insert_desc_sorted e l : StronglySorted (fun x y => snd y <= snd x) l -> StronglySorted (fun x y => snd y <= snd x) (insert_desc e l).
Proof.
  induction 1 as [|x l S IH H]; simpl; [repeat constructor|]. destruct (Nat.leb_spec (snd x) (snd e)).
  - constructor; [constructor; auto|]. constructor; auto. eapply Forall_impl; [|exact H]. simpl. intros. lia.
  - constructor; auto. eapply Permutation_Forall; [symmetry; apply insert_desc_perm|]. constructor; auto. lia.
Qed.
Lemma counts_ok bs : NoDup (map fst (counts bs)) /\ (forall k c, In (k, c) (counts bs) <-> In k bs /\ c = count_occ dec bs k) /\
  StronglySorted (fun x y => snd y <= snd x) (counts bs).
Proof.
  destruct (@hits_ok bs [] []) as (N & H); [constructor|simpl; tauto|]. unfold counts. pose proof (sort_desc_perm (fold_left hit bs [])) as P. split; [|split].
  - apply (Permutation_NoDup (Permutation_map fst (Permutation_sym P))). auto.
  - intros k c. rewrite <- (H k c). split; apply Permutation_in; [auto|symmetry; auto].
  - generalize (fold_left hit bs []) as l. induction l; simpl; [constructor|apply insert_desc_sorted; auto].
Qed.
Definition total (d : list (list nat * nat)) : nat := fold_right (fun e k => snd e + k) 0 d.
Lemma hit_total b d : total (hit d b) = S (total d).
Proof. induction d as [|[k c] d IH]; auto. cbn [hit]. destruct (list_eqb k b); cbn [total fold_right snd] in *; [lia|]. fold (total (hit d b)) (total d). lia. Qed.
Lemma hits_total bs : forall d, total (fold_left hit bs d) = total d + length bs.
Proof. induction bs as [|b bs IH]; intros d; cbn [fold_left length]; [lia|]. rewrite IH, hit_total. lia. Qed.
Lemma total_perm d d' : Permutation d d' -> total d = total d'.
Proof. induction 1; cbn [total fold_right] in *; auto; lia. Qed.
Lemma fractions_ok bs : bs <> [] -> NoDup (map fst (fractions (length bs) (counts bs))) /\
  (forall k x, In (k, x) (fractions (length bs) (counts bs)) <-> In k bs /\ x = (INR (count_occ dec bs k) / INR (length bs))%R) /\
  fold_right Rplus 0%R (map snd (fractions (length bs) (counts bs))) = 1%R /\
  StronglySorted (fun x y => (snd y <= snd x)%R) (fractions (length bs) (counts bs)).
Proof.
  intros NE. destruct (counts_ok bs) as (N & I & S). assert (P : (0 < INR (length bs))%R) by (apply lt_0_INR; destruct bs; [tauto|cbn; lia]). unfold fractions. split; [|split; [|split]].
  - rewrite map_map. cbn [fst]. exact N.
  - intros k x. rewrite in_map_iff. split.
    + intros ([k' c] & E & H). inversion E; subst. apply I in H. destruct H as [H ->]. auto.
    + intros [H ->]. exists (k, count_occ dec bs k). split; auto. apply I. auto.
  - assert (T : total (counts bs) = length bs). { unfold counts. rewrite (total_perm (sort_desc_perm _)). apply hits_total. }
    rewrite map_map. cbn [snd]. assert (G : forall d, fold_right Rplus 0%R (map (fun e : list nat * nat => (INR (snd e) / INR (length bs))%R) d) = (INR (total d) / INR (length bs))%R).
    { induction d as [|e d IH]; cbn [map fold_right total]; [cbn; field; lra|]. rewrite IH. fold (total d). rewrite plus_INR. field. lra. }
    rewrite G, T. field. lra.
  - clear I N. induction S as [|x l S IH H]; cbn [map]; constructor; auto. apply Forall_forall. intros e He. apply in_map_iff in He. destruct He as (y & <- & Hy). cbn [snd]. rewrite Forall_forall in H. specialize (H y Hy).
    apply Rmult_le_compat_r; [left; apply Rinv_0_lt_compat; auto|]. apply le_INR. auto.
Qed.
