(** The samples depend on the seed only. *)
From Coq Require Import List Arith NArith ZArith Reals Lia Permutation Bool.
Import ListNotations.
From Verif Require Import P_Base P_Opt P_PyMain.
From Verif Require Import M_Base M_Path M_PyTree M_OSet M_Random M_Fuse M_Tensor M_Contract M_Decompose M_Circuit M_Sampling S_Path S_Random S_Tensor S_Circuit S_Amplitude S_Sampling.
From Verif Require Import P_Path P_Split P_PathMain P_PyBuild P_OSet P_Fuse P_Sum P_Array P_ContractMain P_Circuit P_Gates P_Same P_Amplitude P_Load P_SampleNet P_Classical P_Draws P_Born P_Sampling P_SampleMain.
From Verif Require Import M_Path M_PyTree M_Sampler S_Sampler.
Set Implicit Arguments.
Unset Strict Implicit.
Local Open Scope nat_scope.

(** ** Programs that draw the same *)
Inductive mirror (X Y : Type) (S : X -> Y -> Prop) : draws X -> draws Y -> Prop :=
| mi_ok x y : S x y -> mirror S (Return (Ok x)) (Return (Ok y))
| mi_err e : mirror S (Return (Err e)) (Return (Err e))
| mi_draw p t t' n n' : mirror S t t' -> mirror S n n' -> mirror S (Draw p t n) (Draw p t' n').
Lemma mirror_then (X Y X' Y' : Type) (S : X -> Y -> Prop) (S' : X' -> Y' -> Prop) t t' k k' :
  mirror S t t' -> (forall x y, S x y -> mirror S' (k x) (k' y)) -> mirror S' (then_ t k) (then_ t' k').
Proof. intros H Hk. induction H; cbn [then_]; [auto|constructor|constructor; auto]. Qed.
Definition same_res (X Y : Type) (S : X -> Y -> Prop) (a : res X) (b : res Y) : Prop :=
  match a, b with Ok x, Ok y => S x y | Err e, Err e' => e = e' | _, _ => False end.
Lemma mirror_play (X Y : Type) (S : X -> Y -> Prop) t t' : mirror S t t' -> forall u, same_res S (play u t) (play u t').
Proof. induction 1 as [| |p t t' n n' H1 I1 H2 I2]; intros u; cbn [play same_res]; [auto|auto|]. destruct (Rlt_dec (u 0) p); auto. Qed.
Lemma run_play (X : Type) (t : draws X) : forall u, run_draws u t = play u t.
Proof. induction t as [x|p t1 I1 t2 I2]; intros u; cbn [run_draws play]; [auto|]. destruct (Rlt_dec (u 0) p); auto. Qed.
Lemma same_eq (X : Type) (a b : res X) : same_res eq a b -> a = b.
Proof. destruct a, b; simpl; try tauto; congruence. Qed.
Lemma mirror_weak (X Y : Type) (S S' : X -> Y -> Prop) t t' : (forall x y, S x y -> S' x y) -> mirror S t t' -> mirror S' t t'.
Proof. intros H. induction 1; constructor; auto. Qed.

Section Twins.
Variable K : Type.
Variable F : nums K.
Local Notation A := (n_alg F).
Hypothesis NF : numbers F.
Notation gate := (nda K * list nat)%type.
Variable abs2 : K -> R.
Hypothesis MOD : modulus F abs2.
Variable ix : nat -> mark -> nat.
Hypothesis IX : distinct ix.
Variable qubit_of : nat -> nat.
Hypothesis QO : forall q m, qubit_of (ix q m) = q.
Variables (G : Type) (g : prng G) (lg : N -> Z).
Hypothesis Hg : prng_ok g.
Hypothesis NN : names_normalized F.

(** Everything that may differ. *)
Record setting := mkSetting { st_arr : list nat -> list nat; st_r : nat -> nat -> G; st_s : bool; st_u : bool; st_d : bool; st_f : option Z; st_opt : nat -> list (list nat) -> path }.
Definition usual (e : setting) : Prop := (forall l, Permutation (st_arr e l) l) /\
  forall i ts, ts <> [] -> (forall xs, In xs ts -> NoDup xs) -> exists cs c, performs (length ts) (st_opt e i ts) cs [c].
Definition prep_gate (e : setting) := prepare_gate F ix qubit_of g lg (st_arr e) (st_r e) (st_s e) (st_u e) (st_d e) (st_f e) (st_opt e).
Definition prep_all (e : setting) := prepare_all F ix qubit_of g lg (st_arr e) (st_r e) (st_s e) (st_u e) (st_d e) (st_f e) (st_opt e).
Definition prep (e : setting) := prepare F ix qubit_of g lg (st_arr e) (st_r e) (st_s e) (st_u e) (st_d e) (st_f e) (st_opt e).

(** The same bits, read in two orders. *)
Definition agree (Q Q' b b' : list nat) : Prop := exists v, bits v /\ b = map v Q /\ b' = map v Q'.
Definition twin_ops (e e' : setting) (Q Q' : list nat) (ops ops' : list (operation K)) : Prop :=
  forall v, bits v -> mirror (agree Q Q') (sample_ops F abs2 (st_arr e) Q ops (map v Q)) (sample_ops F abs2 (st_arr e') Q' ops' (map v Q')).

Lemma gate_twins e e' (circuit gs1 : list gate) h l Q Q' o o' : usual e -> usual e' -> circuit = gs1 ++ h :: l -> NoDup Q -> NoDup Q' ->
  (forall k, In k (gs1 ++ [h]) -> is_gate k /\ unitary F k /\ incl (snd k) Q /\ incl (snd k) Q') -> length (snd h) = 1 \/ permutation_gate F h ->
  prep_gate e circuit (length gs1) h = Ok o -> prep_gate e' circuit (length gs1) h = Ok o' ->
  forall v, bits v -> mirror (agree Q Q') (step_op F abs2 (st_arr e) Q o (map v Q)) (step_op F abs2 (st_arr e') Q' o' (map v Q')).
Proof.
  intros [Ha Hp] [Ha' Hp'] EC NQ NQ' HG H1 E E' v Bv.
  assert (Hh : is_gate h /\ unitary F h /\ incl (snd h) Q /\ incl (snd h) Q') by (apply HG, in_app_iff; right; left; auto). destruct Hh as (Hh & Uh & Ih & Ih').
  destruct (is_classical F (fst h)) eqn:EM.
  - unfold prep_gate, prepare_gate in E, E'. destruct h as [m qs]. cbn [fst snd] in *. rewrite EM in E, E'. injection E as <-. injection E' as <-. cbn [step_op].
    destruct (proj1 (classical_ok NF Hh) EM) as (s & Hs).
    pose proof (@classical_step_ok K F NF (m, qs) s Q v) as X1. pose proof (@classical_step_ok K F NF (m, qs) s Q' v) as X2. cbn [fst snd] in X1, X2. rewrite X1, X2 by auto. constructor. exists (after s qs v). split; [apply after_bits; auto|auto].
  - destruct (@prepare_gate_ok K F NF abs2 MOD ix IX qubit_of QO G g lg (st_arr e) (st_r e) (st_s e) (st_u e) (st_d e) (st_f e) (st_opt e) Hg Ha NN Hp circuit gs1 h l Q EC NQ) as (o1 & E1 & O1); auto.
    { intros k Hk. destruct (HG k Hk) as (? & ? & ? & ?). auto. }
    destruct (@prepare_gate_ok K F NF abs2 MOD ix IX qubit_of QO G g lg (st_arr e') (st_r e') (st_s e') (st_u e') (st_d e') (st_f e') (st_opt e') Hg Ha' NN Hp' circuit gs1 h l Q' EC NQ') as (o2 & E2 & O2); auto.
    { intros k Hk. destruct (HG k Hk) as (? & ? & ? & ?). auto. }
    unfold prep_gate in E, E'. rewrite E in E1. injection E1 as <-. rewrite E' in E2. injection E2 as <-.
    assert (NP : forall s, ~ permutes F h s). { intros s Hs. assert (X : is_classical F (fst h) = true) by (apply (classical_ok NF Hh); exists s; exact Hs). congruence. }
    destruct O1 as [s P _|q Hq _ H]; [destruct (NP s P)|]. destruct O2 as [s P _|q' Hq' _ H']; [destruct (NP s P)|]. assert (q' = q) by congruence. subst q'.
    rewrite (H v Bv), (H' v Bv). cbv zeta. destruct (Req_EM_T _ 0); constructor; constructor; [exists (flip v q)|exists v]; auto. split; [apply flip_bits; auto|auto].
Qed.

Lemma all_twins e e' (circuit : list gate) Q Q' : usual e -> usual e' -> NoDup Q -> NoDup Q' ->
  (forall k, In k circuit -> is_gate k /\ unitary F k /\ incl (snd k) Q /\ incl (snd k) Q') -> (forall k, In k circuit -> length (snd k) = 1 \/ permutation_gate F k) ->
  forall l gs1 ops ops', circuit = gs1 ++ l -> prep_all e circuit (length gs1) l = Ok ops -> prep_all e' circuit (length gs1) l = Ok ops' -> twin_ops e e' Q Q' ops ops'.
Proof.
  intros U U' NQ NQ' HG H1. unfold prep_all, twin_ops. induction l as [|h l IH]; intros gs1 ops ops' EC E E' v Bv; cbn [prepare_all] in E, E'.
  - injection E as <-. injection E' as <-. cbn [sample_ops]. constructor. exists v. auto.
  - destruct (prepare_gate _ _ _ _ _ (st_arr e) _ _ _ _ _ _ _ _ _) as [o|] eqn:P1; cbn [bind] in E; [|discriminate].
    destruct (prepare_all _ _ _ _ _ (st_arr e) _ _ _ _ _ _ _ _ _) as [os|] eqn:P2; cbn [bind] in E; [|discriminate]. injection E as <-.
    destruct (prepare_gate _ _ _ _ _ (st_arr e') _ _ _ _ _ _ _ _ _) as [o'|] eqn:P1'; cbn [bind] in E'; [|discriminate].
    destruct (prepare_all _ _ _ _ _ (st_arr e') _ _ _ _ _ _ _ _ _) as [os'|] eqn:P2'; cbn [bind] in E'; [|discriminate]. injection E' as <-.
    cbn [sample_ops]. eapply mirror_then.
    + eapply (@gate_twins e e' circuit gs1 h l Q Q' o o'); eauto.
      * intros k Hk. apply HG. rewrite EC. apply in_app_iff in Hk. rewrite in_app_iff. destruct Hk as [Hk|[<-|[]]]; [auto|right; left; auto].
      * apply H1. rewrite EC, in_app_iff. right. left. auto.
    + intros x y (w & Bw & -> & ->). apply (IH (gs1 ++ [h])); auto; [rewrite <- app_assoc; auto| |]; rewrite app_length, Nat.add_comm; auto.
Qed.
Lemma many_twins e e' Q Q' ops ops' : twin_ops e e' Q Q' ops ops' -> forall n,
  mirror (Forall2 (agree Q Q')) (sample_many F abs2 (st_arr e) Q ops n) (sample_many F abs2 (st_arr e') Q' ops' n).
Proof.
  intros T. induction n as [|n IH]; cbn [sample_many]; [constructor; constructor|]. eapply mirror_then.
  - rewrite <- (map_zero Q), <- (map_zero Q'). apply T. intros x. lia.
  - intros x y H. eapply mirror_then; [exact IH|]. intros xs ys Hs. constructor. constructor; auto.
Qed.

(** Two preparations of a circuit. *)
Definition covers (circuit : list gate) (Q : list nat) : Prop := NoDup Q /\ forall q, In q Q <-> touches circuit q.
Lemma prepare_cases e circuit qo : usual e -> (forall h, In h circuit -> is_gate h /\ unitary F h) ->
  prep e circuit qo = Err Throw /\ ((exists h, In h circuit /\ length (snd h) <> 1 /\ ~ permutation_gate F h) \/ exists o, qo = Some o /\ ~ forall q, In q o <-> touches circuit q) \/
  (forall h, In h circuit -> length (snd h) = 1 \/ permutation_gate F h) /\ (forall o, qo = Some o -> forall q, In q o <-> touches circuit q) /\
    exists ops, prep e circuit qo = Ok (ops, qubits_of circuit) /\ prep_all e circuit 0 circuit = Ok ops.
Proof.
  intros [Ha Hp] HC. unfold prep, prepare. destruct (forallb (fun h => (length (snd h) =? 1) || is_classical F (fst h)) circuit) eqn:X; cbn [negb].
  2: { left. split; auto. left. apply not_true_iff_false in X. destruct (existsb (fun h => negb ((length (snd h) =? 1) || is_classical F (fst h))) circuit) eqn:Y.
    - apply existsb_exists in Y. destruct Y as (h & Hh & N). apply negb_true_iff, orb_false_iff in N. destruct N as [N1 N2]. exists h. split; auto. apply Nat.eqb_neq in N1. split; auto. intros PG. apply (classical_ok NF (proj1 (HC h Hh))) in PG. congruence.
    - exfalso. apply X. apply forallb_forall. intros h Hh. destruct ((length (snd h) =? 1) || is_classical F (fst h)) eqn:Z; auto. assert (W : existsb (fun h => negb ((length (snd h) =? 1) || is_classical F (fst h))) circuit = true) by (apply existsb_exists; exists h; rewrite Z; auto). congruence. }
  rewrite forallb_forall in X.
  assert (OK1 : forall h, In h circuit -> length (snd h) = 1 \/ permutation_gate F h).
  { intros h Hh. specialize (X h Hh). apply orb_true_iff in X. destruct X as [X|X]; [left; apply Nat.eqb_eq; auto|right; apply (classical_ok NF (proj1 (HC h Hh))); auto]. }
  set (bad := match qo with Some o => _ | None => false end). destruct bad eqn:B.
  - left. split; auto. right. subst bad. destruct qo as [o|]; [|discriminate]. exists o. split; auto. intros H. apply negb_true_iff, andb_false_iff in B. destruct B as [B|B]; apply not_true_iff_false in B; apply B, forallb_forall; intros q Hq; apply memb_In.
    + apply qubits_of_in, H. auto.
    + apply H, qubits_of_in. auto.
  - right. split; auto. split.
    + intros o -> q. subst bad. apply negb_false_iff, andb_true_iff in B. rewrite !forallb_forall in B. destruct B as [B1 B2]. rewrite <- qubits_of_in. split; intros H; apply memb_In; auto.
    + destruct (@prepare_all_ok K F NF abs2 MOD ix IX qubit_of QO G g lg (st_arr e) (st_r e) (st_s e) (st_u e) (st_d e) (st_f e) (st_opt e) Hg Ha NN Hp circuit (qubits_of circuit)) with (l := circuit) (gs1 := @nil gate) as (ops & E & _); auto.
      { apply unique_nodup. } { intros k Hk. split; [apply HC; auto|]. split; [apply HC; auto|]. apply qubits_all. auto. }
      exists ops. cbn [length] in E. unfold prep_all. split; auto. fold M_Circuit.gate in *. rewrite E. auto.
Qed.
Lemma prepare_twins e e' circuit qo qo' : usual e -> usual e' -> (forall h, In h circuit -> is_gate h /\ unitary F h) ->
  forall m m', prep e circuit qo = Ok m -> prep e' circuit qo' = Ok m' -> exists ops ops', m = (ops, qubits_of circuit) /\ m' = (ops', qubits_of circuit) /\
    forall Q Q', covers circuit Q -> covers circuit Q' -> twin_ops e e' Q Q' ops ops'.
Proof.
  intros U U' HC m m' E E'. destruct (prepare_cases qo U HC) as [[E1 _]|(OK & _ & ops & E1 & P1)]; [congruence|]. destruct (prepare_cases qo' U' HC) as [[E2 _]|(_ & _ & ops' & E2 & P2)]; [congruence|].
  exists ops, ops'. split; [congruence|]. split; [congruence|]. intros Q Q' [NQ CQ] [NQ' CQ'].
  apply (@all_twins e e' circuit Q Q') with (l := circuit) (gs1 := @nil gate); auto. intros k Hk. split; [apply HC; auto|]. split; [apply HC; auto|]. split; intros q Hq; [apply CQ|apply CQ']; exists k; auto.
Qed.
End Twins.
