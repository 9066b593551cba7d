(** The simplification of circuits. *)
From Coq Require Import List Arith Lia Permutation Bool Ring.
Import ListNotations.
From Verif Require Import P_Base P_Opt P_PyMain.
From Verif Require Import M_Base M_Path M_PyTree M_OSet M_Tensor M_Contract M_Circuit S_Path S_PyTree S_Random S_Network S_Fuse S_Tensor S_Contract S_Circuit.
From Verif Require Import P_Path P_Split P_PathMain P_PyBuild P_PyTens P_OSet P_Sum P_Array P_Tensordot P_ContractMain P_DecomposeSum P_Circuit P_Gates P_Same.
From Verif Require Import M_Path M_PyTree.
Set Implicit Arguments.
Unset Strict Implicit.

Section Simplify.
Variable K : Type.
Variable F : nums K.
Local Notation A := (n_alg F).
Hypothesis NF : numbers F.
Let SR : semiring A := num_ring _ NF.
Let SR1 : semi_ring_theory (zero A) (one A) (add A) (mul A) eq := num_ring _ NF.
Add Ring KR : SR1.
Let EQ := num_eqb _ NF.
Local Notation two := (fun _ : nat => 2).
Notation so := (sum_over A two).
Variable ix : nat -> mark -> nat.
Hypothesis IX : distinct ix.
Notation gate := (nda K * list nat)%type.

Lemma run_cons g (gs : list gate) psi : run F (g :: gs) psi = run F gs (act F g psi).
Proof. reflexivity. Qed.
Lemma act_ext (g : gate) psi phi : (forall v, bits v -> psi v = phi v) -> forall v, bits v -> act F g psi v = act F g phi v.
Proof.
  intros H v B. unfold act. apply so_ext. intros w Hw Rw. rewrite H; auto. intros x. destruct (in_dec Nat.eq_dec x (snd g)); [apply Rw; auto|rewrite Hw; auto].
Qed.
Lemma run_ext (gs : list gate) : forall psi phi, (forall v, bits v -> psi v = phi v) -> forall v, bits v -> run F gs psi v = run F gs phi v.
Proof. induction gs as [|g gs IH]; intros psi phi H v B; [apply H; auto|]. rewrite !run_cons. apply IH; auto. intros w Bw. apply act_ext; auto. Qed.
Lemma act_scale (g : gate) c psi v : act F g (fun w => mul A c (psi w)) v = mul A c (act F g psi v).
Proof. unfold act. rewrite <- (@so_mul_c K F NF). apply so_ext. intros. ring. Qed.
Lemma run_scale (gs : list gate) c : forall psi v, bits v -> run F gs (fun w => mul A c (psi w)) v = mul A c (run F gs psi v).
Proof.
  induction gs as [|g gs IH]; intros psi v B; [auto|]. rewrite !run_cons. rewrite <- IH by auto. apply run_ext; auto. intros w _. apply act_scale.
Qed.
Lemma run_app (l k : list gate) psi : run F (l ++ k) psi = run F k (run F l psi).
Proof. apply fold_left_app. Qed.
Lemma commute_past (g : gate) Q l : (forall h, In h l -> commuting F h g) -> incl (snd g) Q -> (forall h, In h l -> incl (snd h) Q) ->
  forall psi v, state_of Q psi -> bits v -> act F g (run F l psi) v = run F l (act F g psi) v.
Proof.
  intros C HQ. induction l as [|h l IH]; intros HL psi v HP B; auto. rewrite !run_cons. rewrite IH; auto.
  - apply run_ext; auto. intros w Bw. symmetry. apply (C h (or_introl eq_refl) Q); auto. apply HL. left. auto.
  - intros x Hx. apply C. right. auto.
  - intros x Hx. apply HL. right. auto.
  - apply act_state; auto. apply HL. left. auto.
Qed.

Lemma same_adjoint (h g : gate) : is_gate h -> is_gate g -> nonzero F h -> exists adj b, adjoint F g = Ok adj /\ same F h adj = Ok b /\ (b = true <-> inverses F h g).
Proof.
  intros Hh Hg NZ. destruct (adjoint_ok NF Hg) as (b & Eb & Gb & V). destruct (same_exact NF Hh Gb NZ) as (r & Er & Hr). exists (b, snd g), r. split; auto. split; auto. rewrite Hr. unfold inverses, proportional. cbn [snd].
  assert (X : forall v w, bits v -> bits w -> element F (b, snd g) v w = n_conj F (element F g w v)).
  { intros v w Bv Bw. unfold element. cbn [fst snd]. apply V; apply bits_number; auto. }
  split; intros [H (c & Hc & H')]; (split; [exact H|]); exists c; (split; [exact Hc|]); intros v w Bv Bw; [rewrite <- X by auto|rewrite X by auto]; auto.
Qed.
Definition adj_of (g adj : gate) : Prop := adjoint F g = Ok adj.
Definition goodg (g : gate) : Prop := is_gate g /\ unitary F g.

Lemma find_gate_ok um g adj : goodg g -> adjoint F g = Ok adj -> forall l i, (forall h, In h l -> goodg h) ->
  exists r, find_gate F ix um g adj l i = Ok r /\
  match r with
  | Some j => exists l1 h l2, l = l1 ++ h :: l2 /\ j = i + length l1 /\ inverses F h g /\ (forall x, In x l1 -> commute F ix um x g = Ok true)
  | None => forall l1 h l2, l = l1 ++ h :: l2 -> (forall x, In x l1 -> commute F ix um x g = Ok true) -> ~ inverses F h g
  end.
Proof.
  intros [Gg Ug] Ea. induction l as [|h l IH]; intros i HL; cbn [find_gate].
  - exists None. split; auto. intros [|] h l2 E; discriminate.
  - destruct (HL h (or_introl eq_refl)) as [Gh Uh]. destruct (same_adjoint Gh Gg (unitary_nonzero NF Gh Uh)) as (adj' & b & Ea' & Eb & Hb).
    rewrite Ea in Ea'. inversion Ea'; subst adj'. rewrite Eb. cbn [bind]. destruct b.
    + exists (Some i). split; auto. exists [], h, l. split; auto. split; [simpl; lia|]. split; [apply Hb; auto|]. intros x [].
    + destruct (commute_exact SR EQ IX Gh Gg um) as (c & Ec & _). rewrite Ec. cbn [bind]. destruct c; cbn [negb].
      * destruct (IH (S i)) as (r & Er & Hr). { intros x Hx. apply HL. right. auto. } exists r. split; auto. destruct r as [j|].
        -- destruct Hr as (l1 & h' & l2 & -> & -> & Hi & Hc). exists (h :: l1), h', l2. split; auto. split; [simpl; lia|]. split; auto. intros x [<-|Hx]; auto.
        -- intros [|x l1] h' l2 E Hc Hi; inversion E; subst; [apply Hb in Hi; discriminate|]. apply (Hr l1 h' l2); auto. intros y Hy. apply Hc. right. auto.
      * exists None. split; auto. intros [|x l1] h' l2 E Hc Hi; inversion E; subst; [apply Hb in Hi; discriminate|]. specialize (Hc x (or_introl eq_refl)). congruence.
Qed.

Definition equivalent (c : K) (l k : list gate) : Prop := forall Q psi v, (forall g, In g l -> incl (snd g) Q) -> state_of Q psi -> bits v -> run F l psi v = mul A c (run F k psi v).
Lemma phase_one : phase F (one A).
Proof. unfold phase. rewrite (conj_one NF). ring. Qed.
Lemma phase_mul x y : phase F x -> phase F y -> phase F (mul A x y).
Proof. unfold phase. intros Hx Hy. rewrite (conj_mul _ NF). transitivity (mul A (mul A x (n_conj F x)) (mul A y (n_conj F y))); [ring|]. rewrite Hx, Hy. ring. Qed.

Lemma pop_mid (B : Type) (l k : list B) x : pop (l ++ x :: k) (length l) = Ok (x, l ++ k).
Proof. induction l as [|y l IH]; [auto|]. cbn [app length pop]. rewrite IH. auto. Qed.

Lemma pass_ok um : forall circuit kept ch, (forall g, In g (kept ++ circuit) -> goodg g) -> exists kept' ch', simplify_pass F ix um circuit kept ch = Ok (kept', ch') /\
  incl kept' (kept ++ circuit) /\ length kept' <= length (kept ++ circuit) /\ (exists c, phase F c /\ equivalent c (kept ++ circuit) kept') /\
  (ch' = true -> ch = false -> length kept' < length (kept ++ circuit)) /\
  (ch' = false -> ch = false /\ kept' = kept ++ circuit /\
    forall p g s l1 h l2, circuit = p ++ g :: s -> kept ++ p = l2 ++ h :: l1 -> (forall x, In x l1 -> commute F ix um x g = Ok true) -> ~ inverses F h g).
Proof.
  induction circuit as [|g circuit IH]; intros kept ch HG; cbn [simplify_pass].
  - exists kept, ch. rewrite app_nil_r. split; auto. split; [apply incl_refl|]. split; auto. split.
    { exists (one A). split; [apply phase_one|]. intros Q psi v _ _ _. ring. }
    split; [congruence|]. intros ->. split; auto. split; auto. intros [|] ? ? ? ? ? E; discriminate.
  - assert (Gg : goodg g) by (apply HG, in_app_iff; simpl; auto). assert (GK : forall h, In h (rev kept) -> goodg h) by (intros h Hh; apply in_rev in Hh; apply HG, in_app_iff; auto).
    destruct (adjoint_ok NF (proj1 Gg)) as (b & Ea & _). rewrite Ea. cbn [bind].
    destruct (find_gate_ok um Gg Ea 0 GK) as (r & Er & Hr). unfold M_Circuit.gate in *. rewrite Er. cbn [bind]. destruct r as [j|].
    + destruct Hr as (l1 & h & l2 & E & -> & (Qs & c & Hc & V) & Co).
      assert (EK : kept = rev l2 ++ h :: rev l1). { rewrite <- (rev_involutive kept), E, rev_app_distr. cbn [rev]. rewrite <- app_assoc. auto. }
      assert (EL : length kept - (0 + length l1) - 1 = length (rev l2)). { rewrite EK, app_length. cbn [length]. rewrite !rev_length. lia. }
      assert (EP : pop kept (length kept - (0 + length l1) - 1) = Ok (h, rev l2 ++ rev l1)) by (rewrite EL, EK; apply pop_mid). rewrite EP. cbn [bind].
      assert (Gh : goodg h) by (apply HG; rewrite EK, <- app_assoc; apply in_app_iff; simpl; auto).
      assert (IN : forall x, In x ((rev l2 ++ rev l1) ++ circuit) -> In x (kept ++ g :: circuit)) by (intros x; rewrite EK, !in_app_iff; simpl; tauto).
      destruct (IH (rev l2 ++ rev l1) true) as (k' & ch' & Ep & I1 & I2 & (c' & P' & Eq') & _ & I4).
      { intros x Hx. apply HG, IN, Hx. }
      exists k', ch'. split; auto. split; [|split; [|split; [|split]]].
      * intros x Hx. apply IN, I1, Hx.
      * rewrite EK. rewrite !app_length in *. cbn [length] in *. lia.
      * exists (mul A c c'). pose proof (cancel_phase NF (proj1 Gh) (proj1 Gg) (proj2 Gg) Qs V (proj2 Gh)) as Pc. split; [apply phase_mul; auto|].
        intros Q psi v HQ HP B. rewrite EK in HQ |- *. rewrite <- app_assoc. cbn [app]. rewrite run_app. rewrite !run_cons.
        set (phi := run F (rev l2) psi). rewrite run_app. rewrite !run_cons.
        assert (Hphi : state_of Q phi). { apply run_state; auto. intros x Hx. apply HQ. apply in_app_iff. left. apply in_app_iff. auto. }
        assert (HQg : incl (snd g) Q) by (apply HQ; apply in_app_iff; simpl; auto).
        assert (HQh : incl (snd h) Q) by (apply HQ; apply in_app_iff; left; apply in_app_iff; simpl; auto).
        rewrite (@run_ext circuit _ (fun w => mul A c (run F (rev l1) phi w))); auto.
        -- rewrite run_scale by auto. specialize (Eq' Q psi v). rewrite <- app_assoc, run_app, run_app in Eq'. fold phi in Eq'. rewrite Eq'; auto; [ring|].
           intros x Hx. apply HQ. rewrite !in_app_iff in *. simpl. tauto.
        -- intros w Bw. rewrite (@commute_past g Q); auto.
           ++ rewrite <- run_scale by auto. apply run_ext; auto. intros u Bu. apply (cancel NF IX (proj1 Gh) (proj1 Gg) (proj2 Gg) Qs V HQg Hphi Bu).
           ++ intros x Hx. apply in_rev in Hx. assert (Gx : goodg x) by (apply HG; rewrite EK; apply in_app_iff; left; apply in_app_iff; right; right; apply -> in_rev; auto).
              destruct (commute_exact SR EQ IX (proj1 Gx) (proj1 Gg) um) as (cb & Ec & Hcb & _). apply Hcb. rewrite (Co x Hx) in Ec. congruence.
           ++ intros x Hx. apply HQ. apply in_app_iff. left. apply in_app_iff. simpl. auto.
           ++ apply act_state; auto.
      * intros _ _. rewrite EK. rewrite !app_length in *. cbn [length] in *. lia.
      * intros Hch. destruct (I4 Hch) as [Z _]. discriminate.
    + destruct (IH (kept ++ [g]) ch) as (k' & ch' & Ep & I1 & I2 & I3 & I3' & I4). { intros x Hx. apply HG. rewrite <- app_assoc in Hx. auto. }
      rewrite <- app_assoc in *. cbn [app] in *. exists k', ch'. split; auto. split; auto. split; auto. split; auto. split; auto.
      intros Hch. destruct (I4 Hch) as (-> & -> & H). split; auto. split; auto. intros [|p0 p] g' s l1 h l2 E1 E2 Hc; inversion E1; subst.
      * rewrite app_nil_r in E2. subst kept. apply (Hr (rev l1) h (rev l2)); [rewrite rev_app_distr; cbn [rev]; rewrite <- app_assoc; auto|]. intros x Hx. apply Hc. apply in_rev. auto.
      * apply (H p g' s l1 h l2); auto. rewrite <- app_assoc. auto.
Qed.

Lemma loop_ok um : forall fuel circuit n, length circuit < fuel -> (forall g, In g circuit -> goodg g) -> exists gs m, simplify_loop F ix fuel um circuit n = Ok (gs, m) /\
  incl gs circuit /\ (exists c, phase F c /\ equivalent c circuit gs) /\
  (forall p g s l1 h l2, gs = p ++ g :: s -> p = l2 ++ h :: l1 -> (forall x, In x l1 -> commute F ix um x g = Ok true) -> ~ inverses F h g).
Proof.
  induction fuel as [|fuel IH]; intros circuit n HF HG; [lia|]. cbn [simplify_loop]. destruct (@pass_ok um circuit [] false HG) as (k & ch & E & I1 & I2 & (c & P & Eq) & I3 & I4). cbn [app] in *. unfold M_Circuit.gate in *. rewrite E. cbn [bind]. destruct ch.
  - destruct (IH k (S n)) as (gs & m & El & J1 & (c' & P' & Eq') & J3). { specialize (I3 eq_refl eq_refl). lia. } { intros g Hg. auto. }
    exists gs, m. split; auto. split; [eapply incl_tran; eauto|]. split; auto. exists (mul A c c'). split; [apply phase_mul; auto|].
    intros Q psi v HQ HP B. rewrite (Eq Q psi v), (Eq' Q psi v); auto. ring.
  - destruct (I4 eq_refl) as (_ & -> & H). exists circuit, n. split; auto. split; [apply incl_refl|]. split; [exists c; auto|]. intros p g s l1 h l2 E1 E2. apply (H p g s l1 h l2); auto.
Qed.

(** Identities do nothing. *)
Lemma eye_gate q : is_gate (eye F, [q]).
Proof. repeat split; cbn; auto; try discriminate. constructor; [intros []|constructor]. Qed.
Lemma eye_element q v w : bits v -> bits w -> element F (eye F, [q]) v w = if v q =? w q then one A else zero A.
Proof.
  intros Bv Bw. unfold element. cbn [fst snd map]. unfold number. cbn [fold_left]. specialize (Bv q). specialize (Bw q). destruct (v q) as [|[|]], (w q) as [|[|]]; try lia; reflexivity.
Qed.
Lemma eye_acts q Q psi v : In q Q -> state_of Q psi -> bits v -> act F (eye F, [q]) psi v = psi v.
Proof.
  intros Hq HP B. unfold act. cbn [snd]. transitivity (so [q] (fun w => mul A (psi w) (if forallb (fun x => w x =? v x) [q] then one A else zero A)) v).
  - apply so_ext. intros w Hw Rw. assert (Bw : bits w) by (intros x; destruct (in_dec Nat.eq_dec x [q]); [apply Rw; auto|rewrite Hw; auto]). rewrite eye_element by auto. cbn [forallb]. rewrite (Nat.eqb_sym (w q)). destruct (v q =? w q); cbn [andb]; ring.
  - rewrite (@so_delta K F SR [q] v psi Q); auto. { apply HP. intros x _. unfold update. destruct (memb x [q]); auto. } { constructor; [intros []|constructor]. }
Qed.
Lemma eye_unitary q : unitary F (eye F, [q]).
Proof.
  intros i j Hi Hj. cbn in Hi, Hj. destruct i as [|[|]], j as [|[|]]; try lia; cbn; rewrite ?(conj_zero NF), ?(conj_one NF); split; ring.
Qed.

Lemma eyes_run Q qs psi v : incl qs Q -> state_of Q psi -> bits v -> run F (map (fun q => (eye F, [q])) qs) psi v = psi v.
Proof.
  revert psi v. induction qs as [|q qs IH]; intros psi v HQ HP B; auto. cbn [map]. rewrite run_cons.
  rewrite IH; auto. { apply eye_acts with (Q := Q); auto. apply HQ. left. auto. } { intros x Hx. apply HQ. right. auto. } { apply act_state; auto. intros x [<-|[]]. apply HQ. left. auto. }
Qed.

Theorem final_gates_ok um circuit : (forall g, In g circuit -> is_gate g /\ unitary F g) ->
  exists gs ids n c, final_gates F ix true um circuit = Ok (gs ++ map (fun q => (eye F, [q])) ids, n) /\ phase F c /\
  incl gs circuit /\
  (forall q, touches (gs ++ map (fun q => (eye F, [q])) ids) q <-> touches circuit q) /\
  (forall Q psi v, (forall q, touches circuit q -> In q Q) -> state_of Q psi -> bits v -> run F circuit psi v = mul A c (run F (gs ++ map (fun q => (eye F, [q])) ids) psi v)) /\
  (forall l2 h l1 g s, gs = l2 ++ h :: l1 ++ g :: s -> (forall x, In x l1 -> commute F ix um x g = Ok true) -> ~ inverses F h g) /\
  (forall q, In q ids -> ~ touches gs q).
Proof.
  intros HG. unfold final_gates. destruct (@loop_ok um (S (length circuit)) circuit 0 (Nat.lt_succ_diag_r _) HG) as (gs & n & E & I & (c & P & Eq) & M). unfold M_Circuit.gate in *. rewrite E. cbn [bind].
  set (ids := filter _ (qubits_of circuit)). exists gs, ids, n, c. split; auto. split; auto. split; auto.
  assert (QO : forall q, In q (qubits_of circuit) <-> touches circuit q).
  { intros q. unfold qubits_of, touches. rewrite unique_in, in_concat. split.
    - intros (l & Hl & Hq). apply in_map_iff in Hl. destruct Hl as (g & <- & Hg). eauto.
    - intros (g & Hg & Hq). exists (snd g). split; auto. apply in_map. auto. }
  assert (IDS : forall q, In q ids -> touches circuit q) by (intros q Hq; apply filter_In in Hq; apply QO, Hq).
  split; [|split; [|split]].
  - intros q. split.
    + intros (g & Hg & Hq). apply in_app_iff in Hg. destruct Hg as [Hg|Hg]; [exists g; auto|]. apply in_map_iff in Hg. destruct Hg as (q' & <- & Hq'). destruct Hq as [<-|[]]. auto.
    + intros Hq. destruct (memb q (concat (map snd gs))) eqn:Mq.
      * apply memb_In, in_concat in Mq. destruct Mq as (l & Hl & Hq'). apply in_map_iff in Hl. destruct Hl as (g & <- & Hg). exists g. split; auto. apply in_app_iff. auto.
      * exists (eye F, [q]). split; [|left; auto]. apply in_app_iff. right. apply in_map_iff. exists q. split; auto. apply filter_In. rewrite Mq. split; auto. apply QO. auto.
  - intros Q psi v HQ HP B. assert (HC : forall g, In g circuit -> incl (snd g) Q) by (intros g Hg q Hq; apply HQ; exists g; auto).
    rewrite (Eq Q psi v HC HP B). f_equal. rewrite run_app. symmetry. apply eyes_run with (Q := Q); auto. { intros q Hq. auto. } { apply run_state; auto. }
  - intros l2 h l1 g s Hs Hc. apply (M (l2 ++ h :: l1) g s l1 h l2); auto. rewrite <- app_assoc. auto.
  - intros q Hq (g & Hg & Hq'). apply filter_In in Hq. destruct Hq as [_ Hq]. apply negb_true_iff, memb_nIn in Hq. apply Hq, in_concat. exists (snd g). split; auto. apply in_map. auto.
Qed.
End Simplify.

Section Final.
Variable K : Type.
Variable F : nums K.
Variable ix : nat -> mark -> nat.
Notation gate := (nda K * list nat)%type.
Lemma commute_decides um (g h : gate) : numbers F -> distinct ix -> is_gate g -> is_gate h ->
  exists b, commute F ix um g h = Ok b /\ (b = true <-> if um then commuting F g h else forall q, In q (snd g) -> ~ In q (snd h)).
Proof.
  intros NF IX Hg Hh. destruct (commute_exact (num_ring _ NF) (num_eqb _ NF) IX Hg Hh um) as (b & E & H1 & H2 & H3). exists b. split; auto. destruct um.
  - split; auto.
  - split; [intros Hb; destruct (H3 Hb); auto; discriminate|]. intros D. rewrite commute_unfold, (is_gate_valid Hg), (is_gate_valid Hh) in E. cbn [negb] in E. cbv zeta in E.
    assert (Z : filter (fun q => memb q (snd h)) (snd g) = []).
    { destruct (filter _ _) as [|q l] eqn:Ef; auto. assert (I : In q (filter (fun q => memb q (snd h)) (snd g))) by (rewrite Ef; left; auto). apply filter_In in I. destruct I as [I1 I2]. apply memb_In in I2. exfalso. apply (D q); auto. }
    rewrite Z in E. cbn [length Nat.eqb] in E. congruence.
Qed.
Lemma simplification_keeps_operator_ um (circuit : list gate) : numbers F -> distinct ix -> (forall g, In g circuit -> is_gate g /\ unitary F g) ->
  exists gs passes c, final_gates F ix true um circuit = Ok (gs, passes) /\ phase F c /\
    (forall q, touches gs q <-> touches circuit q) /\
    (forall g, In g gs -> is_gate g /\ unitary F g) /\
    (forall Q psi v, (forall q, touches circuit q -> In q Q) -> state_of Q psi -> bits v ->
       run F circuit psi v = mul (n_alg F) c (run F gs psi v)).
Proof.
  intros NF IX HG. destruct (final_gates_ok NF IX um HG) as (gs & ids & n & c & E & P & I & T & R & _). eexists _, n, c. split; [exact E|]. split; auto. split; auto. split; auto.
  intros g Hg. apply in_app_iff in Hg. destruct Hg as [Hg|Hg]; [auto|]. apply in_map_iff in Hg. destruct Hg as (q & <- & _). split; [apply eye_gate|apply eye_unitary; auto].
Qed.
Lemma nothing_left_ um (circuit : list gate) : numbers F -> distinct ix -> (forall g, In g circuit -> is_gate g /\ unitary F g) ->
  exists gs ids passes, final_gates F ix true um circuit = Ok (gs ++ ids, passes) /\ incl gs circuit /\
    (forall g, In g ids -> exists q, snd g = [q] /\ ~ touches gs q /\ forall v w, bits v -> bits w -> element F g v w = if v q =? w q then one (n_alg F) else zero (n_alg F)) /\
    (forall before h between g after, gs = before ++ h :: between ++ g :: after ->
       (forall x, In x between -> if um then commuting F x g else forall q, In q (snd x) -> ~ In q (snd g)) -> ~ inverses F h g).
Proof.
  intros NF IX HG. destruct (final_gates_ok NF IX um HG) as (gs & ids & n & c & E & P & I & T & R & M & U). eexists gs, _, n. split; [exact E|]. split; auto. split.
  - intros g Hg. apply in_map_iff in Hg. destruct Hg as (q & <- & Hq). exists q. split; auto. split; [apply U; auto|]. intros v w Bv Bw. apply eye_element; auto.
  - intros l2 h l1 g s Hs Hc. apply (M l2 h l1 g s Hs). intros x Hx.
    assert (Gx : In x gs) by (rewrite Hs; apply in_app_iff; right; right; apply in_app_iff; auto).
    assert (Gg : In g gs) by (rewrite Hs; apply in_app_iff; right; right; apply in_app_iff; right; left; auto).
    destruct (commute_decides um NF IX (proj1 (HG x (I x Gx))) (proj1 (HG g (I g Gg)))) as (b & Eb & Hb). rewrite Eb. f_equal. apply Hb. apply Hc. auto.
Qed.
Lemma invalid_gates_ um (g h : gate) :
  (snd g = [] \/ ~ NoDup (snd g) \/ shape (fst g) <> [2 ^ length (snd g); 2 ^ length (snd g)] \/
   snd h = [] \/ ~ NoDup (snd h) \/ shape (fst h) <> [2 ^ length (snd h); 2 ^ length (snd h)]) ->
  same F g h = Err Throw /\ commute F ix um g h = Err Throw.
Proof.
  intros H. assert (V : valid_gate g && valid_gate h = false). { apply not_true_iff_false. intros V. apply andb_true_iff in V. destruct V as [V1 V2]. apply valid_gate_ok in V1, V2. tauto. }
  destruct (same_invalid F ix V) as [H1 H2]. auto.
Qed.
End Final.
Definition simplification_keeps_operator K F ix um circuit := @simplification_keeps_operator_ K F ix um circuit.
Definition nothing_left K F ix um circuit := @nothing_left_ K F ix um circuit.
Definition invalid_gates K F ix um g h := @invalid_gates_ K F ix um g h.
