(** Proofs about seeds: more runs and more steps. *)
From Coq Require Import List Arith Bool Lia ZArith Permutation Sorted.
Import ListNotations.
From Verif Require Import M_Base M_Bitset M_Tree M_CTree M_Cost M_Opt M_InfMem M_FinWidth M_Path M_PyTree M_PyNodes M_Random
  M_App M_Parallel M_Tensor M_TnApp M_LoadTn M_Seed S_Seed S_Parallel S_Random P_Base P_AppMain P_Seed.
Set Implicit Arguments.
Unset Strict Implicit.

(** * The cost of the best tree never grows *)
Ltac unb H :=
  repeat (cbv beta zeta in H;
    match type of H with
    | bind _ _ = Ok _ => let x := fresh "x" in apply bind_ok in H; destruct H as (x & _ & H)
    | Err _ = Ok _ => discriminate H
    | (let '(_, _) := ?p in _) = Ok _ => destruct p
    | (match ?x with _ => _ end) = Ok _ => destruct x
    end).

Section Lower.
Variable R : Type.
Lemma im_iter_min rd (s : im_state R) t b s' x : im_iter rd s t b = Ok (s', x) -> im_min s' = im_min s.
Proof.
  unfold im_iter. intros H. unb H; inversion H; subst; reflexivity.
Qed.
Lemma im_loop_min rd f : forall (s : im_state R) t b s', im_loop rd f s t b = Ok s' -> im_min s' = im_min s.
Proof.
  induction f as [|f IH]; intros s t b s' H; [discriminate|]. cbn [im_loop] in H. apply bind_ok in H. destruct H as ((s1 & nxt) & E & H).
  apply im_iter_min in E. destruct nxt as [(t1 & b1)|]; [apply IH in H; congruence|inversion H; subst; auto].
Qed.
Lemma im_update_le rd (s s' : im_state R) : im_update rd s = Ok s' -> (im_min s' <= im_min s)%Z.
Proof.
  unfold im_update. destruct (draw rd (im_rng s)) as (x & r0). cbv zeta. intros H. apply bind_ok in H. destruct H as (n & _ & H).
  destruct (par n) as [b|]; [|inversion H; subst; simpl; lia].
  apply bind_ok in H. destruct H as (t & _ & H). apply bind_ok in H. destruct H as (s1 & E & H). apply im_loop_min in E. simpl in E.
  unfold im_update_min in H. apply bind_ok in H. destruct H as (tc & _ & H). rewrite <- E. destruct (Z.ltb_spec tc (im_min s1)); inversion H; subst; simpl; lia.
Qed.
Lemma im_run_le : forall rds (s s' : im_state R), im_run rds s = Ok s' -> (im_min s' <= im_min s)%Z.
Proof.
  induction rds as [|rd rds IH]; intros s s' H; [inversion H; subst; lia|]. cbn [im_run] in H. apply bind_ok in H. destruct H as (s1 & E & H).
  apply im_update_le in E. apply IH in H. lia.
Qed.
Lemma im_run_app : forall l1 l2 (s : im_state R), im_run (l1 ++ l2) s = bind (im_run l1 s) (im_run l2).
Proof.
  induction l1 as [|rd l1 IH]; intros l2 s; auto. cbn [im_run app]. destruct (im_update rd s); cbn [bind]; auto.
Qed.

Lemma fw_iter_min lg fr (s : fw_state R) t b s' x : fw_iter lg fr s t b = Ok (s', x) -> fw_min s' = fw_min s.
Proof.
  unfold fw_iter. intros H. unb H; inversion H; subst; reflexivity.
Qed.
Lemma fw_loop_min lg fr f : forall (s : fw_state R) t b s', fw_loop lg fr f s t b = Ok s' -> fw_min s' = fw_min s.
Proof.
  induction f as [|f IH]; intros s t b s' H; [discriminate|]. cbn [fw_loop] in H. apply bind_ok in H. destruct H as ((s1 & nxt) & E & H).
  apply fw_iter_min in E. destruct nxt as [(t1 & b1)|]; [apply IH in H; congruence|inversion H; subst; auto].
Qed.
Lemma fw_update_le lg fr b (s s' : fw_state R) : fw_update lg fr b s = Ok s' -> (fw_min s' <= fw_min s)%Z.
Proof.
  unfold fw_update. destruct (draw (fr_base fr) (fw_rng s)) as (x & r0). cbv zeta. intros H. apply bind_ok in H. destruct H as (n & _ & H).
  destruct (par n) as [p|]; [|inversion H; subst; simpl; lia].
  apply bind_ok in H. destruct H as (t & _ & H). apply bind_ok in H. destruct H as (s1 & E & H). apply fw_loop_min in E. simpl in E.
  apply bind_ok in H. destruct H as (s2 & E2 & H).
  assert (E3 : fw_min s2 = fw_min s1). { unfold fw_reslice in E2. unb E2; inversion E2; subst; reflexivity. }
  unfold fw_update_min in H. apply bind_ok in H. destruct H as (tc & _ & H). rewrite <- E, <- E3.
  destruct (Z.ltb_spec tc (fw_min s2)); inversion H; subst; simpl; lia.
Qed.
Lemma fw_run_le lg : forall us (s s' : fw_state R), fw_run lg us s = Ok s' -> (fw_min s' <= fw_min s)%Z.
Proof.
  induction us as [|(fr & b) us IH]; intros s s' H; [inversion H; subst; lia|]. cbn [fw_run] in H. apply bind_ok in H. destruct H as (s1 & E & H).
  apply fw_update_le in E. apply IH in H. lia.
Qed.
Lemma fw_run_app lg : forall l1 l2 (s : fw_state R), fw_run lg (l1 ++ l2) s = bind (fw_run lg l1 s) (fw_run lg l2).
Proof.
  induction l1 as [|(fr & b) l1 IH]; intros l2 s; auto. cbn [fw_run app]. destruct (fw_update lg fr b s); cbn [bind]; auto.
Qed.
Lemma numbered_app (B : Type) (rule : B -> frand R) u : forall l1 l2 n, numbered_steps rule u n (l1 ++ l2) = numbered_steps rule u n l1 ++ numbered_steps rule u (n + length l1) l2.
Proof.
  induction l1 as [|b l1 IH]; intros l2 n; cbn [app numbered_steps length]; [rewrite Nat.add_0_r; auto|]. rewrite IH. do 3 f_equal. lia.
Qed.
End Lower.

(** * Sorted lists *)
Section Ranks.
Variables (A : Type) (cost : A -> Z).
Notation le := (fun a b => (cost a <= cost b)%Z).
Notation sorted := (StronglySorted le).
Lemma insert_front x l : sorted (x :: l) -> insert_by cost x l = x :: l.
Proof.
  intros H. inversion H as [|? ? H1 H2]; subst. destruct l as [|y l]; auto. cbn [insert_by]. inversion H2; subst.
  destruct (Z.ltb_spec (cost y) (cost x)); auto. simpl in *. lia.
Qed.
Lemma insert_rank : forall l' l x' x, sorted l' -> sorted l -> Forall2 le l' l -> le x' x -> Forall2 le (insert_by cost x' l') (insert_by cost x l).
Proof.
  induction l' as [|y' m' IH]; intros l x' x S' S F L; inversion F as [|? y ? m F1 F2]; subst; [constructor; auto|].
  inversion S' as [|? ? S1' S2']; subst. inversion S as [|? ? S1 S2]; subst. cbn [insert_by].
  destruct (Z.ltb_spec (cost y') (cost x')) as [L1|L1]; destruct (Z.ltb_spec (cost y) (cost x)) as [L2|L2].
  - constructor; auto.
  - constructor; [simpl in *; lia|]. rewrite <- (insert_front S). apply IH; auto. simpl in *. lia.
  - constructor; [simpl in *; lia|]. rewrite <- (insert_front S'). apply IH; auto. simpl in *. lia.
  - constructor; auto.
Qed.
Lemma sorted_rank l' l : Forall2 le l' l -> Forall2 le (sorted_by cost l') (sorted_by cost l).
Proof.
  induction 1 as [|x' x l' l H F IH]; [constructor|]. unfold sorted_by in *. cbn [fold_right]. apply insert_rank; auto; apply sorted_by_sorted.
Qed.
Lemma sorted_more l1 l2 r rest : sorted_by cost l1 = r :: rest ->
  exists r' rest', sorted_by cost (l1 ++ l2) = r' :: rest' /\ (cost r' <= cost r)%Z.
Proof.
  intros E. assert (Hr : In r (l1 ++ l2)).
  { apply in_or_app. left. apply (Permutation_in r (sorted_by_perm cost l1)). rewrite E. left. auto. }
  apply (Permutation_in r (Permutation_sym (sorted_by_perm cost (l1 ++ l2)))) in Hr.
  pose proof (sorted_by_sorted cost (l1 ++ l2)) as HS. destruct (sorted_by cost (l1 ++ l2)) as [|r' rest']; [destruct Hr|].
  exists r', rest'. split; auto. inversion HS as [|? ? H1 H2]; subst. destruct Hr as [-> |Hr]; [lia|]. rewrite Forall_forall in H2. apply (H2 _ Hr).
Qed.
End Ranks.

(** * More steps *)
Lemma each_le (A : Type) (le : A -> A -> Prop) (f f' : nat -> path -> res A) : 
  (forall k p x x', f k p = Ok x -> f' k p = Ok x' -> le x' x) ->
  forall ps k xs xs', each f k ps = Ok xs -> each f' k ps = Ok xs' -> Forall2 le xs' xs.
Proof.
  intros Hf. induction ps as [|p ps IH]; intros k xs xs' H H'; cbn [each] in *; [inversion H; inversion H'; subst; constructor|].
  apply bind_ok in H. destruct H as (x & E & H). apply bind_ok in H. destruct H as (ys & Es & H). inversion H; subst.
  apply bind_ok in H'. destruct H' as (x' & E' & H'). apply bind_ok in H'. destruct H' as (ys' & Es' & H'). inversion H'; subst.
  constructor; eauto.
Qed.
Lemma zsum_le : forall l' l, Forall2 Z.le l' l -> (zsum l' <= zsum l)%Z.
Proof. induction 1; cbn [zsum fold_right] in *; [lia|]. unfold zsum in *. lia. Qed.

Section Steps.
Variables (ts : list (list nat)) (d : pydims) (out sparse : list nat) (np : option Z) (P R B : Type) (g : prng P) (pick : list nat -> nat).

Definition goes_on (betas betas' : list B) (n n' : option nat) (stop stop' : nat) : Prop :=
  exists extra, performed betas' n' stop' = performed betas n stop ++ extra.

Lemma im_component_le (rule : B -> rand R) betas betas' n n' r0 stop stop' p x x' : goes_on betas betas' n n' stop stop' ->
  im_component ts d out sparse np rule betas n r0 stop p = Ok x -> im_component ts d out sparse np rule betas' n' r0 stop' p = Ok x' -> (fst x' <= fst x)%Z.
Proof.
  intros (extra & E). unfold im_component. destruct (length p =? 0). { intros H H'. inversion H; inversion H'; subst. lia. }
  destruct (pytree_make p ts d (Some out) true) as [t|]; cbn [bind]; [|discriminate].
  destruct (get_core sparse np (inds_order t)) as [m|]; cbn [bind]; [|discriminate].
  destruct (im_make (core t) m r0 false None) as [s0|]; cbn [bind]; [|discriminate].
  rewrite E, map_app, im_run_app. destruct (im_run (map rule (performed betas n stop)) s0) as [s|]; cbn [bind]; [|discriminate].
  destruct (im_run (map rule extra) s) as [s'|] eqn:E2; cbn [bind]; [|discriminate]. apply im_run_le in E2.
  intros H H'. unb H. unb H'. inversion H; inversion H'; subst. auto.
Qed.
Lemma im_core_le (rule : B -> rand R) betas betas' n n' r r0 stop stop' x x' : (forall k, goes_on betas betas' n n' (stop k) (stop' k)) ->
  im_core ts d out sparse np g pick rule betas n r r0 stop = Ok x -> im_core ts d out sparse np g pick rule betas' n' r r0 stop' = Ok x' -> (ir_cost x' <= ir_cost x)%Z.
Proof.
  intros HG. unfold im_core. destruct (random_paths g pick ts r) as [ps|]; cbn [bind]; [|discriminate]. intros H H'.
  apply bind_ok in H. destruct H as (xs & E & H). apply bind_ok in H'. destruct H' as (xs' & E' & H').
  assert (F : Forall2 (fun a b : Z * path => (fst a <= fst b)%Z) xs' xs).
  { eapply each_le; [|exact E|exact E']. intros k p y y' Hy Hy'. cbv beta in Hy, Hy'. eapply im_component_le; eauto. }
  cbv zeta in H, H'. apply bind_ok in H. destruct H as (q & _ & H). apply bind_ok in H'. destruct H' as (q' & _ & H'). inversion H; inversion H'; subst. simpl.
  apply zsum_le. clear - F. induction F; constructor; auto.
Qed.

Lemma fw_component_le lg mx fr0 (rule : B -> frand R) u betas betas' n n' r0 stop stop' p x x' : goes_on betas betas' n n' stop stop' ->
  fw_component ts d out sparse np lg mx fr0 rule betas n u r0 stop p = Ok x -> fw_component ts d out sparse np lg mx fr0 rule betas' n' u r0 stop' p = Ok x' -> (fst (fst x') <= fst (fst x))%Z.
Proof.
  intros (extra & E). unfold fw_component. destruct (length p =? 0). { intros H H'. inversion H; inversion H'; subst. lia. }
  destruct (pytree_make p ts d (Some out) true) as [t|]; cbn [bind]; [|discriminate].
  destruct (get_core sparse np (inds_order t)) as [m|]; cbn [bind]; [|discriminate].
  destruct (fmodel_make m mx) as [fm|]; cbn [bind]; [|discriminate].
  destruct (py_fw_make lg fr0 (core t) fm 0 r0 false _ None None None) as [s0|]; cbn [bind]; [|discriminate]. cbv zeta.
  set (go := fun bs => match bs, u with _ :: _, O => Err Crash | _, _ => fw_run lg (numbered_steps rule u 0 bs) s0 end).
  assert (HG : forall s s', go (performed betas n stop) = Ok s -> go (performed betas' n' stop') = Ok s' -> (fw_min s' <= fw_min s)%Z).
  { intros s s' H H'. rewrite E in H'.
    assert (K : forall bs s, go bs = Ok s -> fw_run lg (numbered_steps rule u 0 bs) s0 = Ok s).
    { intros bs y Hy. unfold go in Hy. destruct bs; auto. destruct u; auto. discriminate. }
    apply K in H. apply K in H'. rewrite numbered_app, fw_run_app, H in H'. cbn [bind] in H'. apply fw_run_le in H'. auto. }
  intros H H'. apply bind_ok in H. destruct H as (s & E1 & H). apply bind_ok in H'. destruct H' as (s' & E1' & H').
  specialize (HG _ _ E1 E1'). unb H. unb H'. inversion H; inversion H'; subst. auto.
Qed.
Lemma fw_core_le lg mx fr0 (rule : B -> frand R) u betas betas' n n' r r0 stop stop' x x' : (forall k, goes_on betas betas' n n' (stop k) (stop' k)) ->
  fw_core ts d out sparse np g pick lg mx fr0 rule betas n u r r0 stop = Ok x -> fw_core ts d out sparse np g pick lg mx fr0 rule betas' n' u r r0 stop' = Ok x' -> (fr_cost x' <= fr_cost x)%Z.
Proof.
  intros HG. unfold fw_core. destruct (random_paths g pick ts r) as [ps|]; cbn [bind]; [|discriminate]. intros H H'.
  apply bind_ok in H. destruct H as (xs & E & H). apply bind_ok in H'. destruct H' as (xs' & E' & H').
  assert (F : Forall2 (fun a b : Z * path * list nat => (fst (fst a) <= fst (fst b))%Z) xs' xs).
  { eapply each_le; [|exact E|exact E']. intros k p y y' Hy Hy'. cbv beta in Hy, Hy'. eapply fw_component_le; eauto. }
  cbv zeta in H, H'. apply bind_ok in H. destruct H as (q & _ & H). apply bind_ok in H. destruct H as (l & _ & H).
  apply bind_ok in H'. destruct H' as (q' & _ & H'). apply bind_ok in H'. destruct H' as (l' & _ & H'). inversion H; inversion H'; subst. simpl.
  apply zsum_le. clear - F. induction F; constructor; auto.
Qed.
End Steps.

Lemma forall2_impl (A X : Type) (Q Q' : A -> X -> Prop) l l' : (forall a x, Q a x -> Q' a x) -> Forall2 Q l l' -> Forall2 Q' l l'.
Proof. intros H. induction 1; constructor; auto. Qed.
Lemma mapM_le (A X : Type) (le : X -> X -> Prop) (f f' : A -> res X) : forall l l' xs xs',
  Forall2 (fun a a' => forall x x', f a = Ok x -> f' a' = Ok x' -> le x' x) l l' -> mapM f l = Ok xs -> mapM f' l' = Ok xs' -> Forall2 le xs' xs.
Proof.
  intros l l' xs xs' F. revert xs xs'. induction F as [|a a' l l' Ha F IH]; intros xs xs' H H'; cbn [mapM] in *; [inversion H; inversion H'; subst; constructor|].
  apply bind_ok in H. destruct H as (x & E & H). apply bind_ok in H. destruct H as (ys & Es & H). inversion H; subst.
  apply bind_ok in H'. destruct H' as (x' & E' & H'). apply bind_ok in H'. destruct H' as (ys' & Es' & H'). inversion H'; subst.
  constructor; eauto.
Qed.
Lemma mapM_app (A X : Type) (f : A -> res X) : forall l1 l2, mapM f (l1 ++ l2) = let! a := mapM f l1 in let! b := mapM f l2 in Ok (a ++ b).
Proof.
  induction l1 as [|x l1 IH]; intros l2; cbn [app mapM bind]; [destruct (mapM f l2); auto|]. destruct (f x) as [y|]; cbn [bind]; auto. rewrite IH.
  destruct (mapM f l1); cbn [bind]; auto. destruct (mapM f l2); auto.
Qed.

(** * Calls *)
Section Calls.
Variables (P R B : Type) (g : prng P) (next32 : P -> nat * P) (py_seed : nat -> P) (cpp_seed : nat -> R) (K : Type) (A : alg K) (eqb : K -> K -> bool) (lg : N -> Z).
Notation imc := (@im_in P R B g next32 py_seed cpp_seed K A eqb lg).
Notation fwc := (@fw_in P R B g next32 py_seed cpp_seed K A eqb lg).

Lemma choices_len k : forall r, length (fst (choices next32 k r)) = k.
Proof.
  induction k as [|k IH]; intros r; auto. cbn [choices]. destruct (next32 r) as (x & r1). specialize (IH r1). destruct (choices next32 k r1). simpl in *. lia.
Qed.
Lemma choices_more k : forall m r, exists more, fst (choices next32 (k + m) r) = fst (choices next32 k r) ++ more.
Proof.
  induction k as [|k IH]; intros m r; [exists (fst (choices next32 m r)); auto|]. cbn [Nat.add choices]. destruct (next32 r) as (x & r1).
  destruct (IH m r1) as (more & E). destruct (choices next32 (k + m) r1) as (l & r2). destruct (choices next32 k r1) as (l' & r3). simpl in *. exists more. congruence.
Qed.

Definition drawn (o : optimizer P) (c : call B K) : list nat := fst (choices next32 (ca_runs c) (op_rng o)).

Lemma im_call_inv rule arr pick es o c tn rs : fst (imc rule (arr, pick, es) o c) = Ok (tn, rs) ->
  load_tn A eqb g lg arr (ca_tn c) (ca_dec c) (ca_fuse c) (py_seed (op_seed o)) = Ok tn /\
  let opt := im_optimize (map (@t_inds K) (n_list (o_net tn))) (py_dims (n_dims (o_net tn))) (n_out (o_net tn)) (n_sparse (o_net tn)) (ca_projs c)
    g pick rule (ca_betas c) (ca_steps c) in
  (exists stops, length stops = length (drawn o c) /\ opt (seeded py_seed cpp_seed (drawn o c) stops) = Ok rs) /\
  (~ In Tick es -> opt (unstopped py_seed cpp_seed (ca_betas c) (drawn o c)) = Ok rs).
Proof.
  unfold im_in, im_call, drawn. destruct (load_tn A eqb g lg arr _ _ _ _) as [tn'|e]; [|discriminate].
  destruct (let! _ := check_steps (ca_steps c) in check_model (n_sparse (o_net tn')) (ca_projs c)); [|discriminate].
  destruct (choices next32 (ca_runs c) (op_rng o)) as (seeds & r). cbn [fst].
  match goal with |- bind ?x _ = _ -> _ => destruct x as [rs'|e] eqn:E end; cbn [bind]; [|discriminate].
  intros H. inversion H; subst. split; auto. cbv zeta.
  destruct (im_parallel_ok E ltac:(discriminate)) as ((stops & L & E1) & E2). split; eauto. intros HT. rewrite <- (E2 HT). auto.
Qed.
Lemma fw_call_inv mx fr0 rule u arr pick es o c tn rs : fst (fwc mx fr0 rule u (arr, pick, es) o c) = Ok (tn, rs) ->
  load_tn A eqb g lg arr (ca_tn c) (ca_dec c) (ca_fuse c) (py_seed (op_seed o)) = Ok tn /\
  let opt := fw_optimize (map (@t_inds K) (n_list (o_net tn))) (py_dims (n_dims (o_net tn))) (n_out (o_net tn)) (n_sparse (o_net tn)) (ca_projs c)
    g pick lg mx fr0 rule (ca_betas c) (ca_steps c) u in
  (exists stops, length stops = length (drawn o c) /\ opt (seeded py_seed cpp_seed (drawn o c) stops) = Ok rs) /\
  (~ In Tick es -> opt (unstopped py_seed cpp_seed (ca_betas c) (drawn o c)) = Ok rs).
Proof.
  unfold fw_in, fw_call, drawn. destruct (load_tn A eqb g lg arr _ _ _ _) as [tn'|e]; [|discriminate].
  destruct (let! _ := check_steps (ca_steps c) in if (mx <? 0)%Z then Err Throw else check_model (n_sparse (o_net tn')) (ca_projs c)); [|discriminate].
  destruct (choices next32 (ca_runs c) (op_rng o)) as (seeds & r). cbn [fst].
  match goal with |- bind ?x _ = _ -> _ => destruct x as [rs'|e] eqn:E end; cbn [bind]; [|discriminate].
  intros H. inversion H; subst. split; auto. cbv zeta.
  destruct (fw_parallel_ok E ltac:(discriminate)) as ((stops & L & E1) & E2). split; eauto. intros HT. rewrite <- (E2 HT). auto.
Qed.

Lemma im_optimize_inv ts d out sparse np pick (rule : B -> rand R) betas n runs rs :
  im_optimize ts d out sparse np g pick rule betas n runs = Ok rs ->
  exists k ys, check_steps n = Ok k /\ mapM (fun x => let '(r, r0, stop) := x in im_core ts d out sparse np g pick rule betas k r r0 stop) runs = Ok ys /\
    rs = sorted_by ir_cost ys.
Proof.
  unfold im_optimize. intros H. apply bind_ok in H. destruct H as (k & Ek & H). apply bind_ok in H. destruct H as (v & _ & H).
  destruct (length runs =? 0); [discriminate|]. apply bind_ok in H. destruct H as (ys & Ey & H). inversion H; subst. eauto.
Qed.
Lemma fw_optimize_inv ts d out sparse np pick mx fr0 (rule : B -> frand R) u betas n runs rs :
  fw_optimize ts d out sparse np g pick lg mx fr0 rule betas n u runs = Ok rs ->
  exists k ys, check_steps n = Ok k /\ mapM (fun x => let '(r, r0, stop) := x in fw_core ts d out sparse np g pick lg mx fr0 rule betas k u r r0 stop) runs = Ok ys /\
    rs = sorted_by fr_cost ys.
Proof.
  unfold fw_optimize. intros H. apply bind_ok in H. destruct H as (k & Ek & H). destruct (mx <? 0)%Z; [discriminate|]. apply bind_ok in H. destruct H as (v & _ & H).
  destruct (length runs =? 0); [discriminate|]. apply bind_ok in H. destruct H as (ys & Ey & H). inversion H; subst. eauto.
Qed.

Lemma performed_of (c : call B K) k stop : check_steps (ca_steps c) = Ok k -> performed (ca_betas c) k stop = firstn stop (temperatures_of c).
Proof.
  unfold performed, temperatures_of, check_steps. destruct (ca_steps c) as [z|]; intros H; [|inversion H; subst; auto].
  destruct (z <=? 0)%Z; inversion H; subst; auto.
Qed.
Lemma goes_on_ok (c c' : call B K) k k' stop : check_steps (ca_steps c) = Ok k -> check_steps (ca_steps c') = Ok k' ->
  (exists extra, temperatures_of c' = temperatures_of c ++ extra) -> goes_on (ca_betas c) (ca_betas c') k k' stop (length (ca_betas c')).
Proof.
  intros H H' (extra & E). unfold goes_on. rewrite (performed_of _ H), (performed_of _ H').
  rewrite firstn_all2 by (unfold temperatures_of; destruct (ca_steps c'); rewrite ?firstn_length; lia).
  exists (skipn stop (temperatures_of c) ++ extra). rewrite app_assoc, firstn_skipn. auto.
Qed.
Lemma paired (f : nat -> P) (f' : nat -> R) (b : nat) : forall seeds stops, length stops = length seeds ->
  Forall2 (fun a a' : P * R * (nat -> nat) => fst a = fst a' /\ snd a' = fun _ => b) (seeded f f' seeds stops) (map (fun s => (f s, f' s, fun _ => b)) seeds).
Proof.
  induction seeds as [|s seeds IH]; intros [|st stops] L; try discriminate; [constructor|]. unfold seeded. cbn [combine map]. constructor; auto.
  apply IH. auto.
Qed.

Lemma load_lists e e' (c : call B K) r : possible e -> possible e' -> same_order e e' c ->
  load_tn A eqb g lg (fst (fst e)) (ca_tn c) (ca_dec c) (ca_fuse c) r = load_tn A eqb g lg (fst (fst e')) (ca_tn c) (ca_dec c) (ca_fuse c) r.
Proof.
  destruct e as ((arr & pick) & es). destruct e' as ((arr' & pick') & es'). cbn [fst]. intros (H1 & _) (H2 & _) [H3|(H3 & H4)]; [cbn [fst] in H3; subst; auto|].
  apply load_order; auto.
Qed.

Theorem im_more_steps rule e e' o c c' tn tn' rs rs' : possible e -> in_full e' -> same_order e e' c -> more_steps c c' ->
  fst (imc rule e o c) = Ok (tn, rs) -> fst (imc rule e' o c') = Ok (tn', rs') ->
  tn' = tn /\ Forall2 (fun r' r => (ir_cost r' <= ir_cost r)%Z) rs' rs.
Proof.
  intros H1 H2 H3 (M1 & M2 & M3 & M4 & M5 & M6). pose proof (load_lists (py_seed (op_seed o)) H1 (proj1 H2) H3) as HL.
  destruct e as ((arr & pick) & es). destruct e' as ((arr' & pick') & es'). intros E E'. cbn [fst] in HL.
  apply im_call_inv in E. apply im_call_inv in E'. destruct E as (L & (stops & Ls & E) & _). destruct E' as (L' & _ & E').
  destruct H1 as (_ & HP). destruct H2 as ((_ & HP') & HT). specialize (E' HT).
  rewrite M1, M2, M3, <- HL, L in L'. inversion L'; subst tn'. split; auto.
  rewrite M4, (@im_optimize_order _ _ _ _ _ P R B g pick' pick) in E' by auto.
  apply im_optimize_inv in E. apply im_optimize_inv in E'. destruct E as (k & ys & Ek & Ey & ->). destruct E' as (k' & ys' & Ek' & Ey' & ->).
  apply sorted_rank. eapply mapM_le; [|exact Ey|exact Ey'].
  replace (drawn o c') with (drawn o c) by (unfold drawn; rewrite M5; auto).
  eapply forall2_impl; [|unfold unstopped; apply paired; exact Ls]. intros ((r & r0) & st) ((r1 & r01) & st1) (Q1 & Q2) x x' Hx Hx'.
  cbn [fst snd] in Q1, Q2. inversion Q1; subst. eapply im_core_le; [|exact Hx|exact Hx']. intros i. cbv beta. apply goes_on_ok; auto.
Qed.
Theorem fw_more_steps mx fr0 rule u e e' o c c' tn tn' rs rs' : possible e -> in_full e' -> same_order e e' c -> more_steps c c' ->
  fst (fwc mx fr0 rule u e o c) = Ok (tn, rs) -> fst (fwc mx fr0 rule u e' o c') = Ok (tn', rs') ->
  tn' = tn /\ Forall2 (fun r' r => (fr_cost r' <= fr_cost r)%Z) rs' rs.
Proof.
  intros H1 H2 H3 (M1 & M2 & M3 & M4 & M5 & M6). pose proof (load_lists (py_seed (op_seed o)) H1 (proj1 H2) H3) as HL.
  destruct e as ((arr & pick) & es). destruct e' as ((arr' & pick') & es'). intros E E'. cbn [fst] in HL.
  apply fw_call_inv in E. apply fw_call_inv in E'. destruct E as (L & (stops & Ls & E) & _). destruct E' as (L' & _ & E').
  destruct H1 as (_ & HP). destruct H2 as ((_ & HP') & HT). specialize (E' HT).
  rewrite M1, M2, M3, <- HL, L in L'. inversion L'; subst tn'. split; auto.
  rewrite M4, (@fw_optimize_order _ _ _ _ _ P R B g pick' pick) in E' by auto.
  apply fw_optimize_inv in E. apply fw_optimize_inv in E'. destruct E as (k & ys & Ek & Ey & ->). destruct E' as (k' & ys' & Ek' & Ey' & ->).
  apply sorted_rank. eapply mapM_le; [|exact Ey|exact Ey'].
  replace (drawn o c') with (drawn o c) by (unfold drawn; rewrite M5; auto).
  eapply forall2_impl; [|unfold unstopped; apply paired; exact Ls]. intros ((r & r0) & st) ((r1 & r01) & st1) (Q1 & Q2) x x' Hx Hx'.
  cbn [fst snd] in Q1, Q2. inversion Q1; subst. eapply fw_core_le; [|exact Hx|exact Hx']. intros i. cbv beta. apply goes_on_ok; auto.
Qed.

Theorem im_more_runs rule e e' o c c' tn tn' rs rs' : in_full e -> in_full e' -> same_order e e' c -> more_runs c c' ->
  fst (imc rule e o c) = Ok (tn, rs) -> fst (imc rule e' o c') = Ok (tn', rs') ->
  tn' = tn /\ (exists others, Permutation rs' (rs ++ others)) /\
  (forall r rest, rs = r :: rest -> exists r' rest', rs' = r' :: rest' /\ (ir_cost r' <= ir_cost r)%Z).
Proof.
  intros H1 H2 H3 (M1 & M2 & M3 & M4 & M5 & M6 & M7). pose proof (load_lists (py_seed (op_seed o)) (proj1 H1) (proj1 H2) H3) as HL.
  destruct e as ((arr & pick) & es). destruct e' as ((arr' & pick') & es'). intros E E'. cbn [fst] in HL.
  apply im_call_inv in E. apply im_call_inv in E'. destruct E as (L & _ & E). destruct E' as (L' & _ & E').
  destruct H1 as ((_ & HP) & HT1). destruct H2 as ((_ & HP') & HT). specialize (E' HT). specialize (E HT1).
  rewrite M1, M2, M3, <- HL, L in L'. inversion L'; subst tn'. split; auto.
  rewrite M4, M5, M6, (@im_optimize_order _ _ _ _ _ P R B g pick' pick) in E' by auto.
  apply im_optimize_inv in E. apply im_optimize_inv in E'. destruct E as (k & ys & Ek & Ey & ->). destruct E' as (k' & ys' & Ek' & Ey' & ->).
  rewrite Ek in Ek'. inversion Ek'; subst k'.
  destruct (choices_more (ca_runs c) (ca_runs c' - ca_runs c) (op_rng o)) as (more & EM).
  replace (ca_runs c + (ca_runs c' - ca_runs c)) with (ca_runs c') in EM by lia.
  unfold drawn in Ey'. rewrite EM in Ey'. unfold unstopped in Ey'. rewrite map_app, mapM_app in Ey'. unfold unstopped, drawn in Ey. rewrite Ey in Ey'. cbn [bind] in Ey'.
  apply bind_ok in Ey'. destruct Ey' as (zs & _ & Ez). inversion Ez; subst. split.
  - exists zs. rewrite !sorted_by_perm. auto.
  - intros r rest. apply sorted_more.
Qed.
Theorem fw_more_runs mx fr0 rule u e e' o c c' tn tn' rs rs' : in_full e -> in_full e' -> same_order e e' c -> more_runs c c' ->
  fst (fwc mx fr0 rule u e o c) = Ok (tn, rs) -> fst (fwc mx fr0 rule u e' o c') = Ok (tn', rs') ->
  tn' = tn /\ (exists others, Permutation rs' (rs ++ others)) /\
  (forall r rest, rs = r :: rest -> exists r' rest', rs' = r' :: rest' /\ (fr_cost r' <= fr_cost r)%Z).
Proof.
  intros H1 H2 H3 (M1 & M2 & M3 & M4 & M5 & M6 & M7). pose proof (load_lists (py_seed (op_seed o)) (proj1 H1) (proj1 H2) H3) as HL.
  destruct e as ((arr & pick) & es). destruct e' as ((arr' & pick') & es'). intros E E'. cbn [fst] in HL.
  apply fw_call_inv in E. apply fw_call_inv in E'. destruct E as (L & _ & E). destruct E' as (L' & _ & E').
  destruct H1 as ((_ & HP) & HT1). destruct H2 as ((_ & HP') & HT). specialize (E' HT). specialize (E HT1).
  rewrite M1, M2, M3, <- HL, L in L'. inversion L'; subst tn'. split; auto.
  rewrite M4, M5, M6, (@fw_optimize_order _ _ _ _ _ P R B g pick' pick) in E' by auto.
  apply fw_optimize_inv in E. apply fw_optimize_inv in E'. destruct E as (k & ys & Ek & Ey & ->). destruct E' as (k' & ys' & Ek' & Ey' & ->).
  rewrite Ek in Ek'. inversion Ek'; subst k'.
  destruct (choices_more (ca_runs c) (ca_runs c' - ca_runs c) (op_rng o)) as (more & EM).
  replace (ca_runs c + (ca_runs c' - ca_runs c)) with (ca_runs c') in EM by lia.
  unfold drawn in Ey'. rewrite EM in Ey'. unfold unstopped in Ey'. rewrite map_app, mapM_app in Ey'. unfold unstopped, drawn in Ey. rewrite Ey in Ey'. cbn [bind] in Ey'.
  apply bind_ok in Ey'. destruct Ey' as (zs & _ & Ez). inversion Ez; subst. split.
  - exists zs. rewrite !sorted_by_perm. auto.
  - intros r rest. apply sorted_more.
Qed.
End Calls.
