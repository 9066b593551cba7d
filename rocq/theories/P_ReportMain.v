(** Reported costs, continued: the optimizers and the results of an optimization. *)
From Coq Require Import Permutation Sorted.
From Verif Require Import P_Base P_Opt P_PyMain.
From Verif Require Import M_Base M_Bitset M_Tree M_CTree M_Cost M_Opt M_InfMem M_FinWidth M_Path M_PyTree M_PyNodes M_Random M_App M_Report S_Tree S_Opt S_FinWidth S_Path S_PyTree S_Random S_Network S_App S_Report.
From Verif Require Import P_Bitset P_Path P_PathMain P_InfMem P_InfMemFinal P_FinWidth P_FinWidthFinal P_RandMain P_App P_AppMain P_Report.
From Verif Require Import M_Path M_PyTree.
Set Implicit Arguments.
Unset Strict Implicit.
Local Open Scope Z_scope.
Local Notation has := S_Random.has.

(** ** Costs are not negative *)
Section Net.
Variables (ts : list (list nat)) (d : pydims) (out sparse : list nat) (np : option Z) (dim : nat -> N).
Hypothesis HK : network_ok ts d dim sparse np.
Local Notation costs := (cost_is ts out sparse np dim).

Lemma size_nonneg l : 0 <= size dim l.
Proof. unfold size. induction l; cbn [fold_right]; lia. Qed.
Lemma values_nonneg l : 0 <= values sparse np dim l.
Proof.
  unfold values. apply Z.mul_nonneg_nonneg; [apply size_nonneg|]. apply Z.min_glb; [apply size_nonneg|].
  unfold projections. destruct np as [k|]; [|lia]. pose proof (nk_projs HK (eq_refl (Some k))). lia.
Qed.
Lemma cost_nonneg sl cs k : costs sl cs k -> 0 <= k.
Proof. induction 1 as [|a b cs l k L H IH]; [lia|]. pose proof (@values_nonneg l). lia. Qed.

(** There are at most as many components as tensors. *)
Lemma comps_few ps comps : component_paths ts ps comps -> (length comps <= length ts)%nat.
Proof.
  intros (F & _ & Hd). rewrite <- (map_length (fun k => first_tensor (snd k)) comps), <- (seq_length (length ts) 0). apply NoDup_incl_length.
  - apply NoDup_nth_error. intros i j Hi E. rewrite map_length in Hi. rewrite !nth_error_map in E.
    destruct (nth_error comps i) as [k|] eqn:Ki; [|apply nth_error_None in Ki; lia]. simpl in E.
    destruct (nth_error comps j) as [k'|] eqn:Kj; [|discriminate]. simpl in E. injection E as E.
    apply (@Hd i j k k' (first_tensor (snd k)) Ki Kj); [apply first_in|rewrite E; apply first_in].
  - intros t Ht. apply in_map_iff in Ht. destruct Ht as (k & <- & Hk). apply In_nth_error in Hk. destruct Hk as (i & Hi).
    destruct (Forall2_nth1 F Hi) as (p & _ & Hp). apply in_seq. pose proof (root_bound Hp). lia.
Qed.

Lemma each_all (A : Type) (f : nat -> path -> res A) (Q : A -> Prop) : forall ps k xs, each f k ps = Ok xs ->
  (forall k p x, In p ps -> f k p = Ok x -> Q x) -> Forall Q xs /\ length xs = length ps.
Proof.
  induction ps as [|p ps IH]; intros k xs E Hq; simpl in E; [inversion E; subst; split; [constructor|reflexivity]|].
  apply bind_ok in E. destruct E as (x & Ex & E). apply bind_ok in E. destruct E as (ys & Ey & E). inversion E; subst.
  destruct (IH _ _ Ey) as (A1 & A2). { intros k0 p0 x0 H0. apply Hq. right. exact H0. }
  split; [constructor; [apply (Hq k p x (or_introl eq_refl) Ex)|exact A1]|simpl; congruence].
Qed.

Lemma Forall2_in1 (A B : Type) (Rl : A -> B -> Prop) l k : Forall2 Rl l k -> forall a, In a l -> exists b, In b k /\ Rl a b.
Proof. induction 1 as [|a b l k H F IH]; intros x Hx; [destruct Hx|]. destruct Hx as [->|Hx]; [exists b; split; [left; auto|auto]|]. destruct (IH x Hx) as (y & Hy & Hr). exists y. split; [right; auto|auto]. Qed.

Definition fair_costs (total : Z) (cs : list Z) : Prop :=
  total = P_Report.total cs /\ Forall (fun c => 0 <= c) cs /\ (length cs <= length ts)%nat.

Lemma zsum_total l : zsum l = total l.
Proof. reflexivity. Qed.

Lemma im_core_fair (P R B : Type) (g : prng P) pick (rule : B -> rand R) betas n_steps (r : P) (r0 : R) stop res :
  prng_ok g -> pick_ok pick -> sparse = [] \/ one_component ts ->
  im_core ts d out sparse np g pick rule betas n_steps r r0 stop = Ok res -> fair_costs (ir_cost res) (ir_costs res).
Proof.
  intros Hg Hp Hs E. destruct (random_ok ts r Hg Hp) as (ps & comps & Eps & F & Hcov & Hdis). unfold im_core in E. rewrite Eps in E. cbn [bind] in E.
  assert (HCP : component_paths ts ps comps) by (split; auto).
  apply bind_ok in E. destruct E as (xs & Ex & E). cbv zeta in E. apply bind_ok in E. destruct E as (p & _ & E). inversion E; subst. cbn [ir_cost ir_costs].
  destruct (@each_all (Z * path) _ (fun x => 0 <= fst x) ps 0%nat xs Ex) as (A1 & A2).
  { intros k q x Hq Eq. destruct (Forall2_in1 F Hq) as (c & _ & Hc).
    destruct (@im_component_ok ts d out sparse np dim HK q (fst c) (snd c) Hc (sparse_ok HK Hc Hs) R B rule betas n_steps r0 (stop k)) as (z & q' & cs' & root' & E' & _ & _ & A3 & _).
    rewrite E' in Eq. inversion Eq; subst. simpl. apply (cost_nonneg A3). }
  split; [apply zsum_total|]. split; [apply Forall_map; exact A1|]. rewrite map_length, A2. eapply Nat.le_trans; [apply Nat.eq_le_incl; exact (Forall2_len F)|apply (comps_few HCP)].
Qed.

Lemma fw_core_fair (P R B : Type) (g : prng P) pick lg mx (fr0 : frand R) (rule : B -> frand R) betas n_steps u (r : P) (r0 : R) stop res :
  prng_ok g -> pick_ok pick -> log_like lg -> shuffles fr0 -> (forall b, shuffles (rule b)) -> 0 <= mx -> (0 < u)%nat ->
  sparse = [] \/ one_component ts ->
  fw_core ts d out sparse np g pick lg mx fr0 rule betas n_steps u r r0 stop = Ok res -> fair_costs (fr_cost res) (fr_costs res).
Proof.
  intros Hg Hp Hl Hf0 Hfr Hmx Hu Hs E. destruct (random_ok ts r Hg Hp) as (ps & comps & Eps & F & Hcov & Hdis). unfold fw_core in E. rewrite Eps in E. cbn [bind] in E.
  assert (HCP : component_paths ts ps comps) by (split; auto).
  apply bind_ok in E. destruct E as (xs & Ex & E). cbv zeta in E. apply bind_ok in E. destruct E as (p & _ & E). apply bind_ok in E. destruct E as (sl & _ & E). inversion E; subst. cbn [fr_cost fr_costs].
  destruct (@each_all (Z * path * list nat) _ (fun x => 0 <= fst (fst x)) ps 0%nat xs Ex) as (A1 & A2).
  { intros k q x Hq Eq. destruct (Forall2_in1 F Hq) as (c & _ & Hc).
    destruct (@fw_component_ok ts d out sparse np dim HK q (fst c) (snd c) Hc (sparse_ok HK Hc Hs) R B lg mx fr0 rule betas n_steps u r0 (stop k) Hl Hf0 Hfr Hmx Hu)
      as (z & q' & sl' & cs' & root' & E' & _ & _ & A3 & _).
    rewrite E' in Eq. inversion Eq; subst. simpl. apply (cost_nonneg A3). }
  split; [apply zsum_total|]. split; [apply Forall_map; exact A1|]. rewrite map_length, A2. eapply Nat.le_trans; [apply Nat.eq_le_incl; exact (Forall2_len F)|apply (comps_few HCP)].
Qed.

(** ** The reported cost *)
Lemma total_in l c : Forall (fun c => 0 <= c) l -> In c l -> 0 <= c <= total l.
Proof.
  induction 1 as [|a l Ha Hl IH]; intros Hc; [destruct Hc|]. pose proof (total_nonneg Hl) as P1. cbn [total fold_right]. fold (total l). destruct Hc as [->|Hc]; [lia|]. specialize (IH Hc). lia.
Qed.
Lemma decimal_exact l : Forall (fun c => 0 <= c) l -> forall s, 0 <= s -> s + total l < 10 ^ 28 -> fold_left (fun s c => sig 28 (s + c)) l s = s + total l.
Proof.
  induction 1 as [|a l Ha Hl IH]; intros s H0 Hs; [simpl; lia|]. cbn [fold_left]. pose proof (total_nonneg Hl) as P1. cbn [total fold_right] in *. fold (total l) in *.
  rewrite (@sig_below 28 (s + a)); [|lia|change (10 ^ Z.of_nat 28) with (10 ^ 28); lia]. rewrite IH; lia.
Qed.
Lemma reported_exact ct l : Forall (fun c => 0 <= c) l -> total l < exact_below ct -> map (shown ct) l = l /\ decimal_sum (map (shown ct) l) = total l.
Proof.
  intros Hl Hb. assert (E : map (shown ct) l = l).
  { rewrite <- (map_id l) at 2. apply map_ext_in. intros c Hc. pose proof (total_in Hl Hc) as Hr. destruct ct; [|reflexivity]. apply shown_below. simpl in Hb. lia. }
  split; [exact E|]. rewrite E. unfold decimal_sum. rewrite (@decimal_exact l Hl 0); [lia|lia|]. destruct ct; simpl exact_below in Hb; lia.
Qed.

Lemma shown_written ct x : 0 <= x -> written ct x (shown ct x).
Proof.
  intros Hx. split; [intros ->; apply sig_nearest; [lia|exact Hx]|intros ->; reflexivity|apply shown_within; exact Hx|intros H; apply shown_below; lia].
Qed.
Lemma fair_rounds ct z zs : Z.of_nat (length ts) <= 10 ^ 15 -> fair_costs z zs -> summed ct z zs (decimal_sum (map (shown ct) zs)) (map (shown ct) zs).
Proof.
  intros Hn (-> & Hl & Hlen). split; [apply total_nonneg; exact Hl| | |].
  - clear Hlen. induction Hl as [|c l Hc Hl IH]; simpl; constructor; auto. apply shown_written. exact Hc.
  - apply reported_within; [exact Hl|lia].
  - intros Hb. destruct (reported_exact Hl Hb). auto.
Qed.

(** The first of the sorted results is nearly the cheapest. *)
Lemma nearly n x1 y1 x y : 0 < n -> within n x1 y1 -> within n x y -> y1 <= y -> (n - 1) * x1 <= (n + 1) * x.
Proof. unfold within. intros Hn A B C. nia. Qed.

Section Runs.
Variables (P R B : Type) (g : prng P) (pick : list nat -> nat) (betas : list B) (n_steps : option Z) (runs : list (P * R * (nat -> nat))) (ct : cost_type).
Hypothesis Hg : prng_ok g.
Hypothesis Hp : pick_ok pick.
Hypothesis Hs : sparse = [] \/ one_component ts.
Hypothesis Hn : forall k, n_steps = Some k -> 0 < k.
Hypothesis Hr : runs <> [].
Hypothesis Hts : Z.of_nat (length ts) <= 10 ^ 15.

Lemma im_reported_ok (rule : B -> rand R) :
  exists rs rs0 es, im_optimize_reported ts d out sparse np g pick ct rule betas n_steps runs = Ok rs /\
    Forall2 (fun x e => im_core ts d out sparse np g pick rule betas (option_map Z.to_nat n_steps) (fst (fst x)) (snd (fst x)) (snd x) = Ok e) runs es /\
    Forall2 (fun e y => ir_path y = ir_path e /\ ir_paths y = ir_paths e /\ summed ct (ir_cost e) (ir_costs e) (ir_cost y) (ir_costs y)) es rs0 /\
    Permutation rs rs0 /\ StronglySorted (fun a b => ir_cost a <= ir_cost b) rs.
Proof.
  unfold im_optimize_reported. rewrite (check_steps_ok Hn). cbn [bind]. rewrite (check_model_ok HK). cbn [bind].
  destruct (Nat.eqb_spec (length runs) 0) as [E|_]; [apply length_zero_iff_nil in E; contradiction|].
  destruct (@mapM_forall2 _ _ (fun x => let '(r, r0, stop) := x in
      let! y := im_core ts d out sparse np g pick rule betas (option_map Z.to_nat n_steps) r r0 stop in Ok (im_report ct y)) runs) as (rs & E & F).
  { intros ((r, r0), stop) _. destruct (@im_core_ok ts d out sparse np dim HK P R B g pick rule betas (option_map Z.to_nat n_steps) r r0 stop Hg Hp Hs) as (res & _ & _ & Er & _). rewrite Er. cbn [bind]. eauto. }
  rewrite E. cbn [bind].
  assert (G : exists es, Forall2 (fun x e => im_core ts d out sparse np g pick rule betas (option_map Z.to_nat n_steps) (fst (fst x)) (snd (fst x)) (snd x) = Ok e) runs es /\
     Forall2 (fun e y => ir_path y = ir_path e /\ ir_paths y = ir_paths e /\ summed ct (ir_cost e) (ir_costs e) (ir_cost y) (ir_costs y)) es rs).
  { clear E Hr. induction F as [|((r, r0), stop) y l k H F IH]; [exists []; auto|]. destruct IH as (es & F1 & F2).
    apply bind_ok in H. destruct H as (e & Ee & Ey). inversion Ey; subst y. exists (e :: es). split; constructor; auto.
    split; [reflexivity|]. split; [reflexivity|]. cbn [im_report ir_cost ir_costs]. apply fair_rounds; [exact Hts|]. eapply im_core_fair; [exact Hg|exact Hp|exact Hs|exact Ee]. }
  destruct G as (es & F1 & F2). exists (sorted_by ir_cost rs), rs, es. split; [reflexivity|]. split; [exact F1|]. split; [exact F2|].
  split; [apply sorted_by_perm|apply sorted_by_sorted].
Qed.

Lemma fw_reported_ok lg mx (fr0 : frand R) (rule : B -> frand R) u :
  log_like lg -> shuffles fr0 -> (forall b, shuffles (rule b)) -> 0 <= mx -> (0 < u)%nat -> ts <> [] ->
  exists rs rs0 es, fw_optimize_reported ts d out sparse np g pick ct lg mx fr0 rule betas n_steps u runs = Ok rs /\
    Forall2 (fun x e => fw_core ts d out sparse np g pick lg mx fr0 rule betas (option_map Z.to_nat n_steps) u (fst (fst x)) (snd (fst x)) (snd x) = Ok e) runs es /\
    Forall2 (fun e y => fr_path y = fr_path e /\ fr_paths y = fr_paths e /\ fr_slices y = fr_slices e /\ fr_dslices y = fr_dslices e /\
                        summed ct (fr_cost e) (fr_costs e) (fr_cost y) (fr_costs y)) es rs0 /\
    Permutation rs rs0 /\ StronglySorted (fun a b => fr_cost a <= fr_cost b) rs.
Proof.
  intros Hl Hf0 Hfr Hmx Hu Hne. unfold fw_optimize_reported. rewrite (check_steps_ok Hn). cbn [bind]. rewrite (proj2 (Z.ltb_ge _ _) Hmx), (check_model_ok HK). cbn [bind].
  destruct (Nat.eqb_spec (length runs) 0) as [E|_]; [apply length_zero_iff_nil in E; contradiction|].
  destruct (@mapM_forall2 _ _ (fun x => let '(r, r0, stop) := x in
      let! y := fw_core ts d out sparse np g pick lg mx fr0 rule betas (option_map Z.to_nat n_steps) u r r0 stop in Ok (fw_report ct y)) runs) as (rs & E & F).
  { intros ((r, r0), stop) _. destruct (@fw_core_ok ts d out sparse np dim HK P R B g pick lg mx fr0 rule betas (option_map Z.to_nat n_steps) u r r0 stop Hg Hp Hl Hf0 Hfr Hmx Hu Hne Hs) as (res & _ & _ & _ & Er & _). rewrite Er. cbn [bind]. eauto. }
  rewrite E. cbn [bind].
  assert (G : exists es, Forall2 (fun x e => fw_core ts d out sparse np g pick lg mx fr0 rule betas (option_map Z.to_nat n_steps) u (fst (fst x)) (snd (fst x)) (snd x) = Ok e) runs es /\
     Forall2 (fun e y => fr_path y = fr_path e /\ fr_paths y = fr_paths e /\ fr_slices y = fr_slices e /\ fr_dslices y = fr_dslices e /\
                        summed ct (fr_cost e) (fr_costs e) (fr_cost y) (fr_costs y)) es rs).
  { clear E Hr. induction F as [|((r, r0), stop) y l k H F IH]; [exists []; auto|]. destruct IH as (es & F1 & F2).
    apply bind_ok in H. destruct H as (e & Ee & Ey). inversion Ey; subst y. exists (e :: es). split; constructor; auto.
    do 4 (split; [reflexivity|]). cbn [fw_report fr_cost fr_costs]. apply fair_rounds; [exact Hts|]. eapply fw_core_fair; [exact Hg|exact Hp|exact Hl|exact Hf0|exact Hfr|exact Hmx|exact Hu|exact Hs|exact Ee]. }
  destruct G as (es & F1 & F2). exists (sorted_by fr_cost rs), rs, es. split; [reflexivity|]. split; [exact F1|]. split; [exact F2|].
  split; [apply sorted_by_perm|apply sorted_by_sorted].
Qed.
End Runs.
End Net.

(** The first result and the other runs. *)
Lemma first_nearly (A E : Type) (cost : A -> Z) (exact : E -> Z) (Rl : E -> A -> Prop) es rs0 rs :
  Forall2 (fun e y => Rl e y /\ within 199999 (exact e) (cost y)) es rs0 ->
  Permutation rs rs0 -> StronglySorted (fun a b => cost a <= cost b) rs -> es <> [] ->
  exists y l e, rs = y :: l /\ In e es /\ Rl e y /\ forall e', In e' es -> 199998 * exact e <= 200000 * exact e'.
Proof.
  intros F HP HS Hne. destruct rs as [|y l].
  { apply Permutation_nil in HP. subst. inversion F; subst. contradiction. }
  assert (Hy : In y rs0) by (apply (Permutation_in _ HP); left; auto).
  assert (F' : Forall2 (fun y e => Rl e y /\ within 199999 (exact e) (cost y)) rs0 es) by (clear -F; induction F; constructor; auto).
  destruct (Forall2_in1 F' Hy) as (e & He & Hr & Hw). exists y, l, e. split; [reflexivity|]. split; [exact He|]. split; [exact Hr|].
  intros e' He'. destruct (Forall2_in1 F He') as (y' & Hy' & _ & Hw').
  apply (@nearly 199999 (exact e) (cost y) (exact e') (cost y')); [lia|exact Hw|exact Hw'|].
  apply (Permutation_in _ (Permutation_sym HP)) in Hy'. destruct Hy' as [<-|Hy']; [lia|]. inversion HS as [|y0 l0 _ HF]; subst. rewrite Forall_forall in HF. apply HF. exact Hy'.
Qed.

(** ** The optimizers *)
Lemma prod_over_nonneg q f n : (forall x, 0 <= f x) -> 0 <= prod_over q f n.
Proof. intros H. induction n as [|n IH]; simpl; [lia|]. apply Z.mul_nonneg_nonneg; [exact IH|]. destruct (q n); [apply H|lia]. Qed.
Lemma dimension_nonneg d x : 0 <= dimension d x.
Proof. destruct d; simpl; lia. Qed.
Lemma step_cost_nonneg m c n k sl a b : cmodel_ok m k -> 0 <= step_cost m c n sl a b.
Proof.
  intros H. unfold step_cost. destruct m as [|sp np]; [apply prod_over_nonneg; apply dimension_nonneg|].
  simpl in H. apply Z.mul_nonneg_nonneg; [apply prod_over_nonneg; apply dimension_nonneg|]. apply Z.min_glb; [apply prod_over_nonneg; apply dimension_nonneg|lia].
Qed.
Lemma tree_cost_nonneg m c n k sl T : cmodel_ok m k -> 0 <= tree_cost m c n sl T.
Proof. intros H. unfold tree_cost. induction T as [|p l IHl r IHr]; simpl; [lia|]. pose proof (@step_cost_nonneg m c n k sl (top l) (top r) H). lia. Qed.

Lemma simple_nonneg b d : 0 <= simple_get_cost b d.
Proof.
  unfold simple_get_cost. destruct d as [x|l]; [apply Z.pow_nonneg; lia|].
  assert (G : forall ps k, 0 <= k -> 0 <= fold_left (fun c pos => c * Z.of_N (nth pos l 1%N)) ps k).
  { induction ps as [|p ps IH]; intros k Hk; simpl; [exact Hk|]. apply IH. apply Z.mul_nonneg_nonneg; lia. }
  apply G. lia.
Qed.
Lemma ccost_nonneg m k a b c d : cmodel_ok m k -> 0 <= ccost_of m a b c d.
Proof.
  intros H. unfold ccost_of. destruct m as [|sp np]; [apply simple_nonneg|]. unfold sparse_get_cost. cbv zeta. apply Z.mul_nonneg_nonneg; [apply simple_nonneg|].
  simpl in H. pose proof (@simple_nonneg (band (bor a b) sp) d). destruct (simple_get_cost (band (bor a b) sp) d <? np); lia.
Qed.
Lemma get_cost_nonneg cc c k : (forall x y z, 0 <= cc x y z) -> get_cost cc c = Ok k -> 0 <= k.
Proof.
  intros H E. unfold get_cost in E. apply bind_ok in E. destruct E as (order & _ & E).
  assert (G : forall l t k, 0 <= t -> fold_res (get_cost_visit cc c) l t = Ok k -> 0 <= k).
  { clear E k order. induction l as [|v l IH]; intros t k Ht E; simpl in E; [inversion E; subst; exact Ht|]. apply bind_ok in E. destruct E as (t' & Et & E).
    apply (IH t' k); [|exact E]. unfold get_cost_visit in Et. apply bind_ok in Et. destruct Et as (n & _ & Et).
    destruct (is_leaf n); [inversion Et; subst; exact Ht|]. destruct (c0 n) as [a|]; [|discriminate]. destruct (c1 n) as [b|]; [|discriminate].
    apply bind_ok in Et. destruct Et as (x & _ & Et). apply bind_ok in Et. destruct Et as (y & _ & Et). apply bind_ok in Et. destruct Et as (z & _ & Et).
    inversion Et; subst. pose proof (H x y z). lia. }
  apply (G order 0 k); [lia|exact E].
Qed.

Section InfMem.
Variables (R : Type) (c : ctree) (m : cmodel) (r : R) (ds : bool) (mc : option ctree) (s0 s : im_state R) (rds : list (rand R)) (ct : cost_type).
Hypothesis W : well_formed (nodes c).
Hypothesis Hcm : cmodel_ok m (n_inds c).
Hypothesis Hm : im_make c m r ds mc = Ok s0.
Hypothesis Hr : im_run rds s0 = Ok s.

Lemma im_total_written : exists T y, tree_of (nodes (im_ct s)) T /\ im_total_cost ct s = Ok y /\
  written ct (tree_cost m (im_ct s) (n_inds c) no_slices T) y.
Proof.
  destruct (c09 W Hcm Hm Hr) as (T & HT & Et & _). exists T. unfold im_total_cost. rewrite Et. cbn [bind]. eexists. split; [exact HT|]. split; [reflexivity|].
  apply shown_written. eapply tree_cost_nonneg; exact Hcm.
Qed.
Lemma im_run_split rds1 rds2 : rds = rds1 ++ rds2 -> exists s1, im_run rds1 s0 = Ok s1.
Proof.
  intros E. revert Hr. rewrite E. generalize s0. clear. induction rds1 as [|rd l IH]; intros s1 H; [exists s1; reflexivity|].
  simpl in *. apply bind_ok in H. destruct H as (s2 & E2 & H). rewrite E2. cbn [bind]. apply (IH s2 H).
Qed.
Lemma im_min_nonneg : 0 <= im_min s.
Proof. destruct (c10 W Hm Hr) as (E & _). eapply get_cost_nonneg; [|exact E]. intros x y z. eapply ccost_nonneg; exact Hcm. Qed.
Lemma im_min_written :
  (exists k, get_cost (im_ccost m (dims (im_min_ct s))) (im_min_ct s) = Ok k /\ written ct k (im_min_total_cost ct s)) /\
  (forall rds1 rds2 s1, rds = rds1 ++ rds2 -> im_run rds1 s0 = Ok s1 ->
     im_min_total_cost ct s <= im_min_total_cost ct s1 /\
     (rds1 <> [] -> forall t1, im_total_cost ct s1 = Ok t1 -> im_min_total_cost ct s <= t1)) /\
  (mc = None -> forall t0, im_total_cost ct s0 = Ok t0 -> im_min_total_cost ct s <= t0).
Proof.
  pose proof im_min_nonneg as H0. destruct (c10 W Hm Hr) as (E & _ & H1 & H2 & _). split; [|split].
  - exists (im_min s). split; [exact E|]. apply shown_written. exact H0.
  - intros rds1 rds2 s1 Es E1. destruct (H1 rds1 rds2 s1 Es E1) as (A1 & A2). split; [apply shown_mono; lia|].
    intros Hne t1 Et. unfold im_total_cost in Et. apply bind_ok in Et. destruct Et as (t & Et & Ew). injection Ew as <-. apply shown_mono. specialize (A2 Hne t Et). lia.
  - intros Hn t0 Et. unfold im_total_cost in Et. apply bind_ok in Et. destruct Et as (t & Et & Ew). injection Ew as <-. apply shown_mono. specialize (H2 Hn t Et). lia.
Qed.
End InfMem.

Section FinWidth.
Variables (R : Type) (lg : N -> Z) (fr : frand R) (c : ctree) (m : fmodel) (maxnew : nat) (r : R) (ds : bool) (skip : list bool) (mc : option ctree)
  (sl msl : option (list bool)) (s0 : fw_state R) (ct : cost_type).
Hypothesis HB : fw_built lg fr c m maxnew r ds skip mc sl msl s0.
Variables (us : list (frand R * bool)) (s : fw_state R).
Hypothesis Hsh : all_shuffle us.
Hypothesis Hr : fw_run lg us s0 = Ok s.

Lemma fw_total_written : exists T y, tree_of (nodes (fw_ct s)) T /\ fw_total_cost ct s = Ok y /\
  written ct (tree_cost (fm_cm m) (fw_ct s) (n_inds c) (mem (fw_sl s)) T) y.
Proof.
  destruct (f18 HB Hsh Hr) as (T & HT & Et). exists T. unfold fw_total_cost. rewrite Et. cbn [bind]. eexists. split; [exact HT|]. split; [reflexivity|].
  apply shown_written. eapply tree_cost_nonneg; exact (fb_model HB).
Qed.
Lemma fw_min_written :
  (exists T, tree_of (nodes (fw_min_ct s)) T /\ written ct (tree_cost (fm_cm m) (fw_min_ct s) (n_inds c) (mem (fw_min_sl s)) T) (fw_min_total_cost ct s)) /\
  (forall us1 us2 s1, us = us1 ++ us2 -> fw_run lg us1 s0 = Ok s1 ->
     fw_min_total_cost ct s <= fw_min_total_cost ct s1 /\
     (us1 <> [] -> forall t1, fw_total_cost ct s1 = Ok t1 -> fw_min_total_cost ct s <= t1)) /\
  (mc = None -> msl = None -> forall t0, fw_total_cost ct s0 = Ok t0 -> fw_min_total_cost ct s <= t0).
Proof.
  destruct (f18_min HB Hsh Hr) as (T & HT & Em). pose proof (@tree_cost_nonneg (fm_cm m) (fw_min_ct s) (n_inds c) (n_inds c) (mem (fw_min_sl s)) T (fb_model HB)) as H0. rewrite <- Em in H0.
  destruct (f10 HB Hsh Hr) as (H1 & H2 & _). split; [|split].
  - exists T. split; [exact HT|]. rewrite <- Em. apply shown_written. exact H0.
  - intros us1 us2 s1 Es E1. destruct (H1 us1 us2 s1 Es E1) as (A1 & A2). split; [apply shown_mono; lia|].
    intros Hne t1 Et. unfold fw_total_cost in Et. apply bind_ok in Et. destruct Et as (t & Et & Ew). injection Ew as <-. apply shown_mono. specialize (A2 Hne t Et). lia.
  - intros Hn Hn' t0 Et. unfold fw_total_cost in Et. apply bind_ok in Et. destruct Et as (t & Et & Ew). injection Ew as <-. apply shown_mono. specialize (H2 Hn Hn' t Et). lia.
Qed.
End FinWidth.
