(** Simulation of the optimizer of M_Overflow by the one of M_Float. *)
From Coq Require Import List Arith ZArith Lia Bool.
Import ListNotations.
From Verif Require Import M_Base M_Bitset M_Tree M_CTree M_Cost M_Opt M_InfMem M_Float M_Overflow S_Overflow P_Base P_Cost.
Set Implicit Arguments.
Unset Strict Implicit.
Local Open Scope Z_scope.

(** Two computations give related results or the same error. *)
Definition sim {A B} (Rl : A -> B -> Prop) (x : res A) (y : res B) : Prop :=
  match x, y with Ok a, Ok b => Rl a b | Err e, Err e' => e = e' | _, _ => False end.
Lemma sim_bind {A B C D} (Ra : A -> B -> Prop) (Rc : C -> D -> Prop) x y (k : A -> res C) (k' : B -> res D) :
  sim Ra x y -> (forall a b, Ra a b -> sim Rc (k a) (k' b)) -> sim Rc (bind x k) (bind y k').
Proof. destruct x, y; simpl; intros H K; auto; try contradiction; congruence. Qed.
Lemma sim_same {A C D} (Rc : C -> D -> Prop) (x : res A) (k : A -> res C) (k' : A -> res D) :
  (forall a, x = Ok a -> sim Rc (k a) (k' a)) -> sim Rc (bind x k) (bind x k').
Proof. destruct x; simpl; intros H; auto. Qed.

Section Sim.
Variable xa : xarith.
Hypothesis RO : range_ok xa.
Notation ar := (xr xa).
Notation M := (finite_upto xa).

Definition rel (x : xnum) (z : Z) : Prop := 0 <= z /\ rnd ar z = z /\ reports xa x z.
Definition relp (x : xnum) (z : Z) : Prop := 1 <= z /\ rnd ar z = z /\ reports xa x z.
Lemma relp_rel x z : relp x z -> rel x z.
Proof. unfold relp, rel. intros (H & ?). split; [lia|auto]. Qed.
Lemma M_le : M <= xmax xa.
Proof. unfold finite_upto. lia. Qed.
Lemma over_ok z : 0 <= z -> rnd ar z = z -> rel (over xa z) z.
Proof.
  intros H E. split; auto. split; auto. unfold over, reports. pose proof M_le. pose proof (ro_max RO). destruct (Z.ltb_spec (xmax xa) z); [right; split; auto; lia|].
  destruct (Z.ltb_spec z (- xmax xa)); [lia|]. left. split; auto.
Qed.
Lemma rel_0 : rel (Fin 0) 0.
Proof. split; [lia|]. split; [apply (ro_0 RO)|]. left. split; auto. pose proof M_le. pose proof (ro_max RO). lia. Qed.
Lemma relp_1 : relp (Fin 1) 1.
Proof. split; [lia|]. split; [apply (ro_1 RO)|]. left. split; auto. pose proof M_le. pose proof (ro_max RO). lia. Qed.
Lemma rnd_nonneg z : 0 <= z -> 0 <= rnd ar z.
Proof. intros H. rewrite <- (ro_0 RO). apply (ro_mono RO). auto. Qed.
Lemma rnd_pos z : 1 <= z -> 1 <= rnd ar z.
Proof. intros H. rewrite <- (ro_1 RO) at 1. apply (ro_mono RO). auto. Qed.

Lemma add_rel x y a b : rel x a -> rel y b -> rel (xadd xa x y) (fadd ar a b).
Proof.
  intros (A0 & Ar & Ax) (B0 & Br & Bx). assert (G : forall u v, 0 <= v -> 0 <= u -> rnd ar u = u -> M < u -> M < fadd ar u v).
  { intros u v Hv Hu Eu L. unfold fadd. assert (rnd ar u <= rnd ar (u + v)) by (apply (ro_mono RO); lia). lia. }
  assert (P : 0 <= fadd ar a b) by (apply rnd_nonneg; lia). assert (Q : rnd ar (fadd ar a b) = fadd ar a b) by apply (ro_idem RO).
  destruct Ax as [(-> & La)|(-> & La)], Bx as [(-> & Lb)|(-> & Lb)]; cbn [xadd].
  - apply over_ok; auto.
  - split; auto. split; auto. right. split; auto. rewrite (Z.add_comm a b) || idtac. unfold fadd. rewrite Z.add_comm. apply (G b a); auto.
  - split; auto. split; auto. right. split; auto.
  - split; auto. split; auto. right. split; auto.
Qed.
Lemma mul_rel x y a b : relp x a -> relp y b -> relp (xmul xa x y) (fmul ar a b).
Proof.
  intros (A0 & Ar & Ax) (B0 & Br & Bx). assert (G : forall u v, 1 <= v -> 1 <= u -> rnd ar u = u -> M < u -> M < fmul ar u v).
  { intros u v Hv Hu Eu L. unfold fmul. assert (rnd ar u <= rnd ar (u * v)) by (apply (ro_mono RO); nia). lia. }
  assert (P : 1 <= fmul ar a b) by (apply rnd_pos; nia). assert (Q : rnd ar (fmul ar a b) = fmul ar a b) by apply (ro_idem RO).
  destruct Ax as [(-> & La)|(-> & La)], Bx as [(-> & Lb)|(-> & Lb)]; cbn [xmul].
  - destruct (@over_ok (fmul ar a b)) as (_ & _ & H); auto; [lia|]. split; auto.
  - split; auto. split; auto. right. unfold xsign. destruct (Z.ltb_spec 0 a); [|lia]. split; auto. unfold fmul. rewrite Z.mul_comm. apply (G b a); auto.
  - split; auto. split; auto. right. unfold xsign. destruct (Z.ltb_spec 0 b); [|lia]. split; auto.
  - split; auto. split; auto. right. split; auto.
Qed.

Lemma pow_rel d k : (1 <= d)%N -> relp (xpow xa d k) (rpow ar d k).
Proof.
  intros H. split; [apply (ro_pos RO); auto|]. split; [apply (ro_pow RO)|]. pose proof (ro_pos RO k H) as P. unfold xpow. destruct (Z.ltb_spec (xpmax xa) (rpow ar d k)).
  - right. split; auto. unfold finite_upto. lia.
  - destruct (@over_ok (rpow ar d k)) as (_ & _ & G); auto; [lia|apply (ro_pow RO)].
Qed.
Lemma fold_rel l ps : (forall i, 1 <= Z.of_N (nth i l 1%N)) -> forall x a, relp x a ->
  relp (fold_left (fun c pos => xmul xa c (over xa (rnd ar (Z.of_N (nth pos l 1%N))))) ps x)
       (fold_left (fun c pos => fmul ar c (rnd ar (Z.of_N (nth pos l 1%N)))) ps a).
Proof.
  intros H. induction ps as [|p ps IH]; simpl; intros x a R; auto. apply IH. apply mul_rel; auto.
  pose proof (rnd_pos (H p)) as P. destruct (@over_ok (rnd ar (Z.of_N (nth p l 1%N)))) as (_ & E & G); [lia|apply (ro_idem RO)|]. split; auto.
Qed.
Lemma simple_rel b d : dims_pos d -> relp (xsimple_get_cost xa b d) (fsimple_get_cost ar b d).
Proof.
  intros H. destruct d as [x|l]; simpl.
  - apply pow_rel. specialize (H 0%nat). simpl in H. lia.
  - apply fold_rel; [|apply relp_1]. intros i. exact (H i).
Qed.
Lemma ccost_rel m a b c d : dims_pos d -> projs_fit xa m -> match m with Simple => True | Sparse _ np => 1 <= np end -> relp (xccost_of xa m a b c d) (fccost_of ar m a b c d).
Proof.
  intros H P N. destruct m as [|sp np]; cbn [xccost_of fccost_of]; [apply simple_rel; auto|]. unfold xsparse_get_cost, fsparse_get_cost. apply mul_rel; [apply simple_rel; auto|].
  simpl in P. pose proof (rnd_pos N) as Np. assert (O : over xa (rnd ar np) = Fin (rnd ar np)).
  { unfold over. pose proof M_le. destruct (Z.ltb_spec (xmax xa) (rnd ar np)); [lia|]. destruct (Z.ltb_spec (rnd ar np) (- xmax xa)); [lia|auto]. }
  rewrite O. assert (R : relp (Fin (rnd ar np)) (rnd ar np)). { split; auto. split; [apply (ro_idem RO)|]. left. split; auto. pose proof M_le. lia. }
  destruct (simple_rel (band (bor a b) sp) H) as (S1 & S2 & S3). set (z := fsimple_get_cost ar (band (bor a b) sp) d) in *. destruct S3 as [(E & L)|(E & L)]; rewrite E; cbn [xltb].
  - destruct (Z.ltb_spec z (rnd ar np)); auto. split; auto. split; auto. left. auto.
  - destruct (Z.ltb_spec z (rnd ar np)); auto. lia.
Qed.

(** Lists of costs *)
Lemma get_sim l k i : Forall2 rel l k -> sim rel (get l i) (get k i).
Proof. intros H. revert i. induction H as [|x z l k R H IH]; intros [|i]; simpl; auto. apply IH. Qed.
Lemma upd_rel l k i x z : Forall2 rel l k -> rel x z -> Forall2 rel (upd l i x) (upd k i z).
Proof. intros H R. revert i. induction H; intros [|i]; simpl; auto. Qed.
Lemma F2_len {A B} (P : A -> B -> Prop) l k : Forall2 P l k -> length l = length k.
Proof. induction 1; simpl; auto. Qed.
Lemma set_sim l k i x z : Forall2 rel l k -> rel x z -> sim (Forall2 rel) (set l i x) (set k i z).
Proof. intros H R. unfold set. rewrite (F2_len H). destruct (i <? length k)%nat; simpl; auto. apply upd_rel; auto. Qed.

(** The caches *)
Section Caches.
Variables (cc : bitset -> bitset -> bitset -> xnum) (cf : bitset -> bitset -> bitset -> Z).
Hypothesis CR : forall a b c, rel (cc a b c) (cf a b c).
Definition rcc (x : list xnum * list xnum) (k : cost_cache) : Prop := Forall2 rel (fst x) (pcost k) /\ Forall2 rel (snd x) (ccost k).
Lemma visit_sim c x k pos : rcc x k -> sim rcc (xcost_cache_visit xa cc c x pos) (fcost_cache_visit ar cf c k pos).
Proof.
  destruct x as [ps ks]. intros (P & K). cbn [fst snd] in *. unfold xcost_cache_visit, fcost_cache_visit. apply sim_same. intros n _. destruct (is_leaf n).
  - eapply sim_bind; [apply set_sim; [exact K|apply rel_0]|]. intros k1 k2 Rk. eapply sim_bind; [apply set_sim; [exact P|apply rel_0]|]. intros p1 p2 Rp. split; auto.
  - destruct (c0 n) as [a|]; [|simpl; auto]. destruct (c1 n) as [b|]; [|simpl; auto]. do 3 (apply sim_same; intros ? _).
    eapply sim_bind; [apply get_sim; exact P|]. intros x1 z1 R1. eapply sim_bind; [apply get_sim; exact P|]. intros x2 z2 R2.
    eapply sim_bind; [apply set_sim; [exact K|apply CR]|]. intros k1 k2 Rk. eapply sim_bind; [apply set_sim; [exact P|apply add_rel; auto; apply add_rel; auto]|]. intros p1 p2 Rp. split; auto.
Qed.
Lemma fold_sim {A B C} (Rl : A -> B -> Prop) (f : A -> C -> res A) (g : B -> C -> res B) : (forall a b c, Rl a b -> sim Rl (f a c) (g b c)) ->
  forall l a b, Rl a b -> sim Rl (fold_res f l a) (fold_res g l b).
Proof. intros H. induction l as [|c l IH]; simpl; intros a b R; auto. eapply sim_bind; [apply H; exact R|]. intros; apply IH; auto. Qed.
Lemma repeat_rel n : Forall2 rel (repeat (Fin 0) n) (repeat 0 n).
Proof. induction n; simpl; constructor; auto. apply rel_0. Qed.
Lemma make_sim c : sim rcc (xcost_cache_make xa cc c) (fcost_cache_make ar cf c).
Proof.
  unfold xcost_cache_make, fcost_cache_make. apply sim_same. intros order _. apply fold_sim; [intros; apply visit_sim; auto|]. split; apply repeat_rel.
Qed.
Lemma get_cost_sim c : sim rel (xget_cost xa cc c) (fget_cost ar cf c).
Proof.
  unfold xget_cost, fget_cost. apply sim_same. intros order _. apply fold_sim; [|apply rel_0]. intros a b pos R. unfold xget_cost_visit, fget_cost_visit. apply sim_same. intros n _.
  destruct (is_leaf n); [exact R|]. destruct (c0 n); [|simpl; auto]. destruct (c1 n); [|simpl; auto]. do 3 (apply sim_same; intros ? _). simpl. apply add_rel; auto.
Qed.
End Caches.

(** The generator of the simulation: it draws as the given one and takes the decisions,
    and the states after them, from a list. *)
Definition scripted {R} (rd : xrand R) : rand (R * list (bool * R)) :=
  mkRand (fun s => let '(x, r) := xdraw rd (fst s) in (x, (r, snd s)))
         (fun s _ _ => match snd s with [] => (false, s) | (b, r) :: l => (b, (r, l)) end).
Lemma nn_scripted {R} (rd : xrand R) c ds r sc p :
  get_ctree_nn (scripted rd) c ds (r, sc) p = let! (nn, r1) := get_ctree_nn (only_draw rd) c ds r p in Ok (nn, (r1, sc)).
Proof.
  destruct p as [B|]; [|reflexivity]. unfold get_ctree_nn. destruct (get (nodes c) B) as [n|]; cbn [bind]; auto. destruct (is_root n || is_leaf n); auto.
  destruct (par n) as [A|]; auto. destruct (c0 n) as [p0|]; auto. destruct (c1 n) as [p1|]; auto. destruct (get (nodes c) A) as [nA|]; cbn [bind]; auto.
  destruct (if oeqb (c0 nA) (Some B) then c1 nA else c0 nA) as [C|]; auto. destruct (get (inds c) C) as [iC|]; cbn [bind]; auto. destruct (get (inds c) p0) as [i0|]; cbn [bind]; auto. destruct (get (inds c) p1) as [i1|]; cbn [bind]; auto.
  destruct (ds || _); [|destruct (bintersects i0 iC); auto]. cbn [scripted only_draw draw fst snd]. destruct (xdraw rd r) as [x r']. destruct (Nat.odd x); reflexivity.
Qed.

(** The same tree and caches, up to the range; the best tree is not compared. *)
Record srel {R} (xs : x_state R) (sc : list (bool * R)) (fs : im_state (R * list (bool * R))) : Prop := {
  sr_ct : im_ct fs = xs_ct xs; sr_ds : im_ds fs = xs_ds xs; sr_rng : im_rng fs = (xs_rng xs, sc); sr_cm : im_cm fs = xs_cm xs;
  sr_pc : Forall2 rel (xs_pc xs) (pcost (im_cc fs)); sr_cc : Forall2 rel (xs_cc xs) (ccost (im_cc fs)); sr_hyper : im_hyper fs = xs_hyper xs }.

(** What is decided in an iteration *)
Definition decision {R} (rd : xrand R) (s : x_state R) (total : xnum) (pos_B : nat) : res (bool * R) :=
  let c := xs_ct s in
  let! (nn, r1) := get_ctree_nn (only_draw rd) c (xs_ds s) (xs_rng s) (Some pos_B) in
  match nn with
  | None => Err Throw
  | Some (pos_A, pos_C, pos_D, pos_E) =>
      let! inds_A := get (inds c) pos_A in
      let! inds_B := get (inds c) pos_B in
      let! inds_C := get (inds c) pos_C in
      let! inds_D := get (inds c) pos_D in
      let! inds_E := get (inds c) pos_E in
      let! hyper_A := get (xs_hyper s) pos_A in
      let! hyper_B := get (xs_hyper s) pos_B in
      let new_B := bor (bor (bxor inds_D inds_C) hyper_A) hyper_B in
      let! ccost_A := get (xs_cc s) pos_A in
      let! ccost_B := get (xs_cc s) pos_B in
      let new_ccost_A := xccost_of xa (xs_cm s) inds_A new_B inds_E (dims c) in
      let new_ccost_B := xccost_of xa (xs_cm s) new_B inds_D inds_C (dims c) in
      let delta := xadd xa (xsub xa new_ccost_B ccost_B) (xsub xa new_ccost_A ccost_A) in
      Ok (xaccept rd r1 delta total)
  end.
Definition line {R} (d : res (bool * R)) : list (bool * R) := match d with Ok x => [x] | Err _ => [] end.

Definition good (m : cmodel) : Prop := projs_fit xa m /\ match m with Simple => True | Sparse _ np => 1 <= np end.
Lemma iter_sim {R} (rd : xrand R) xs total B tail fs ftotal :
  dims_pos (dims (xs_ct xs)) -> good (xs_cm xs) -> srel xs (line (decision rd xs total B) ++ tail) fs ->
  sim (fun x f => srel (fst x) tail (fst f) /\ dims (xs_ct (fst x)) = dims (xs_ct xs) /\ xs_cm (fst x) = xs_cm xs /\
         match snd x, snd f with None, None => True | Some (_, A), Some (_, A') => A = A' | _, _ => False end)
    (x_iter xa rd xs total B) (fim_iter ar (scripted rd) fs ftotal B).
Proof.
  intros DP GM [E1 E2 E3 E4 P K E5]. unfold x_iter, fim_iter, decision in *. rewrite E1, E2, E3, E4, E5 in *. rewrite nn_scripted.
  destruct (get_ctree_nn (only_draw rd) (xs_ct xs) (xs_ds xs) (xs_rng xs) (Some B)) as [[nn r1]|e] eqn:EN; cbn [bind]; [|reflexivity].
  destruct nn as [[[[A C] D] E]|]; cbn [bind line app] in *.
  2:{ split; [constructor; auto; cbn; rewrite ?E1, ?E2, ?E4, ?E5; auto|]. cbn. auto. }
  destruct (get (inds (xs_ct xs)) A) as [iA|]; cbn [bind]; [|reflexivity]. destruct (get (inds (xs_ct xs)) B) as [iB|]; cbn [bind]; [|reflexivity].
  destruct (get (inds (xs_ct xs)) C) as [iC|]; cbn [bind]; [|reflexivity]. destruct (get (inds (xs_ct xs)) D) as [iD|]; cbn [bind]; [|reflexivity]. destruct (get (inds (xs_ct xs)) E) as [iE|]; cbn [bind]; [|reflexivity].
  destruct (get (xs_hyper xs) A) as [hA|]; cbn [bind]; [|reflexivity]. destruct (get (xs_hyper xs) B) as [hB|]; cbn [bind]; [|reflexivity].
  pose proof (get_sim A K) as GA. destruct (get (xs_cc xs) A) as [kA|], (get (ccost (im_cc fs)) A) as [zA|]; cbn [bind sim] in *; try contradiction; auto.
  pose proof (get_sim B K) as GB. destruct (get (xs_cc xs) B) as [kB|], (get (ccost (im_cc fs)) B) as [zB|]; cbn [bind sim] in *; try contradiction; auto.
  set (nb := bor (bor (bxor iD iC) hA) hB). cbn [line app].
  destruct GM as [G1 G2]. pose proof (relp_rel (ccost_rel iA nb iE DP G1 G2)) as RA. pose proof (relp_rel (ccost_rel nb iD iC DP G1 G2)) as RB.
  set (xA := xccost_of xa (xs_cm xs) iA nb iE (dims (xs_ct xs))) in *. set (xB := xccost_of xa (xs_cm xs) nb iD iC (dims (xs_ct xs))) in *.
  set (fA := fccost_of ar (xs_cm xs) iA nb iE (dims (xs_ct xs))) in *. set (fB := fccost_of ar (xs_cm xs) nb iD iC (dims (xs_ct xs))) in *.
  destruct (xaccept rd r1 _ total) as [acc r2]. cbn [scripted accept fst snd]. 
  eapply sim_bind with (Ra := fun x f => let '(c', C', E', h', k', _) := x in let '(cf, Cf, Ef, hf, kf, _) := f in
     c' = cf /\ C' = Cf /\ E' = Ef /\ h' = hf /\ Forall2 rel k' kf /\ dims c' = dims (xs_ct xs)).
  - destruct acc; [|cbn; auto 10]. do 4 (apply sim_same; intros ? _). eapply sim_bind; [apply set_sim; [exact K|exact RB]|]. intros k1 k2 R1. eapply sim_bind; [apply set_sim; [exact R1|exact RA]|]. intros k3 k4 R2. cbn. auto 10.
  - intros [[[[[c' C'] E'] h'] k'] t'] [[[[[cf Cf] Ef] hf] kf] tf] (-> & -> & -> & -> & RK & DD).
    eapply sim_bind; [apply get_sim; exact P|]. intros pD qD R1. eapply sim_bind; [apply get_sim; exact P|]. intros pE qE R2. eapply sim_bind; [apply get_sim; exact RK|]. intros wB vB R3.
    eapply sim_bind; [apply set_sim; [exact P|apply add_rel; auto; apply add_rel; auto]|]. intros p1 q1 RP.
    eapply sim_bind; [apply get_sim; exact RP|]. intros pB qB R4. eapply sim_bind; [apply get_sim; exact RP|]. intros pC qC R5. eapply sim_bind; [apply get_sim; exact RK|]. intros wA vA R6.
    eapply sim_bind; [apply set_sim; [exact RP|apply add_rel; auto; apply add_rel; auto]|]. intros p2 q2 RP2.
    cbn. split; [constructor; auto|]. auto.
Qed.

Lemma loop_sim {R} (rd : xrand R) : forall fuel xs total B, exists sc, forall tail fs ftotal,
  dims_pos (dims (xs_ct xs)) -> good (xs_cm xs) -> srel xs (sc ++ tail) fs ->
  sim (fun x f => srel x tail f /\ dims (xs_ct x) = dims (xs_ct xs) /\ xs_cm x = xs_cm xs) (x_loop xa rd fuel xs total B) (fim_loop ar (scripted rd) fuel fs ftotal B).
Proof.
  induction fuel as [|fuel IH]; intros xs total B; [exists []; intros; reflexivity|]. cbn [x_loop fim_loop].
  destruct (x_iter xa rd xs total B) as [[xs1 nxt]|e] eqn:EX.
  - destruct nxt as [[t1 A]|].
    + destruct (IH xs1 t1 A) as (sc & H). exists (line (decision rd xs total B) ++ sc). intros tail fs ftotal DP GM SR. rewrite <- app_assoc in SR. pose proof (iter_sim ftotal DP GM SR) as S. rewrite EX in S.
      destruct (fim_iter ar (scripted rd) fs ftotal B) as [[fs1 nf]|]; [|destruct S]. destruct S as (S1 & S2 & S3 & S4). cbn [fst snd bind] in *. destruct nf as [[tf Af]|]; [|destruct S4]. subst Af.
      specialize (H tail fs1 tf). rewrite S2, S3 in H. apply H; auto.
    + exists (line (decision rd xs total B)). intros tail fs ftotal DP GM SR. pose proof (iter_sim ftotal DP GM SR) as S. rewrite EX in S.
      destruct (fim_iter ar (scripted rd) fs ftotal B) as [[fs1 nf]|]; [|destruct S]. destruct S as (S1 & S2 & S3 & S4). cbn [fst snd bind] in *. destruct nf as [[tf Af]|]; [destruct S4|]. cbn. auto.
  - exists (line (decision rd xs total B)). intros tail fs ftotal DP GM SR. pose proof (iter_sim ftotal DP GM SR) as S. rewrite EX in S. destruct (fim_iter ar (scripted rd) fs ftotal B) as [|]; [destruct S|]. cbn in *. exact S.
Qed.

Lemma total_sim {R} (xs : x_state R) sc fs : srel xs sc fs -> sim rel (x_total xs) (im_total fs).
Proof. intros S. unfold x_total, im_total, back. rewrite (F2_len (sr_pc S)). apply get_sim, S. Qed.

Lemma update_sim {R} (rd : xrand R) xs : exists sc, forall tail fs,
  dims_pos (dims (xs_ct xs)) -> good (xs_cm xs) -> srel xs (sc ++ tail) fs ->
  sim (fun x f => srel x tail f /\ dims (xs_ct x) = dims (xs_ct xs) /\ xs_cm x = xs_cm xs) (x_update xa rd xs) (fim_update ar (scripted rd) fs).
Proof.
  unfold x_update. destruct (xdraw rd (xs_rng xs)) as [x r0] eqn:ED. set (leaf := Nat.modulo x (n_leaves (nodes (xs_ct xs)))).
  destruct (get (nodes (xs_ct xs)) leaf) as [n|e] eqn:EG; cbn [bind].
  2:{ exists []. intros tail fs DP GM S. unfold fim_update. cbn [scripted draw]. rewrite (sr_rng S), (sr_ct S). cbn [fst snd]. rewrite ED. fold leaf. rewrite EG. reflexivity. }
  destruct (par n) as [B|] eqn:EP.
  2:{ exists []. intros tail fs DP GM S. unfold fim_update. cbn [scripted draw]. rewrite (sr_rng S), (sr_ct S). cbn [fst snd]. rewrite ED. fold leaf. rewrite EG. cbn [bind]. rewrite EP. cbn. split; auto. destruct S. constructor; auto. }
  destruct (x_total (xwith_rng xs r0)) as [t|e] eqn:ET; cbn [bind].
  2:{ exists []. intros tail fs DP GM S. unfold fim_update. cbn [scripted draw]. rewrite (sr_rng S), (sr_ct S). cbn [fst snd]. rewrite ED. fold leaf. rewrite EG. cbn [bind]. rewrite EP.
      pose proof (total_sim S) as T. change (x_total xs = Err e) in ET. rewrite ET in T. change (im_total (with_rng fs (r0, [] ++ tail))) with (im_total fs). destruct (im_total fs); [destruct T|]. exact T. }
  destruct (loop_sim rd (length (nodes (xs_ct xs))) (xwith_rng xs r0) t B) as (sc & H). exists sc. intros tail fs DP GM S. unfold fim_update. cbn [scripted draw]. rewrite (sr_rng S), (sr_ct S). cbn [fst snd]. rewrite ED. fold leaf. rewrite EG. cbn [bind]. rewrite EP.
  pose proof (total_sim S) as T. change (x_total xs = Ok t) in ET. rewrite ET in T. change (im_total (with_rng fs (r0, sc ++ tail))) with (im_total fs). destruct (im_total fs) as [ft|]; [|destruct T]. cbn [bind].
  eapply sim_bind; [apply (H tail); auto; destruct S; constructor; auto|]. intros xs1 fs1 (S1 & S2 & S3). cbn [xwith_rng xs_ct xs_cm] in *. unfold x_update_min, im_update_min.
  eapply sim_bind; [apply (total_sim S1)|]. intros t1 z1 _. destruct (xltb t1 (xs_min xs1)), (z1 <? im_min fs1); cbn; (split; [|auto]); destruct S1; constructor; auto.
Qed.

Lemma run_sim {R} : forall (rds : list (xrand R)) xs, exists sc, forall tail fs,
  dims_pos (dims (xs_ct xs)) -> good (xs_cm xs) -> srel xs (sc ++ tail) fs ->
  sim (fun x f => srel x tail f /\ dims (xs_ct x) = dims (xs_ct xs) /\ xs_cm x = xs_cm xs) (x_run xa rds xs) (fim_run ar (map (@scripted R) rds) fs).
Proof.
  induction rds as [|rd rds IH]; intros xs; [exists []; intros; cbn; auto|]. cbn [x_run map fim_run]. destruct (update_sim rd xs) as (s1 & H1). destruct (x_update xa rd xs) as [x1|e] eqn:E.
  - destruct (IH x1) as (s2 & H2). exists (s1 ++ s2). intros tail fs DP GM S. rewrite <- app_assoc in S. specialize (H1 _ fs DP GM S). destruct (fim_update ar (scripted rd) fs) as [f1|]; [|destruct H1]. destruct H1 as (S1 & D1 & C1). cbn [bind].
    specialize (H2 tail f1). rewrite D1, C1 in H2. apply H2; auto.
  - exists s1. intros tail fs DP GM S. specialize (H1 _ fs DP GM S). destruct (fim_update ar (scripted rd) fs) as [f1|]; [destruct H1|]. exact H1.
Qed.
End Sim.
