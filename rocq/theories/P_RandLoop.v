(** get_random_contraction_path: the contraction of one connected component. *)
From Coq Require Import List Arith Bool Lia Permutation.
Import ListNotations.
From Verif Require Import M_Base M_Path M_PyTree M_Random S_Path S_Random P_Path P_Split P_PathMain P_PyBuild P_PyTens P_RandColor.
Set Implicit Arguments.
Unset Strict Implicit.

(** ** Positions in an increasing list *)
Definition incr (l : list nat) : Prop := forall i j a b, i < j -> nth_error l i = Some a -> nth_error l j = Some b -> a < b.

Lemma bisect_ok fuel : forall l x i lo hi, incr l -> nth_error l i = Some x -> lo <= i -> i <= hi -> hi <= length l ->
  hi - lo < fuel -> bisect fuel l x lo hi = Ok i.
Proof.
  induction fuel as [|f IH]; intros l x i lo hi HI Hi H1 H2 H3 H4; [lia|]. cbn [bisect]. cbv zeta.
  destruct (Nat.ltb_spec lo hi) as [H|H].
  - pose proof (Nat.div_mod (lo + hi) 2 ltac:(lia)) as HM. pose proof (Nat.mod_upper_bound (lo + hi) 2 ltac:(lia)) as HB.
    set (mid := (lo + hi) / 2) in *. assert (HL : mid < length l) by lia. unfold get.
    destruct (nth_error l mid) as [v|] eqn:E; [|apply nth_error_None in E; lia]. cbn [bind].
    destruct (Nat.ltb_spec v x) as [L|L].
    + apply IH; auto; try lia. destruct (Nat.lt_trichotomy mid i) as [K|[K|K]]; [lia| |].
      * subst i. rewrite E in Hi. inversion Hi. lia.
      * pose proof (HI _ _ _ _ K Hi E). lia.
    + apply IH; auto; try lia. destruct (Nat.lt_trichotomy mid i) as [K|[K|K]]; [|lia|lia].
      pose proof (HI _ _ _ _ K E Hi). lia.
  - f_equal. lia.
Qed.
Lemma bisect_left_ok l x i : incr l -> nth_error l i = Some x -> bisect_left l x = Ok i.
Proof.
  intros HI Hi. apply bisect_ok; auto; try lia. apply Nat.lt_le_incl. apply nth_error_Some. congruence.
Qed.

(** The linear path of a list of contractions: the positions before each step. *)
Inductive lin : list triple -> list nat -> path -> list nat -> Prop :=
| lin_nil loc : lin [] loc [] loc
| lin_cons x y z p loc i j lo hi q loc' : incr loc -> nth_error loc i = Some x -> nth_error loc j = Some y -> i <> j ->
    sort2 i j = (lo, hi) -> lin p (without lo hi loc ++ [z]) q loc' -> lin ((x, y, z) :: p) loc ((lo, hi) :: q) loc'.
Lemma lin_ok p loc q loc' : lin p loc q loc' -> linear_path p loc = Ok q.
Proof.
  intros H. induction H as [|x y z p loc i j lo hi q loc' HI Hi Hj Hn Hs H IH]; auto.
  simpl. rewrite (bisect_left_ok HI Hi). cbn [bind]. rewrite (bisect_left_ok HI Hj). cbn [bind]. rewrite Hs.
  destruct (sort2_spec Hn) as (lo' & hi' & Es & Hlt & Hc). rewrite Hs in Es. inversion Es; subst lo' hi'.
  assert (exists a b, nth_error loc lo = Some a /\ nth_error loc hi = Some b) as (a & b & Ha & Hb) by (destruct Hc as [[-> ->]|[-> ->]]; eauto).
  destruct (pop_two Hlt Ha Hb) as (l1 & E1 & E2). rewrite E1. cbn [bind]. rewrite E2. cbn [bind]. rewrite IH. auto.
Qed.
Lemma lin_snoc p : forall loc q loc' x y z i j lo hi, lin p loc q loc' -> incr loc' -> nth_error loc' i = Some x -> nth_error loc' j = Some y -> i <> j ->
    sort2 i j = (lo, hi) -> lin (p ++ [(x, y, z)]) loc (q ++ [(lo, hi)]) (without lo hi loc' ++ [z]).
Proof.
  induction p as [|t p IH]; intros loc q loc' x y z i j lo hi H HI Hi Hj Hn Hs.
  - inversion H; subst. simpl. eapply lin_cons; eauto. constructor.
  - inversion H; subst. simpl. eapply lin_cons; eauto.
Qed.

Lemma without_from_inc (A : Type) (l : list A) : forall i x y k a, nth_error (without_from i x y l) k = Some a ->
  exists k', k <= k' /\ nth_error l k' = Some a.
Proof.
  induction l as [|c l IH]; intros i x y k a; simpl; [destruct k; discriminate|].
  destruct ((i =? x) || (i =? y)).
  - intros H. destruct (IH _ _ _ _ _ H) as (k' & A1 & A2). exists (S k'). split; auto.
  - destruct k as [|k]; simpl; [exists 0; auto|]. intros H. destruct (IH _ _ _ _ _ H) as (k' & A1 & A2). exists (S k'). split; auto. lia.
Qed.
Lemma incr_cons a l : incr (a :: l) <-> (forall b, In b l -> a < b) /\ incr l.
Proof.
  split.
  - intros H. split.
    + intros b Hb. apply In_nth_error in Hb. destruct Hb as (k & Hk). apply (H 0 (S k) a b); auto. lia.
    + intros i j x y L Hi Hj. apply (H (S i) (S j)); auto. lia.
  - intros [H1 H2] [|i] [|j] x y L Hi Hj; simpl in *; try lia.
    + inversion Hi; subst. apply H1. eapply nth_error_In; eauto.
    + apply (H2 i j); auto. lia.
Qed.
Lemma incr_without_from l : forall i x y, incr l -> incr (without_from i x y l).
Proof.
  induction l as [|c l IH]; intros i x y H; simpl; auto. apply incr_cons in H. destruct H as [H1 H2].
  destruct ((i =? x) || (i =? y)); auto. apply incr_cons. split; auto. intros b Hb. apply In_nth_error in Hb. destruct Hb as (k & Hk).
  apply without_from_inc in Hk. destruct Hk as (k' & _ & Hk). apply H1. eapply nth_error_In; eauto.
Qed.
Lemma incr_app l z : incr l -> (forall a, In a l -> a < z) -> incr (l ++ [z]).
Proof.
  induction l as [|c l IH]; intros H1 H2; simpl.
  - apply incr_cons. split; [intros b []|]. intros i j a b L Hi; destruct i; discriminate.
  - apply incr_cons in H1. apply incr_cons. destruct H1 as [A B]. split.
    + intros b Hb. apply in_app_iff in Hb. destruct Hb as [Hb|[<-|[]]]; auto. apply H2. left. auto.
    + apply IH; auto. intros a Ha. apply H2. right. auto.
Qed.
Lemma incr_seq k : forall s, incr (seq s k).
Proof.
  induction k as [|k IH]; intros s; simpl; [intros i j a b L Hi; destruct i; discriminate|]. apply incr_cons. split; auto.
  intros b Hb. apply in_seq in Hb. lia.
Qed.
Lemma incr_nodup l : incr l -> NoDup l.
Proof.
  induction l as [|a l IH]; intros H; constructor; apply incr_cons in H; destruct H as [H1 H2]; auto. intros K. apply H1 in K. lia.
Qed.
Lemma swap_ok l i : i < length l -> exists l' x, swap_pos l i (length l - 1) = Ok l' /\ length l' = length l /\ Permutation l l' /\
  nth_error l' (length l - 1) = Some x /\ l' = removelast l' ++ [x].
Proof.
  intros H. set (k := length l - 1). assert (Hk : k < length l) by (unfold k; lia).
  unfold swap_pos. rewrite (get_nth 0 H). cbn [bind]. rewrite (get_nth 0 Hk). cbn [bind].
  rewrite (set_ok _ H). cbn [bind]. rewrite set_ok by (rewrite upd_len; auto).
  set (l' := upd (upd l i (nth k l 0)) k (nth i l 0)). exists l', (nth i l 0).
  assert (L : length l' = length l) by (unfold l'; rewrite !upd_len; auto).
  assert (N : forall j, nth j l' 0 = if j =? k then nth i l 0 else if j =? i then nth k l 0 else nth j l 0).
  { intros j. unfold l'. rewrite nth_upd by (rewrite upd_len; auto). rewrite nth_upd by auto. auto. }
  assert (E : nth_error l' k = Some (nth i l 0)).
  { rewrite (nth_error_nth' l' 0) by lia. rewrite N, Nat.eqb_refl. auto. }
  repeat split; auto.
  - apply Permutation_nth with (d := 0). split; auto. set (f := fun j => if j =? k then i else if j =? i then k else j).
    exists f. split; [|split].
    + intros j Hj. unfold f. destruct (j =? k); auto. destruct (j =? i); auto.
    + intros a b Ha Hb. unfold f. destruct (Nat.eqb_spec a k), (Nat.eqb_spec b k), (Nat.eqb_spec a i), (Nat.eqb_spec b i); subst; auto; congruence.
    + intros j Hj. rewrite N. unfold f. destruct (j =? k); auto. destruct (j =? i); auto.
  - assert (NE : l' <> []) by (intros K; rewrite K in E; destruct k; discriminate).
    rewrite (app_removelast_last 0 NE) at 1. f_equal. f_equal.
    pose proof (app_removelast_last 0 NE) as A. rewrite A in E. rewrite nth_error_app2 in E.
    + assert (B : k - length (removelast l') = 0). { pose proof (f_equal (@length nat) A) as C. rewrite app_length in C. simpl in C. unfold k. lia. }
      rewrite B in E. simpl in E. congruence.
    + pose proof (f_equal (@length nat) A) as C. rewrite app_length in C. simpl in C. unfold k. lia.
Qed.

(** ** Contracting two tensors *)
Lemma use_shared_ok sh : forall h, NoDup sh -> (forall x, In x sh -> 0 < nth x h 0) ->
  exists h', use_shared sh h = Ok h' /\ length h' = length h /\ forall x, nth x h' 0 = nth x h 0 - (if memb x sh then 1 else 0).
Proof.
  induction sh as [|x sh IH]; intros h HN H; simpl.
  - exists h. repeat split; auto. intros. lia.
  - inversion HN as [|? ? N1 N2]; subst. pose proof (H x (or_introl eq_refl)) as Hx.
    assert (L : x < length h). { destruct (Nat.lt_ge_cases x (length h)); auto. rewrite nth_overflow in Hx by auto. lia. }
    rewrite (get_nth 0 L). cbn [bind]. destruct (Nat.eqb_spec (nth x h 0) 0); [lia|]. rewrite (set_ok _ L). cbn [bind].
    destruct (IH (upd h x (nth x h 0 - 1))) as (h' & E & L' & N'); auto.
    { intros y Hy. rewrite nth_upd by auto. destruct (Nat.eqb_spec y x); [subst; tauto|]. apply H. right. auto. }
    exists h'. split; auto. rewrite upd_len in L'. split; auto. intros y. rewrite N'. rewrite nth_upd by auto. unfold memb. simpl. fold (memb y sh).
    destruct (Nat.eqb_spec y x); auto. subst y. simpl. destruct (memb x sh) eqn:M; [apply memb_In in M; tauto|lia].
Qed.
Lemma push_all_ok zs tz : forall i2t, NoDup zs -> (forall x, In x zs -> x < length i2t) ->
  exists i2t', push_all zs tz i2t = Ok i2t' /\ length i2t' = length i2t /\
    forall x, nth x i2t' [] = nth x i2t [] ++ (if memb x zs then [tz] else []).
Proof.
  induction zs as [|x zs IH]; intros i2t HN H; simpl.
  - exists i2t. repeat split; auto. intros. rewrite app_nil_r. auto.
  - inversion HN as [|? ? N1 N2]; subst. pose proof (H x (or_introl eq_refl)) as L.
    rewrite (get_nth [] L). cbn [bind]. rewrite (set_ok _ L). cbn [bind].
    destruct (IH (upd i2t x (nth x i2t [] ++ [tz]))) as (i' & E & L' & N'); auto.
    { intros y Hy. rewrite upd_len. apply H. right. auto. }
    exists i'. split; auto. rewrite upd_len in L'. split; auto. intros y. rewrite N'. rewrite nth_upd by auto. unfold memb. simpl. fold (memb y zs).
    destruct (Nat.eqb_spec y x); auto. subst y. simpl. destruct (memb x zs) eqn:M; [apply memb_In in M; tauto|]. apply app_nil_r.
Qed.

Definition two (s : rstate) (tx ty : nat) (s' : rstate) : Prop :=
  let X := nth tx (r_ts s) [] in let Y := nth ty (r_ts s) [] in
  exists zs, r_ts s' = r_ts s ++ [zs] /\ NoDup zs /\
    (forall x, In x zs <-> (In x X /\ ~ In x Y) \/ (In x Y /\ ~ In x X) \/ (In x X /\ In x Y /\ 1 < nth x (r_h s) 0)) /\
    (forall x, nth x (r_i2t s') [] = nth x (r_i2t s) [] ++ (if memb x zs then [length (r_ts s)] else [])) /\
    (forall x, nth x (r_h s') 0 = nth x (r_h s) 0 - (if memb x X && memb x Y then 1 else 0)) /\
    length (r_i2t s') = length (r_i2t s) /\ length (r_h s') = length (r_h s).
Lemma two_sym s tx ty s' : two s tx ty s' -> two s ty tx s'.
Proof.
  intros (zs & A & B & D & E & F & G & H). exists zs. repeat split; auto.
  - intros K. apply D in K. tauto.
  - intros K. apply D. tauto.
  - intros x. rewrite F, andb_comm. auto.
Qed.

Lemma NoDup_filter' (A : Type) (f : A -> bool) l : NoDup l -> NoDup (filter f l).
Proof. apply NoDup_filter. Qed.

Lemma contract_two_ok s tx ty : tx < length (r_ts s) -> ty < length (r_ts s) ->
  NoDup (nth tx (r_ts s) []) -> NoDup (nth ty (r_ts s) []) ->
  (forall x, In x (nth tx (r_ts s) []) \/ In x (nth ty (r_ts s) []) -> x < length (r_i2t s)) ->
  (exists x, In x (nth tx (r_ts s) []) /\ In x (nth ty (r_ts s) [])) ->
  (forall x, In x (nth tx (r_ts s) []) -> In x (nth ty (r_ts s) []) -> 0 < nth x (r_h s) 0) ->
  exists s', contract_two s tx ty = Ok s' /\ two s tx ty s'.
Proof.
  intros Lx Ly Nx Ny Hb (w & Hwx & Hwy) Hh. unfold contract_two. rewrite (get_nth [] Lx). cbn [bind]. rewrite (get_nth [] Ly). cbn [bind].
  set (X := nth tx (r_ts s) []) in *. set (Y := nth ty (r_ts s) []) in *. cbv zeta. set (sh := filter (fun x => memb x Y) X).
  assert (Hsh : forall x, In x sh <-> In x X /\ In x Y) by (intros; unfold sh; rewrite filter_In, memb_In; tauto).
  assert (Nsh : NoDup sh) by (apply NoDup_filter'; auto).
  destruct (use_shared_ok (h := r_h s) Nsh) as (h' & E & L & N). { intros x Hx. apply Hsh in Hx. destruct Hx. auto. }
  assert (Hm : match sh with [] => False | _ => True end). { destruct sh; auto. apply (proj2 (Hsh w)). auto. }
  match goal with |- exists s', ?e = _ /\ _ => assert (EQ : e = (let! h'0 := use_shared sh (r_h s) in
      let zs := filter (fun x => negb (memb x Y)) X ++ filter (fun x => negb (memb x X)) Y ++
                filter (fun x => negb (nth x h'0 0 =? 0)) sh in
      let! i2t' := push_all zs (length (r_ts s)) (r_i2t s) in
      Ok (mkR (r_ts s ++ [zs]) i2t' h'0))) end.
  { destruct sh; [destruct Hm|reflexivity]. }
  rewrite EQ. clear EQ. rewrite E. cbn [bind]. cbv zeta.
  set (zs := filter (fun x => negb (memb x Y)) X ++ filter (fun x => negb (memb x X)) Y ++ filter (fun x => negb (nth x h' 0 =? 0)) sh).
  assert (Hz : forall x, In x zs <-> (In x X /\ ~ In x Y) \/ (In x Y /\ ~ In x X) \/ (In x X /\ In x Y /\ 1 < nth x (r_h s) 0)).
  { intros x. unfold zs. rewrite !in_app_iff, !filter_In, !negb_true_iff, !memb_nIn, Nat.eqb_neq, N, Hsh.
    destruct (memb x sh) eqn:M.
    - apply memb_In in M. apply Hsh in M. intuition lia.
    - apply memb_nIn in M. rewrite Hsh in M. tauto. }
  assert (Nz : NoDup zs).
  { unfold zs. apply NoDup_app. split; [apply NoDup_filter'; auto|]. split.
    - apply NoDup_app. split; [apply NoDup_filter'; auto|]. split; [apply NoDup_filter'; auto|].
      intros x A B. apply filter_In in A, B. rewrite Hsh in B. rewrite negb_true_iff, memb_nIn in A. tauto.
    - intros x A B. apply filter_In in A. rewrite negb_true_iff, memb_nIn in A. apply in_app_iff in B. destruct B as [B|B]; apply filter_In in B; [tauto|].
      rewrite Hsh in B. tauto. }
  destruct (push_all_ok (length (r_ts s)) (i2t := r_i2t s) Nz) as (i' & E2 & L2 & N2). { intros x Hx. apply Hb. apply Hz in Hx. tauto. }
  rewrite E2. cbn [bind]. eexists. split; [reflexivity|]. exists zs. simpl. repeat split; auto; try (apply Hz).
  intros x. rewrite N. f_equal. replace (memb x sh) with (memb x X && memb x Y); auto.
  apply eq_true_iff_eq. rewrite andb_true_iff, !memb_In, Hsh. tauto.
Qed.
