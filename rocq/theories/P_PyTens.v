(** ContractionTree.__init__: the indices of the intermediate tensors. *)
From Coq Require Import Permutation Sorted.
From Verif Require Import M_Base M_Tree M_Path M_PyTree S_Tree S_Path S_PyTree P_Base P_Path P_Split P_PathMain P_Tree P_Shape P_TreeProps P_TreeMain P_TreeValid P_PyRun P_PyPath P_PyBuild.
Set Implicit Arguments.
Unset Strict Implicit.

Lemma shared_loop_ok shared : forall h iz, NoDup shared -> (forall s, In s shared -> 0 < h s) ->
  exists h', shared_loop shared h iz = Ok (iz ++ filter (fun s => 1 <? h s) shared, h') /\
    forall y, h' y = h y - (if memb y shared then 1 else 0).
Proof.
  induction shared as [|s l IH]; intros h iz HN Hp; simpl.
  - exists h. rewrite app_nil_r. split; auto. intros y. lia.
  - inversion HN as [|? ? N1 N2]; subst. pose proof (Hp s (or_introl eq_refl)) as Hs.
    destruct (Nat.eqb_spec (h s) 0); [lia|].
    assert (Ed : decr h s s = h s - 1) by (unfold decr; rewrite Nat.eqb_refl; auto).
    assert (En : forall y, y <> s -> decr h s y = h y) by (intros y Hy; unfold decr; destruct (Nat.eqb_spec y s); congruence).
    destruct (IH (decr h s) (if 0 <? decr h s s then iz ++ [s] else iz) N2) as (h' & E & H).
    { intros y Hy. rewrite En; [apply Hp; simpl; auto|]. intros ->. contradiction. }
    exists h'. rewrite E. split.
    + do 2 f_equal. rewrite (filter_ext_in (fun s0 => 1 <? decr h s s0) (fun s0 => 1 <? h s0)).
      2:{ intros y Hy. rewrite En; auto. intros ->. contradiction. }
      rewrite Ed. destruct (Nat.ltb_spec 0 (h s - 1)), (Nat.ltb_spec 1 (h s)); try lia; auto. rewrite <- app_assoc. auto.
    + intros y. rewrite H. unfold memb. simpl. fold (memb y l). destruct (Nat.eqb_spec y s) as [->|Hn]; simpl.
      * rewrite Ed. apply memb_nIn in N1. rewrite N1. lia.
      * rewrite En; auto.
Qed.

Lemma filter_perm (A : Type) (f : A -> bool) (l k : list A) : Permutation l k -> Permutation (filter f l) (filter f k).
Proof.
  induction 1; simpl; auto.
  - destruct (f x); auto.
  - destruct (f x), (f y); auto. constructor.
  - etransitivity; eauto.
Qed.

Section Build.
Variables (ts0 : list (list nat)) (used out : list nat).
Definition at_ (t x : nat) : Prop := exists xs, nth_error ts0 t = Some xs /\ In x xs.
Definition open (x : nat) : Prop := In x out \/ only_once ts0 used x.
Definition outer (S : bt) : list nat := filter (fun t => negb (memb t (leaves S))) used.
Definition spec (S : bt) (X : list nat) : Prop :=
  NoDup X /\ forall x, In x X <-> occurs ts0 (leaves S) x /\ (occurs ts0 (outer S) x \/ open x).
Definition carriers (ts : list (list nat)) (F : list bt) (x : nat) : nat :=
  length (filter (fun S => memb x (nth (top S) ts [])) F).

Lemma occurs_iff l x : occurs ts0 l x <-> exists t, In t l /\ at_ t x.
Proof. split; [intros (t & xs & H1 & H2 & H3)|intros (t & H1 & xs & H2 & H3)]; [exists t; split; auto; exists xs; auto|exists t, xs; auto]. Qed.
Lemma outer_in S t : In t (outer S) <-> In t used /\ ~ In t (leaves S).
Proof. unfold outer. rewrite filter_In, negb_true_iff, memb_nIn. tauto. Qed.
Lemma carriers_perm ts F F' x : Permutation F F' -> carriers ts F x = carriers ts F' x.
Proof. intros H. unfold carriers. apply Permutation_length. apply filter_perm. auto. Qed.
Lemma carriers_pos ts F x : 0 < carriers ts F x <-> exists S, In S F /\ In x (nth (top S) ts []).
Proof.
  unfold carriers. destruct (filter (fun S => memb x (nth (top S) ts [])) F) as [|V l] eqn:E; simpl.
  - split; [lia|]. intros (S & H1 & H2). assert (HS : In S (filter (fun S => memb x (nth (top S) ts [])) F)).
    { apply filter_In. split; auto. apply memb_In. auto. }
    rewrite E in HS. destruct HS.
  - split; [|lia]. intros _. exists V. assert (HV : In V (filter (fun S => memb x (nth (top S) ts [])) F)) by (rewrite E; simpl; auto).
    apply filter_In in HV. destruct HV as (H1 & H2). apply memb_In in H2. auto.
Qed.

Definition shares (l r : bt) : Prop := exists x, occurs ts0 (leaves l) x /\ occurs ts0 (leaves r) x.

Lemma build_ok cs p : forall k G bs rest ts h F U, brun k G p = Some (bs, rest) -> Permutation G (F ++ U) ->
  (forall S, In S bs -> incl (leaves S) used) ->
  (forall S, In S U -> exists t, In t (leaves S) /\ ~ In t used) ->
  NoDup (flat_map leaves F) -> (forall t, In t used <-> In t (flat_map leaves F)) ->
  (forall S, In S F -> top S < k /\ exists X, nth_error ts (top S) = Some X /\ spec S X) ->
  k + length p <= length ts ->
  (forall x, h x = carriers ts F x - 1 + (if memb x out then 1 else 0)) ->
  (exists ts', build_tensors cs (map tri bs) ts h = Ok ts' /\ length ts' = length ts /\
     (forall i, i < k -> nth_error ts' i = nth_error ts i) /\
     (forall S, In S bs -> exists X, nth_error ts' (top S) = Some X /\ spec S X) /\
     (cs = true -> forall q l r, In (Nd q l r) bs -> shares l r)) \/
  (cs = true /\ build_tensors cs (map tri bs) ts h = Err Throw /\ exists q l r, In (Nd q l r) bs /\ ~ shares l r).
Proof.
  induction p as [|(a, b) p IH]; intros k G bs rest ts h F U H HP Hbs HU HN HC HF HL Hh.
  - simpl in H. inversion H; subst. left. exists ts. simpl. split; auto. split; auto. split; auto. split; [intros S []|intros _ q l r []].
  - destruct (brun_inv H) as (x & y & l & r & bs' & Es & Hxy & El & Er & -> & E).
    assert (PG := without_perm Hxy El Er).
    assert (Hsub : forall t, In t (leaves l) \/ In t (leaves r) -> In t used).
    { intros t Ht. apply (Hbs (Nd k l r)); [simpl; auto|]. simpl. apply in_app_iff. auto. }
    assert (HF2 : exists F0, Permutation F (l :: r :: F0) /\ Permutation (without x y G) (F0 ++ U)).
    { assert (Hl : In l F).
      { assert (Hl : In l (F ++ U)) by (rewrite <- HP; eapply nth_error_In; eauto). apply in_app_iff in Hl. destruct Hl as [Hl|Hl]; auto.
        destruct (HU _ Hl) as (t & H1 & H2). exfalso. auto. }
      apply in_split in Hl. destruct Hl as (F1 & F2 & EF).
      assert (PF : Permutation F (l :: F1 ++ F2)) by (rewrite EF; symmetry; apply Permutation_middle).
      assert (PW : Permutation (r :: without x y G) ((F1 ++ F2) ++ U)).
      { apply Permutation_cons_inv with (a := l). rewrite <- PG. rewrite HP, PF. auto. }
      assert (Hr : In r (F1 ++ F2)).
      { assert (Hr : In r ((F1 ++ F2) ++ U)) by (rewrite <- PW; simpl; auto). apply in_app_iff in Hr. destruct Hr as [Hr|Hr]; auto.
        destruct (HU _ Hr) as (t & H1 & H2). exfalso. auto. }
      apply in_split in Hr. destruct Hr as (F3 & F4 & EF3). exists (F3 ++ F4). split.
      - rewrite PF, EF3. constructor. symmetry. apply Permutation_middle.
      - apply Permutation_cons_inv with (a := r). rewrite PW, EF3. rewrite <- Permutation_middle. auto. }
    destruct HF2 as (F0 & PF & PW).
    assert (PL := Permutation_flat_map leaves PF). simpl in PL.
    assert (HN' : NoDup (leaves l ++ leaves r ++ flat_map leaves F0)) by (eapply Permutation_NoDup; eauto).
    assert (HC' : forall t, In t used <-> In t (leaves l) \/ In t (leaves r) \/ In t (flat_map leaves F0)).
    { intros t. rewrite HC, PL, !in_app_iff. tauto. }
    apply NoDup_app in HN'. destruct HN' as (Nl & HN' & Dl). apply NoDup_app in HN'. destruct HN' as (Nr & N0 & Dr).
    assert (Dlr : forall t, In t (leaves l) -> In t (leaves r) -> False) by (intros t H1 H2; apply (Dl t H1); apply in_app_iff; auto).
    assert (Dl0 : forall t, In t (leaves l) -> In t (flat_map leaves F0) -> False) by (intros t H1 H2; apply (Dl t H1); apply in_app_iff; auto).
    destruct (HF l) as (Tl & X & EX & SX); [rewrite PF; simpl; auto|].
    destruct (HF r) as (Tr & Y & EY & SY); [rewrite PF; simpl; auto|].
    assert (HF0 : forall S, In S F0 -> top S < k /\ exists X, nth_error ts (top S) = Some X /\ spec S X).
    { intros S HS. apply HF. rewrite PF. simpl. auto. }
    cbn [map tri build_tensors]. rewrite (get_some EX). cbn [bind]. rewrite (get_some EY). cbn [bind].
    set (ix := unique X). set (iy := unique Y).
    assert (Iix : forall i, In i ix <-> In i X) by (intros; apply unique_in).
    assert (Iiy : forall i, In i iy <-> In i Y) by (intros; apply unique_in).
    set (sh := filter (fun i => memb i iy) ix).
    assert (Ish : forall i, In i sh <-> In i X /\ In i Y).
    { intros i. unfold sh. rewrite filter_In, memb_In, Iix, Iiy. tauto. }
    assert (Nsh : NoDup sh) by (apply NoDup_filter, unique_nodup).
    (* a tensor carries an index that occurs below it and elsewhere *)
    assert (HlX : forall i, occurs ts0 (leaves l) i -> occurs ts0 (leaves r) i -> In i X /\ In i Y).
    { intros i H1 H2. destruct SX as (_ & SX). destruct SY as (_ & SY). rewrite SX, SY. split; (split; [auto|left]).
      - apply occurs_iff in H2. destruct H2 as (t & H2 & H3). apply occurs_iff. exists t. split; auto. apply outer_in. split; auto.
        intros H4. apply (Dlr t); auto.
      - apply occurs_iff in H1. destruct H1 as (t & H1 & H3). apply occurs_iff. exists t. split; auto. apply outer_in. split; auto.
        intros H4. apply (Dlr t); auto. }
    assert (Hshares : shares l r <-> length sh <> 0).
    { split.
      - intros (i & H1 & H2). destruct (HlX _ H1 H2) as (H3 & H4). assert (Hi : In i sh) by (apply Ish; auto).
        destruct sh; [destruct Hi|simpl; lia].
      - intros Hn. destruct sh as [|i sh'] eqn:Esh; [simpl in Hn; lia|]. assert (Hi : In i sh) by (rewrite Esh; simpl; auto).
        rewrite Esh in Hi. apply Ish in Hi. exists i. destruct Hi as (H1 & H2). apply SX in H1. apply SY in H2. tauto. }
    destruct (cs && (length sh =? 0)) eqn:Ecs.
    + right. apply andb_prop in Ecs. destruct Ecs as (-> & Ecs). apply Nat.eqb_eq in Ecs. split; auto. split; auto.
      exists k, l, r. split; [simpl; auto|]. rewrite Hshares. auto.
    + assert (Hcl : forall i, carriers ts F i = (if memb i X then 1 else 0) + ((if memb i Y then 1 else 0) + carriers ts F0 i)).
      { intros i. rewrite (carriers_perm _ _ PF). unfold carriers. simpl. rewrite (nth_error_nth _ _ [] EX), (nth_error_nth _ _ [] EY).
        destruct (memb i X), (memb i Y); auto. }
      destruct (@shared_loop_ok sh h (filter (fun i => negb (memb i iy)) ix ++ filter (fun i => negb (memb i ix)) iy)) as (h' & E1 & Hh'); auto.
      { intros s Hs. apply Ish in Hs. destruct Hs as (H1 & H2). apply memb_In in H1. apply memb_In in H2.
        rewrite Hh, Hcl, H1, H2. lia. }
      rewrite E1. cbn [bind].
      set (Zi := (filter (fun i => negb (memb i iy)) ix ++ filter (fun i => negb (memb i ix)) iy) ++ filter (fun s => 1 <? h s) sh).
      assert (IZ : forall i, In i Zi <-> (In i X /\ ~ In i Y) \/ (~ In i X /\ In i Y) \/ (In i X /\ In i Y /\ 1 < h i)).
      { intros i. unfold Zi. rewrite !in_app_iff, !filter_In, !negb_true_iff, !memb_nIn, Ish, Nat.ltb_lt, Iix, Iiy. tauto. }
      assert (SZ : spec (Nd k l r) Zi).
      { split.
        - unfold Zi. apply NoDup_app. split; [apply NoDup_app; split; [apply NoDup_filter, unique_nodup|split; [apply NoDup_filter, unique_nodup|]]|split].
          + intros i. rewrite !filter_In, !negb_true_iff, !memb_nIn. tauto.
          + apply NoDup_filter. auto.
          + intros i. rewrite in_app_iff, !filter_In, !negb_true_iff, !memb_nIn, Ish, Iix, Iiy. tauto.
        - intros i. destruct SX as (_ & SX). destruct SY as (_ & SY).
          assert (HO : occurs ts0 (outer l) i <-> occurs ts0 (leaves r) i \/ occurs ts0 (outer (Nd k l r)) i).
          { rewrite !occurs_iff. split.
            - intros (t & H1 & H2). apply outer_in in H1. destruct (in_dec Nat.eq_dec t (leaves r)); [left; eauto|right]. exists t. split; auto.
              apply outer_in. simpl. rewrite in_app_iff. tauto.
            - intros [(t & H1 & H2)|(t & H1 & H2)]; exists t; split; auto; apply outer_in.
              + split; auto. intros H3. apply (Dlr t); auto.
              + apply outer_in in H1. simpl in H1. rewrite in_app_iff in H1. tauto. }
          assert (HO2 : occurs ts0 (outer r) i <-> occurs ts0 (leaves l) i \/ occurs ts0 (outer (Nd k l r)) i).
          { rewrite !occurs_iff. split.
            - intros (t & H1 & H2). apply outer_in in H1. destruct (in_dec Nat.eq_dec t (leaves l)); [left; eauto|right]. exists t. split; auto.
              apply outer_in. simpl. rewrite in_app_iff. tauto.
            - intros [(t & H1 & H2)|(t & H1 & H2)]; exists t; split; auto; apply outer_in.
              + split; auto. intros H3. apply (Dlr t); auto.
              + apply outer_in in H1. simpl in H1. rewrite in_app_iff in H1. tauto. }
          assert (HB : occurs ts0 (leaves (Nd k l r)) i <-> occurs ts0 (leaves l) i \/ occurs ts0 (leaves r) i).
          { rewrite !occurs_iff. simpl. split.
            - intros (t & H1 & H2). apply in_app_iff in H1. destruct H1; eauto.
            - intros [(t & H1 & H2)|(t & H1 & H2)]; exists t; rewrite in_app_iff; auto. }
          assert (Hb : In i X -> In i Y -> (1 < h i <-> occurs ts0 (outer (Nd k l r)) i \/ open i)).
          { intros H1 H2. pose proof (proj1 (SX i) H1) as (B1 & _). pose proof (proj1 (SY i) H2) as (B2 & _).
            pose proof (proj2 (memb_In i X) H1) as M1. pose proof (proj2 (memb_In i Y) H2) as M2.
            assert (Hone : ~ only_once ts0 used i).
            { intros (t & Ht). apply occurs_iff in B1. apply occurs_iff in B2. destruct B1 as (t1 & L1 & A1). destruct B2 as (t2 & L2 & A2).
              assert (t1 = t) by (apply Ht; split; auto). assert (t2 = t) by (apply Ht; split; auto). subst. eauto. }
            assert (Hc0 : 0 < carriers ts F0 i <-> occurs ts0 (outer (Nd k l r)) i).
            { rewrite carriers_pos, occurs_iff. split.
              - intros (V & HV & Hi). destruct (HF0 V HV) as (_ & XV & EV & SV). rewrite (nth_error_nth _ _ [] EV) in Hi. apply SV in Hi.
                destruct Hi as (Hi & _). apply occurs_iff in Hi. destruct Hi as (t & Ht & At). exists t. split; auto.
                apply outer_in. assert (Hf : In t (flat_map leaves F0)) by (apply in_flat_map; eauto). split; [apply HC'; auto|].
                simpl. rewrite in_app_iff. intros [G1|G1]; [apply (Dl0 t); auto|apply (Dr t); auto].
              - intros (t & Ht & At). apply outer_in in Ht. simpl in Ht. rewrite in_app_iff in Ht. destruct Ht as (Hu & Hn).
                apply HC' in Hu. destruct Hu as [Hu|[Hu|Hu]]; [tauto|tauto|]. apply in_flat_map in Hu. destruct Hu as (V & HV & Hv).
                exists V. split; auto. destruct (HF0 V HV) as (_ & XV & EV & SV). rewrite (nth_error_nth _ _ [] EV). apply SV. split.
                + apply occurs_iff. eauto.
                + left. apply occurs_iff in B1. destruct B1 as (t1 & L1 & A1). apply occurs_iff. exists t1. split; auto. apply outer_in. split; auto.
                  intros L1'. apply (Dl0 t1); auto. apply in_flat_map. eauto. }
            rewrite Hh, Hcl, M1, M2. unfold open. rewrite <- Hc0. destruct (memb i out) eqn:Eo.
            - apply memb_In in Eo. split; [auto|lia].
            - apply memb_nIn in Eo. split; [left; lia|]. intros [Hx|[Hx|Hx]]; [lia|contradiction|contradiction]. }
          rewrite IZ, HB. pose proof (SX i) as PX. pose proof (SY i) as PY. rewrite HO in PX. rewrite HO2 in PY.
          clear -PX PY Hb.
          assert (DX : In i X \/ ~ In i X) by (destruct (in_dec Nat.eq_dec i X); auto).
          assert (DY : In i Y \/ ~ In i Y) by (destruct (in_dec Nat.eq_dec i Y); auto). tauto. }
      assert (HLk : k < length ts) by (simpl in HL; lia).
      rewrite set_ok by auto. cbn [bind].
      assert (Hnew : nth_error (upd ts k Zi) k = Some Zi) by (apply upd_eq; auto).
      assert (Hold : forall i, i <> k -> nth_error (upd ts k Zi) i = nth_error ts i) by (intros; apply upd_neq; auto).
      assert (Hcold : forall i, carriers (upd ts k Zi) F0 i = carriers ts F0 i).
      { intros i. unfold carriers. f_equal. apply filter_ext_in. intros V HV. destruct (HF0 V HV) as (HT & XV & EV & _).
        rewrite (nth_error_nth _ _ [] EV). rewrite (nth_error_nth (upd ts k Zi) _ [] (x := XV)); auto. rewrite Hold; auto. lia. }
      assert (G0 := IH (S k) _ _ _ (upd ts k Zi) h' (Nd k l r :: F0) U E).
      destruct G0 as [(ts' & B1 & B2 & B3 & B4 & B5)|(-> & B1 & B2)].
      * rewrite Permutation_app_comm. simpl. constructor. auto.
      * intros S HS. apply Hbs. simpl. auto.
      * auto.
      * simpl. eapply Permutation_NoDup; [rewrite <- app_assoc; exact PL|auto].
      * intros t. simpl. rewrite !in_app_iff, HC'. tauto.
      * intros S [<-|HS]; simpl.
        -- split; [lia|]. exists Zi. auto.
        -- destruct (HF0 S HS) as (HT & XV & EV & SV). split; [lia|]. exists XV. rewrite Hold by lia. auto.
      * rewrite upd_length. simpl in HL. lia.
      * intros i. rewrite Hh', Hh, Hcl. unfold carriers at 2. simpl. rewrite (nth_error_nth _ _ [] Hnew).
        fold (carriers (upd ts k Zi) F0 i).
        assert (EZ : memb i Zi = (memb i X && negb (memb i Y)) || (negb (memb i X) && memb i Y) || (memb i X && memb i Y && (1 <? h i))).
        { apply eq_iff_eq_true. rewrite memb_In, IZ, !orb_true_iff, !andb_true_iff, !negb_true_iff, Nat.ltb_lt, !memb_In, !memb_nIn. tauto. }
        assert (ES : memb i sh = memb i X && memb i Y).
        { apply eq_iff_eq_true. rewrite andb_true_iff, !memb_In. apply Ish. }
        pose proof (Hh i) as Hhi. rewrite Hcl in Hhi.
        assert (Hlen : forall (q : bool) (V : bt) L, length (if q then V :: L else L) = (if q then 1 else 0) + length L) by (intros [|] ? ?; auto).
        rewrite Hlen. fold (carriers (upd ts k Zi) F0 i). rewrite Hcold, EZ, ES. clear -Hhi.
        destruct (memb i X), (memb i Y); simpl in *; try lia; destruct (memb i out); destruct (Nat.ltb_spec 1 (h i)); simpl; lia.
      * left. exists ts'. split; auto. split; [rewrite B2; apply upd_length|]. split; [|split].
        -- intros i Hi. rewrite B3 by lia. apply Hold. lia.
        -- intros S [<-|HS]; [|auto]. exists Zi. split; auto. simpl. rewrite B3 by lia. auto.
        -- intros Hc q l' r' [Eq|HS]; [|eapply B5; eauto]. inversion Eq; subst. apply Hshares. simpl in Ecs. apply Nat.eqb_neq in Ecs. auto.
      * right. split; auto. split; auto. destruct B2 as (q & l' & r' & H1 & H2). exists q, l', r'. simpl. auto.
Qed.
End Build.
