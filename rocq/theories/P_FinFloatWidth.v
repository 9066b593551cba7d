(** How far the widths of the code are off. *)
From Coq Require Import Permutation Psatz.
From Verif Require Import M_Base M_Bitset M_Tree M_CTree M_Cost M_Opt M_InfMem M_FinWidth M_Float M_FinFloat S_Tree S_Opt S_FinWidth S_FinFloat
  P_Base P_Bitset P_Tree P_Shape P_TreeProps P_Opt P_OptCost P_InfMem P_Canon P_Cost P_FinWidth P_FinWidthOpt P_FinFloat.
Set Implicit Arguments.
Unset Strict Implicit.
Local Open Scope Z_scope.

Section Err.
  Variables (e B : Z) (lg : N -> Z) (wa : warith) (m : fmodel) (d : dims_t) (n : nat).
  Hypotheses (Ha : waccurate e B lg wa) (Hl : log_like lg) (Hd : dims_positive d) (Hm : cmodel_ok (fm_cm m) n)
    (HB : widths_upto e B lg (fm_cm m) d n).
  Let S := sum_over (fun _ => true) (log_dim lg d) n.
  Let L := match fm_cm m with Simple => 0 | Sparse _ np => lg (Z.to_N np) end.

  Lemma fe_e : 0 <= e.
  Proof. apply (wo_e Ha). Qed.
  Lemma fe_L : 0 <= L.
  Proof. unfold L, cmodel_ok in *. destruct (fm_cm m) as [|sp np]; [lia|]. apply Hl. lia. Qed.
  Lemma fe_S : 0 <= S.
  Proof. apply sum_over_nonneg. intros. apply log_dim_nonneg; auto. Qed.
  Lemma fe_part p : 0 <= sum_over p (log_dim lg d) n <= S.
  Proof.
    split; [apply sum_over_nonneg; intros; apply log_dim_nonneg; auto|].
    apply sum_over_mono; auto. intros. apply log_dim_nonneg; auto.
  Qed.
  Lemma fe_B : S + L + (width_err (fm_cm m) (Z.of_nat n) + 4) * e <= B.
  Proof. exact HB. Qed.
  Lemma fe_room : S + L + (4 * Z.of_nat n + 5) * e <= B.
  Proof.
    pose proof fe_B as H. pose proof fe_e. unfold width_err in H. destruct (fm_cm m).
    - assert ((4 * Z.of_nat n + 5) * e <= (5 * Z.of_nat n + 1 + 4) * e) by (apply Z.mul_le_mono_nonneg_r; lia). lia.
    - assert ((4 * Z.of_nat n + 5) * e <= (4 * Z.of_nat n * Z.of_nat n + 10 * Z.of_nat n + 4 + 4) * e) by (apply Z.mul_le_mono_nonneg_r; nia). lia.
  Qed.

  Lemma fe_one x : (x < n)%nat -> 0 <= log_dim lg d x <= S.
  Proof.
    intros Hx. split; [apply log_dim_nonneg; auto|].
    assert (E : log_dim lg d x = sum_over (fun i => (x =? i)%nat || false) (log_dim lg d) n).
    { rewrite sum_over_add by auto. rewrite sum_over_false by auto. lia. }
    rewrite E. apply fe_part.
  Qed.

  Lemma fe_log x : (x < n)%nat -> Z.abs (lg_at (wlog wa) d x - log_dim lg d x) <= e.
  Proof.
    intros Hx. pose proof (fe_one Hx) as H. pose proof fe_room. pose proof fe_L. pose proof fe_e.
    assert (0 <= (4 * Z.of_nat n + 5) * e) by nia.
    unfold lg_at, log_dim in *. destruct d; apply (wo_log Ha); lia.
  Qed.

  Lemma fe_cast x z k : Z.abs (x - z) <= k * e -> Z.abs z <= S + L -> 0 <= k <= 4 * Z.of_nat n + 5 -> Z.abs (wcast wa x - z) <= (k + 1) * e.
  Proof.
    intros H1 H2 Hk. pose proof fe_room. pose proof fe_e.
    assert (k * e <= (4 * Z.of_nat n + 5) * e) by (apply Z.mul_le_mono_nonneg_r; lia).
    assert (Z.abs (wcast wa x - x) <= e) by (apply (wo_cast Ha); lia). lia.
  Qed.

  Lemma fe_fold (p : nat -> bool) (l : list N) (Ed : d = DVec l) : forall k, (k <= n)%nat ->
    Z.abs (fold_left (fun w pos => wacc wa w (wlog wa (nth pos l 1%N))) (filter p (seq 0 k)) 0 - sum_over p (log_dim lg d) k)
      <= 2 * Z.of_nat k * e.
  Proof.
    pose proof fe_e as He0. induction k as [|k IH]; intros Hk; [simpl; lia|].
    specialize (IH ltac:(lia)). rewrite seq_S, filter_app, fold_left_app. cbn [sum_over].
    set (w := fold_left _ _ 0) in *. change (0 + k)%nat with k. simpl filter. destruct (p k) eqn:Hp; cbn [fold_left].
    - pose proof (@fe_log k ltac:(lia)) as Hlg. rewrite Ed in Hlg. simpl lg_at in Hlg.
      assert (Hsum : 0 <= sum_over p (log_dim lg d) k + log_dim lg d k <= S).
      { assert (E : sum_over p (log_dim lg d) k + log_dim lg d k = sum_over (fun i => (i <=? k)%nat && p i) (log_dim lg d) (Datatypes.S k)).
        { cbn [sum_over]. rewrite Nat.leb_refl, Hp. simpl. f_equal. apply sum_over_ext. intros i Hi.
          destruct (Nat.leb_spec i k); [|lia]. auto. }
        rewrite E. clear - Hk Hd Hl.
        assert (G : forall j, (Datatypes.S k <= j)%nat -> sum_over (fun i => (i <=? k)%nat && p i) (log_dim lg d) j =
          sum_over (fun i => (i <=? k)%nat && p i) (log_dim lg d) (Datatypes.S k)).
        { induction j as [|j IH]; intros Hj; [lia|]. destruct (Nat.eq_dec (Datatypes.S k) (Datatypes.S j)) as [->|]; auto.
          cbn [sum_over]. rewrite IH by lia. destruct (Nat.leb_spec j k); [lia|]. simpl andb. cbn iota. cbn [sum_over]. lia. }
        rewrite <- (G n) by lia. apply fe_part. }
      rewrite Ed in Hsum, IH |- *.
      pose proof fe_room. pose proof fe_L.
      assert (2 * Z.of_nat k * e + e <= (4 * Z.of_nat n + 5) * e) by nia.
      assert (Hac : Z.abs (wacc wa w (wlog wa (nth k l 1%N)) - (w + wlog wa (nth k l 1%N))) <= e) by (apply (wo_acc Ha); lia).
      replace (2 * Z.of_nat (Datatypes.S k) * e) with (2 * Z.of_nat k * e + 2 * e) by lia. lia.
    - replace (2 * Z.of_nat (Datatypes.S k) * e) with (2 * Z.of_nat k * e + 2 * e) by lia. lia.
  Qed.

  Lemma fe_simple xs : length xs = n -> Z.abs (rw_simple wa xs d - w_simple lg xs d) <= (2 * Z.of_nat n + 1) * e.
  Proof.
    intros Lx. pose proof fe_e as He0. rewrite w_simple_sum, Lx.
    assert (Hc : (exists x, d = DInt x) \/ exists l, d = DVec l) by (destruct d; eauto). destruct Hc as [(x & Ed)|(l & Ed)].
    - pose proof (fe_part (btest xs)) as Hp.
      assert (E : sum_over (btest xs) (log_dim lg d) n = lg x * Z.of_nat (bcount xs)).
      { rewrite Ed. change (log_dim lg (DInt x)) with (fun _ : nat => lg x).
        rewrite (sum_const (btest xs) (lg x)), bcount_spec, <- Lx. auto. }
      replace (rw_simple wa xs d) with (wlogs wa x (bcount xs)) by (rewrite Ed; auto).
      rewrite E in *. pose proof fe_room. pose proof fe_L.
      assert (Z.abs (wlogs wa x (bcount xs) - lg x * Z.of_nat (bcount xs)) <= e).
      { apply (wo_logs Ha). assert (0 <= (4 * Z.of_nat n + 5) * e) by nia. lia. }
      nia.
    - pose proof (@fe_fold (btest xs) l Ed n ltac:(lia)) as H.
      replace (rw_simple wa xs d) with (fold_left (fun w pos => wacc wa w (wlog wa (nth pos l 1%N))) (filter (btest xs) (seq 0 n)) 0)
        by (rewrite Ed; simpl; unfold bpositions; rewrite Lx; auto). lia.
  Qed.

  Lemma fe_wsum xs : length xs = n -> 0 <= w_simple lg xs d <= S.
  Proof. intros Lx. rewrite w_simple_sum, Lx. apply fe_part. Qed.

  Lemma fe_min sp np xs : fm_cm m = Sparse sp np -> length xs = n ->
    Z.abs (rwmin wa (rw_simple wa xs d) (wlog wa (Z.to_N np)) - wmin (w_simple lg xs d) (lg (Z.to_N np))) <= (2 * Z.of_nat n + 2) * e /\
    0 <= wmin (w_simple lg xs d) (lg (Z.to_N np)) <= L.
  Proof.
    intros Em Lx. pose proof fe_e as He0. pose proof fe_room as Hr. pose proof (fe_simple Lx) as Hs. pose proof (fe_wsum Lx) as Hw. pose proof fe_L as HL.
    pose proof fe_S as HS. assert (EL : L = lg (Z.to_N np)) by (unfold L; rewrite Em; auto).
    assert (0 <= (4 * Z.of_nat n + 5) * e) by nia.
    assert (Hlg : Z.abs (wlog wa (Z.to_N np) - L) <= e) by (rewrite EL; apply (wo_log Ha); lia).
    assert (Hc : Z.abs (wcast wa (wlog wa (Z.to_N np)) - wlog wa (Z.to_N np)) <= e).
    { apply (wo_cast Ha). assert (e <= (4 * Z.of_nat n + 5) * e) by nia. lia. }
    rewrite wmin_min, <- EL. split; [|lia]. unfold rwmin.
    assert (2 * e <= (2 * Z.of_nat n + 2) * e) by nia. assert ((2 * Z.of_nat n + 1) * e + e = (2 * Z.of_nat n + 2) * e) by lia.
    assert (0 <= 2 * Z.of_nat n * e) by nia.
    destruct (Z.ltb_spec (rw_simple wa xs d) (wlog wa (Z.to_N np))); lia.
  Qed.

  Let Ew := match fm_cm m with Simple => (2 * Z.of_nat n + 1) * e | Sparse _ _ => (4 * Z.of_nat n + 4) * e end.
  Let Ed := match fm_cm m with Simple => 2 * e | Sparse _ _ => (4 * Z.of_nat n + 5) * e end.

  Lemma fm_cases : fm_cm m = Simple \/ exists sp np, fm_cm m = Sparse sp np.
  Proof. clear. destruct (fm_cm m); eauto. Qed.

  Lemma fe_width xs : length xs = n -> Z.abs (rwidth_of wa m xs d - width_of lg m xs d) <= Ew /\ 0 <= width_of lg m xs d <= S + L.
  Proof.
    intros Lx. unfold rwidth_of, width_of, Ew. destruct fm_cases as [Em|(sp & np & Em)]; rewrite !Em.
    - split; [apply fe_simple; auto|]. pose proof (fe_wsum Lx). pose proof fe_L. lia.
    - assert (Ls : length sp = n) by (pose proof Hm as Hm'; unfold cmodel_ok in Hm'; rewrite Em in Hm'; apply Hm').
      assert (L1 : length (bdiff xs sp) = n) by (rewrite bdiff_len; congruence).
      assert (L2 : length (band xs sp) = n) by (rewrite band_len; congruence).
      pose proof (fe_simple L1) as H1. pose proof (fe_wsum L1) as W1. destruct (fe_min Em L2) as (H2 & W2).
      unfold rw_sparse, w_sparse. pose proof fe_room as Hr. pose proof fe_e as He0.
      set (a := rw_simple wa (bdiff xs sp) d) in *. set (b := rwmin _ _ _) in *.
      set (x := w_simple lg (bdiff xs sp) d) in *. set (y := wmin _ _) in *.
      assert (Z.abs (wadd wa a b - (a + b)) <= e).
      { apply (wo_add Ha). replace ((4 * Z.of_nat n + 5) * e) with ((2 * Z.of_nat n + 1) * e + (2 * Z.of_nat n + 2) * e + 2 * e) in Hr by lia. lia. }
      replace ((4 * Z.of_nat n + 4) * e) with ((2 * Z.of_nat n + 1) * e + (2 * Z.of_nat n + 2) * e + e) by lia. lia.
  Qed.

  Lemma fe_rlg x : (x < n)%nat -> Z.abs (rlg_at wa d x - lg_at lg d x) <= 2 * e.
  Proof.
    intros Hx. pose proof (fe_log Hx) as H. pose proof (fe_one Hx) as H1. pose proof fe_L.
    replace (rlg_at wa d x) with (wcast wa (lg_at (wlog wa) d x)) by (unfold rlg_at, lg_at; destruct d; auto).
    change (lg_at lg d x) with (log_dim lg d x). change 2 with (1 + 1). apply fe_cast; lia.
  Qed.

  Lemma fe_dsimple xs x : (x < n)%nat -> Z.abs (rdw_simple wa xs d x - dw_simple lg xs d x) <= 2 * e.
  Proof.
    intros Hx. pose proof (fe_log Hx) as H. pose proof (fe_one Hx) as H1. pose proof fe_L.
    unfold rdw_simple, dw_simple. change (lg_at lg d x) with (log_dim lg d x). change (2 * e) with ((1 + 1) * e).
    apply fe_cast; [|destruct (btest xs x); simpl Z.b2z; lia|lia]. destruct (btest xs x); simpl Z.b2z; lia.
  Qed.

  Lemma fe_delta xs x : length xs = n -> (x < n)%nat -> Z.abs (rdelta_width_of wa m xs d x - delta_width_of lg m xs d x) <= Ed.
  Proof.
    intros Lx Hx. unfold rdelta_width_of, delta_width_of, Ed. pose proof fe_e as He0. destruct fm_cases as [Em|(sp & np & Em)]; rewrite !Em.
    - apply fe_dsimple; auto.
    - unfold rdw_sparse, dw_sparse. destruct (btest sp x).
      2:{ pose proof (@fe_dsimple xs x Hx). assert (2 * e <= (4 * Z.of_nat n + 5) * e) by nia. lia. }
      assert (Ls : length sp = n) by (pose proof Hm as Hm'; unfold cmodel_ok in Hm'; rewrite Em in Hm'; apply Hm').
      assert (L1 : length (band (bflip xs x) sp) = n) by (rewrite band_len; rewrite bflip_len; congruence).
      assert (L2 : length (band xs sp) = n) by (rewrite band_len; congruence).
      destruct (fe_min Em L1) as (H1 & W1). destruct (fe_min Em L2) as (H2 & W2).
      set (a := rwmin _ _ _) in *. set (b := rwmin _ (rw_simple wa (band xs sp) d) _) in *.
      set (u := wmin _ _) in *. set (v := wmin (w_simple lg (band xs sp) d) _) in *.
      pose proof fe_room as Hr. pose proof fe_S.
      assert (Z.abs (wadd wa a (- b) - (a + - b)) <= e).
      { apply (wo_add Ha). replace ((4 * Z.of_nat n + 5) * e) with ((2 * Z.of_nat n + 2) * e + (2 * Z.of_nat n + 2) * e + e) in Hr by lia. lia. }
      replace ((4 * Z.of_nat n + 5) * e) with ((2 * Z.of_nat n + 2) * e + (2 * Z.of_nat n + 2) * e + e) by lia. lia.
  Qed.

  Lemma waccurate_good : wgood lg wa m d n (width_err (fm_cm m) (Z.of_nat n) * e).
  Proof.
    pose proof fe_e as He0. pose proof fe_room as Hr. pose proof fe_L as HL. pose proof fe_S as HS. pose proof fe_B as HB'.
    exists e, Ew, Ed, B. split.
    - constructor.
      + unfold Ew, Ed. destruct (fm_cm m); repeat split; nia.
      + intros xs Lx. apply (fe_width Lx).
      + intros xs x Lx Hx. apply fe_delta; auto.
      + intros x Hx. pose proof (fe_rlg Hx). assert (2 * e <= Ed) by (unfold Ed; destruct (fm_cm m); nia). lia.
      + intros w y H. apply (wo_add Ha). auto.
      + intros xs Lx. destruct (fe_width Lx) as (_ & Hw). unfold Ew, Ed, width_err in *. destruct (fm_cm m); nia.
      + intros x Hx. pose proof (fe_one Hx) as H1. change (lg_at lg d x) with (log_dim lg d x).
        assert (Ed <= (4 * Z.of_nat n + 5) * e) by (unfold Ed; destruct (fm_cm m); nia). lia.
    - unfold Ew, Ed, width_err. destruct (fm_cm m); lia.
  Qed.
End Err.
