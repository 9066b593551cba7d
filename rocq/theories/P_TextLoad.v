(** Proofs about loading a string that lists indices. *)
From Verif Require Import P_Base P_Opt P_PyMain.
From Coq Require Import List Arith ZArith Bool Lia.
Import ListNotations.
From Verif Require Import M_Base M_Path M_PyTree M_Tensor M_TnApp M_Text S_OSet S_TnApp S_Text P_TnApp P_TnLoad P_Text.
Set Implicit Arguments. Unset Strict Implicit.
Local Open Scope nat_scope.

Section Load.
Variable K : Type.
Variable code : list nat -> nat.
Hypothesis Hcode : forall v w, code v = code w -> v = w.
Definition coded (es : list (Z * list (list nat))) := map (fun e => (fst e, map code (snd e))) es.

Lemma nth_numbered (obj : list (Z * list nat)) i d l : In (i, (d, l)) (numbered obj) <-> nth_error obj i = Some (d, l).
Proof.
  unfold numbered. assert (G : forall s, In (i, (d, l)) (combine (seq s (length obj)) obj) <-> s <= i /\ nth_error obj (i - s) = Some (d, l)).
  { induction obj as [|e obj IH]; intros s; cbn.
    - split; [intros []|]. intros (_ & H). destruct (i - s); discriminate.
    - rewrite IH. split.
      + intros [H|(H1 & H2)]; [inversion H; subst; rewrite Nat.sub_diag; auto|]. split; [lia|]. replace (i - s) with (S (i - S s)) by lia. auto.
      + intros (H1 & H2). destruct (Nat.eq_dec s i) as [->|Hn]; [rewrite Nat.sub_diag in H2; cbn in H2; left; congruence|]. right. split; [lia|]. replace (i - s) with (S (i - S s)) in H2 by lia. auto. }
  rewrite G, Nat.sub_0_r. split; [tauto|]. intros; split; [lia|auto].
Qed.
Lemma nth_coded es i d l : nth_error (coded es) i = Some (d, l) <-> exists ws, nth_error es i = Some (d, ws) /\ l = map code ws.
Proof.
  unfold coded. rewrite nth_error_map. destruct (nth_error es i) as [(d', ws)|]; cbn.
  - split; [intros H; inversion H; subst; eauto|]. intros (ws' & E & ->). inversion E; subst; auto.
  - split; [discriminate|]. intros (ws & E & _); discriminate.
Qed.
Lemma in_coded w ws : In (code w) (map code ws) <-> In w ws.
Proof. rewrite in_map_iff. split; [intros (x & E & H); apply Hcode in E; subst; auto|eauto]. Qed.
Lemma listed_coded es w i : In i (listed (numbered (coded es)) (code w)) <-> exists d ws, nth_error es i = Some (d, ws) /\ In w ws.
Proof.
  rewrite listed_in. split.
  - intros (d & ts & H1 & H2). apply nth_numbered, nth_coded in H1 as (ws & H1 & ->). exists d, ws. split; auto. apply in_coded; auto.
  - intros (d & ws & H1 & H2). exists d, (map code ws). split; [apply nth_numbered, nth_coded; eauto|apply in_coded; auto].
Qed.
Lemma names_coded es t : In t (names (numbered (coded es))) <-> exists w d ws, t = code w /\ In (d, ws) es /\ In w ws.
Proof.
  unfold names. rewrite in_flat_map. split.
  - intros ((i & d & l) & H1 & H2). cbn in H2. apply nth_numbered, nth_coded in H1 as (ws & H1 & ->). apply in_map_iff in H2 as (w & <- & H2). exists w, d, ws. split; auto. split; auto. eapply nth_error_In; eauto.
  - intros (w & d & ws & -> & H1 & H2). apply In_nth_error in H1 as (i & H1). exists (i, (d, map code ws)). split; [apply nth_numbered, nth_coded; eauto|]. cbn. apply in_coded; auto.
Qed.
Lemma uncode cs (P : list nat -> Prop) : (forall t, In t cs -> exists w, t = code w /\ P w) -> exists ns, cs = map code ns /\ forall w, In w ns -> P w.
Proof.
  induction cs as [|c cs IH]; intros H; [exists []; split; [auto|intros _ []]|]. destruct IH as (ns & -> & Hn); [intros; apply H; right; auto|]. destruct (H c (or_introl eq_refl)) as (w & -> & Hw).
  exists (w :: ns). split; auto. intros x [<-|Hx]; auto.
Qed.
Lemma nodup_code ns : NoDup (map code ns) -> NoDup ns.
Proof. induction ns as [|w ns IH]; intros H; [constructor|]. inversion H; subst. constructor; auto. intros Hi. apply H2. apply in_map; auto. Qed.

(** The list of indices, with strings as names. *)
Theorem load_words es o s : o <> s -> (forall d ws, In (d, ws) es -> (1 <= d)%Z /\ exists w, In w ws /\ w <> o /\ w <> s) ->
  exists ns n, load_inds K (coded es) (code o) (code s) = Ok (map code ns, n) /\ NoDup ns /\ length (n_list n) = length ns /\
    (forall w, In w ns <-> w <> o /\ w <> s /\ exists d ws, In (d, ws) es /\ In w ws) /\
    (forall k w, nth_error ns k = Some w -> exists T, nth_error (n_list n) k = Some T /\ t_array T = None /\
       forall i, In i (t_inds T) <-> exists d ws, nth_error es i = Some (d, ws) /\ In w ws) /\
    (forall i d, dict_get (n_dims n) i = Ok d <-> exists ws, nth_error es i = Some (d, ws)) /\
    (forall i, In i (n_out n) <-> exists d ws, nth_error es i = Some (d, ws) /\ In o ws) /\
    (forall i, In i (n_sparse n) <-> exists d ws, nth_error es i = Some (d, ws) /\ In s ws).
Proof.
  intros Hos Hes. destruct (P_TnLoad.load_ok K (coded es) (code o) (code s)) as [(_ & H)|(cs & n & E & _ & Hset & Hlen & Hk & Hd & Ho & Hs & _)].
  - exfalso. apply H. split; [intros E; apply Hcode in E; auto|]. intros i d l Hi. apply nth_coded in Hi as (ws & Hi & ->). destruct (Hes d ws (nth_error_In _ _ Hi)) as (H1 & w & H2 & H3 & H4).
    split; auto. exists (code w). split; [apply in_coded; auto|]. split; intros E; apply Hcode in E; auto.
  - destruct Hset as (Hnd & _ & Hin). destruct (@uncode cs (fun w => w <> o /\ w <> s /\ exists d ws, In (d, ws) es /\ In w ws)) as (ns & -> & Hns).
    { intros t Ht. apply Hin in Ht as (H1 & H2 & H3). apply names_coded in H1 as (w & d & ws & -> & H4 & H5). exists w. split; auto. split; [congruence|]. split; [congruence|]. eauto. }
    exists ns, n. split; auto. split; [apply nodup_code; auto|]. split; [rewrite Hlen, map_length; auto|]. split.
    { intros w. split; [apply Hns|]. intros (H1 & H2 & d & ws & H3 & H4). assert (H5 : In (code w) (map code ns)); [|apply in_coded in H5; auto].
      apply Hin. split; [apply names_coded; exists w, d, ws; auto|]. split; intros E'; apply Hcode in E'; auto. }
    split. { intros k w Hw. destruct (Hk k (code w)) as (T & H1 & H2 & H3). { rewrite nth_error_map, Hw. auto. } exists T. split; auto. split; auto. intros i. rewrite H2. apply listed_coded. }
    split. { intros i d. rewrite Hd. split; [intros (l & Hl); apply nth_coded in Hl as (ws & Hl & _); eauto|]. intros (ws & Hw). exists (map code ws). apply nth_coded; eauto. }
    split; intros i; [rewrite Ho|rewrite Hs]; apply listed_coded.
Qed.
End Load.
