(** split_contraction_path. *)
From Coq Require Import Permutation Sorted.
From Verif Require Import M_Base M_Path S_Path P_Base P_Path.
Set Implicit Arguments.
Unset Strict Implicit.

Local Notation idt := (nat * term)%type.

(** ** Dicts *)
Lemma dict_pop_perm (V : Type) (d : list (nat * V)) k v : NoDup (map fst d) -> In (k, v) d ->
  exists r, dict_pop d k = Ok (v, r) /\ Permutation d ((k, v) :: r).
Proof.
  induction d as [|(k', w) d IH]; simpl; [tauto|]. intros HN Hin. inversion HN as [|? ? H1 H2]; subst.
  destruct (Nat.eqb_spec k k') as [->|Hne].
  - destruct Hin as [E|Hin]; [inversion E; subst|exfalso; apply H1; apply (in_map fst) in Hin; auto].
    exists d. split; auto.
  - destruct Hin as [E|Hin]; [inversion E; subst; contradiction|]. destruct (IH H2 Hin) as (r & -> & HP). cbn [bind].
    exists ((k', w) :: r). split; auto. rewrite HP at 1. apply perm_swap.
Qed.
Lemma dict_set_new (V : Type) (d : list (nat * V)) k v : ~ In k (map fst d) -> dict_set d k v = d ++ [(k, v)].
Proof.
  induction d as [|(k', w) d IH]; simpl; auto. intros H. destruct (Nat.eqb_spec k k') as [->|Hne]; [tauto|]. rewrite IH; auto.
Qed.
Lemma dict_get_set (V : Type) (d : list (nat * V)) k k' v :
  dict_get (dict_set d k v) k' = if k' =? k then Ok v else dict_get d k'.
Proof.
  induction d as [|(a, w) d IH]; simpl.
  - destruct (k' =? k); auto.
  - destruct (Nat.eqb_spec k a) as [->|Hne]; simpl.
    + destruct (Nat.eqb_spec k' a) as [->|Hne']; auto.
    + rewrite IH. destruct (Nat.eqb_spec k' a) as [->|Hne']; auto. destruct (Nat.eqb_spec a k); auto. congruence.
Qed.
Lemma dict_get_fold (V : Type) (c : V) s : forall d t,
  dict_get (fold_left (fun d t => dict_set d t c) s d) t = if memb t s then Ok c else dict_get d t.
Proof.
  induction s as [|a s IH]; intros d t; simpl; auto. rewrite IH, dict_get_set. destruct (memb t s), (t =? a); auto.
Qed.
Lemma memb_In t s : memb t s = true <-> In t s.
Proof.
  unfold memb. rewrite existsb_exists. split; [intros (x & H & E); apply Nat.eqb_eq in E; congruence|].
  intros H. exists t. rewrite Nat.eqb_refl. auto.
Qed.
Lemma memb_nIn t s : memb t s = false <-> ~ In t s.
Proof. rewrite <- memb_In. destruct (memb t s); split; intros; try congruence; tauto. Qed.

Lemma Forall2_perm (A B : Type) (R : A -> B -> Prop) l l' : Permutation l l' -> forall k, Forall2 R l k ->
  exists k', Permutation k k' /\ Forall2 R l' k'.
Proof.
  induction 1 as [|x l l' HP IH|x y l|l l' l'' HP1 IH1 HP2 IH2]; intros k HF.
  - inversion HF; subst. exists []. auto.
  - inversion HF as [|? b ? k0 HR HF']; subst. destruct (IH _ HF') as (k' & H1 & H2). exists (b :: k'). auto.
  - inversion HF as [|? b ? k0 HR HF']; subst. inversion HF' as [|? b' ? k1 HR' HF'']; subst.
    exists (b' :: b :: k1). split; [apply perm_swap|auto].
  - destruct (IH1 _ HF) as (k' & H1 & H2). destruct (IH2 _ H2) as (k'' & H3 & H4). exists k''. split; auto. rewrite H1. auto.
Qed.

Lemma Forall2_flip (A B : Type) (R : A -> B -> Prop) l k : Forall2 R l k -> Forall2 (fun b a => R a b) k l.
Proof. induction 1; auto. Qed.

(** ** The colours *)
(** Every contraction stays inside one component. *)
Fixpoint closed (cc : list (list nat)) (ids : list nat) (p : path) (next : nat) : Prop :=
  match p with
  | [] => True
  | (x, y) :: p' =>
      (forall tx ty, nth_error ids x = Some tx -> nth_error ids y = Some ty ->
        exists s, In s cc /\ In tx s /\ In ty s /\ In (S next) s) /\
      closed cc (without x y ids ++ [S next]) p' (S next)
  end.

Definition comp_of (n : nat) (a : idt) (d : nat * list nat) : Prop :=
  In (fst a) (snd d) /\ Permutation (filter (fun t => t <? n) (snd d)) (tensors (snd a)).

Record cinv (n : nat) (G : list idt) (t2c : list (nat * nat)) (c2t : list (nat * list nat)) (next : nat) : Prop := {
  ci_t : NoDup (alltens (map snd G));
  ci_c : NoDup (map fst c2t);
  ci_g : forall c s t, In (c, s) c2t -> In t s -> dict_get t2c t = Ok c;
  ci_f : exists G', Permutation G G' /\ Forall2 (comp_of n) G' c2t;
  ci_n : n <= next;
  ci_l : forall c s t, In (c, s) c2t -> In t s -> t <= next
}.

Lemma closed_sort cc ids x y p next : closed cc ids ((x, y) :: p) next <-> closed cc ids ((y, x) :: p) next.
Proof.
  simpl. rewrite (without_sym ids y x). split; intros (H1 & H2); split; auto; intros tx ty Hx Hy;
  destruct (H1 ty tx Hy Hx) as (s & ? & ? & ? & ?); eauto.
Qed.

Lemma concat_perm (A : Type) (l k : list (list A)) : Permutation l k -> Permutation (concat l) (concat k).
Proof.
  induction 1; simpl; auto.
  - apply Permutation_app_head. auto.
  - rewrite !app_assoc. apply Permutation_app_tail. apply Permutation_app_comm.
  - etransitivity; eauto.
Qed.

Lemma colors_ok n p : forall G t2c c2t next cs r,
  cinv n G t2c c2t next -> perform (map snd G) p = Some (cs, r) ->
  exists F, split_colors p (map fst G) t2c c2t next = Ok F /\
    Permutation (concat (map snd F)) (concat (map snd c2t) ++ seq (S next) (length p)) /\
    (forall s, In s (map snd c2t) -> exists s', In s' (map snd F) /\ incl s s') /\
    closed (map snd F) (map fst G) p next /\
    exists r', Permutation r r' /\ Forall2 (fun u d => Permutation (filter (fun t => t <? n) (snd d)) (tensors u)) r' F.
Proof.
  induction p as [|(x0, y0) p IH]; intros G t2c c2t next cs r HI Hp.
  - inversion Hp; subst. exists c2t. simpl. rewrite app_nil_r. split; auto. split; auto.
    split; [intros s Hs; exists s; split; auto; intros t Ht; auto|]. split; auto.
    destruct (ci_f HI) as (G' & HP & HF). exists (map snd G'). split; [apply Permutation_map; auto|].
    clear -HF. induction HF as [|a d ? ? (H1 & H2)]; simpl; auto.
  - destruct (perform_cons (ci_t HI) Hp) as (x & y & a & b & cs' & Es & Hlt & Ha & Hb & -> & Hp').
    destruct (nth_snd Ha) as (tx & Ha'). destruct (nth_snd Hb) as (ty & Hb').
    assert (Hn : x <> y) by lia.
    pose proof (without_perm Hn Ha' Hb') as PG.
    destruct (ci_f HI) as (G' & PG' & HF). destruct (Forall2_perm (Permutation_trans (Permutation_sym PG') PG) HF) as (D & PD & HFD).
    inversion HFD as [|? (cx, sx) ? D1 (Hx1 & Hx2) HFD1]; subst. inversion HFD1 as [|? (cy, sy) ? D2 (Hy1 & Hy2) HFD2]; subst. simpl in Hx1, Hx2, Hy1, Hy2.
    assert (ND : NoDup (map fst ((cx, sx) :: (cy, sy) :: D2))) by (eapply Permutation_NoDup; [apply Permutation_map, PD|apply HI]).
    simpl in ND. inversion ND as [|? ? ND1 ND2]; subst. inversion ND2 as [|? ? ND3 ND4]; subst.
    assert (Inx : In (cx, sx) c2t) by (rewrite PD; simpl; auto). assert (Iny : In (cy, sy) c2t) by (rewrite PD; simpl; auto).
    destruct (dict_pop_perm (ci_c HI) Inx) as (d1 & E1 & Pd1).
    assert (Pd1' : Permutation d1 ((cy, sy) :: D2)).
    { apply Permutation_cons_inv with (a := (cx, sx)). rewrite <- Pd1. auto. }
    assert (Nd1 : NoDup (map fst d1)) by (eapply Permutation_NoDup; [symmetry; apply Permutation_map, Pd1'|simpl; auto]).
    assert (Iny1 : In (cy, sy) d1) by (rewrite Pd1'; simpl; auto).
    destruct (dict_pop_perm Nd1 Iny1) as (d2 & E2 & Pd2).
    assert (Pd2' : Permutation d2 D2).
    { apply Permutation_cons_inv with (a := (cy, sy)). rewrite <- Pd2. auto. }
    set (cz := Nat.min cx cy) in *. set (s := sx ++ sy ++ [S next]).
    assert (Hcz : ~ In cz (map fst d2)).
    { intros H. rewrite (Permutation_map fst Pd2') in H. unfold cz in H.
      destruct (Nat.min_dec cx cy) as [E|E]; rewrite E in H; [apply ND1; simpl; auto|apply ND3; auto]. }
    assert (Hgx := ci_g HI Inx Hx1). assert (Hgy := ci_g HI Iny Hy1).
    assert (Fx : nth_error (map fst G) x = Some tx) by (rewrite nth_error_map, Ha'; auto).
    assert (Fy : nth_error (map fst G) y = Some ty) by (rewrite nth_error_map, Hb'; auto).
    destruct (pop_two Hlt Fx Fy) as (k1 & F1 & F2).
    assert (Estep : split_colors ((x0, y0) :: p) (map fst G) t2c c2t next =
      split_colors p (without x y (map fst G) ++ [S next]) (fold_left (fun d t => dict_set d t cz) s t2c) (d2 ++ [(cz, s)]) (S next)).
    { cbn [split_colors]. rewrite Es. cbn [bind]. rewrite F1. cbn [bind]. rewrite Hgy. cbn [bind]. rewrite F2. cbn [bind].
      rewrite Hgx. cbn [bind]. rewrite E1. cbn [bind]. rewrite E2. cbn [bind]. fold cz. fold s. rewrite (dict_set_new _ Hcz). auto. }
    destruct (step_nodup Hn Ha Hb (ci_t HI)) as (HN' & _ & _).
    set (G2 := without x y G ++ [(S next, join a b)]).
    assert (EG2 : map fst G2 = without x y (map fst G) ++ [S next]) by (unfold G2; rewrite map_app, without_map; auto).
    assert (EG2s : map snd G2 = without x y (map snd G) ++ [join a b]) by (unfold G2; rewrite map_app, without_map; auto).
    assert (Hfil : filter (fun t => t <? n) s = filter (fun t => t <? n) sx ++ filter (fun t => t <? n) sy).
    { unfold s. rewrite !filter_app. simpl. pose proof (ci_n HI). destruct (Nat.ltb_spec (S next) n); [lia|]. rewrite app_nil_r. auto. }
    assert (HI2 : cinv n G2 (fold_left (fun d t => dict_set d t cz) s t2c) (d2 ++ [(cz, s)]) (S next)).
    { constructor.
      - rewrite EG2s. auto.
      - rewrite map_app. simpl. apply NoDup_app. split; [rewrite (Permutation_map fst Pd2'); auto|].
        split; [repeat constructor; auto|]. intros c Hc [<-|[]]. auto.
      - intros c s' t Hin Ht. rewrite dict_get_fold. apply in_app_iff in Hin. destruct Hin as [Hin|[E|[]]].
        + assert (Hin' : In (c, s') c2t) by (rewrite PD; simpl; rewrite <- Pd2'; auto).
          destruct (memb t s) eqn:Em; [|apply (ci_g HI Hin' Ht)]. exfalso. apply memb_In in Em.
          unfold s in Em. rewrite !in_app_iff in Em.
          assert (Hc : dict_get t2c t = Ok c) by (apply (ci_g HI Hin' Ht)).
          assert (Hcin : In c (map fst D2)) by (rewrite <- (Permutation_map fst Pd2'); apply (in_map fst) in Hin; auto).
          destruct Em as [Em|[Em|[<-|[]]]].
          * rewrite (ci_g HI Inx Em) in Hc. inversion Hc; subst. apply ND1. simpl. auto.
          * rewrite (ci_g HI Iny Em) in Hc. inversion Hc; subst. auto.
          * pose proof (ci_l HI Hin' Ht). lia.
        + inversion E; subst. rewrite (proj2 (memb_In t _)); auto.
      - destruct (Forall2_perm (R := fun d a => comp_of n a d) (Permutation_sym Pd2') (k := without x y G)) as (W & PW & HW).
        { apply Forall2_flip. auto. }
        exists (W ++ [(S next, join a b)]). split; [unfold G2; apply Permutation_app_tail; auto|].
        apply Forall2_app; [apply Forall2_flip; auto|]. constructor; auto. split; simpl.
        + unfold s. rewrite !in_app_iff. simpl. auto.
        + rewrite Hfil, Hx2, Hy2, (join_tensors a b). auto.
      - pose proof (ci_n HI). lia.
      - intros c s' t Hin Ht. apply in_app_iff in Hin. destruct Hin as [Hin|[E|[]]].
        + assert (Hin' : In (c, s') c2t) by (rewrite PD; simpl; rewrite <- Pd2'; auto). pose proof (ci_l HI Hin' Ht). lia.
        + inversion E; subst. unfold s in Ht. rewrite !in_app_iff in Ht. destruct Ht as [Ht|[Ht|[<-|[]]]]; auto.
          * pose proof (ci_l HI Inx Ht). lia.
          * pose proof (ci_l HI Iny Ht). lia. }
    rewrite <- EG2s in Hp'. destruct (IH _ _ _ _ _ _ HI2 Hp') as (F & E & PF & HS & HC & HR).
    exists F. rewrite Estep, <- EG2. split; auto. split; [|split; [|split; auto]].
    + rewrite PF, map_app, concat_app. simpl. rewrite app_nil_r.
      rewrite (concat_perm (Permutation_map snd PD)). simpl. rewrite (concat_perm (Permutation_map snd Pd2')). unfold s.
      simpl length. simpl seq. set (q := seq (S (S next)) (length p)).
      transitivity (concat (map snd D2) ++ (sx ++ sy) ++ S next :: q).
      * rewrite <- !app_assoc. reflexivity.
      * rewrite (Permutation_app_swap_app (concat (map snd D2))). rewrite <- !app_assoc. reflexivity.
    + assert (Hs : exists s', In s' (map snd F) /\ incl s s') by (apply HS; rewrite map_app, in_app_iff; simpl; auto).
      intros u Hu. rewrite (Permutation_map snd PD) in Hu. simpl in Hu. destruct Hs as (s' & Hs1 & Hs2). destruct Hu as [<-|[<-|Hu]].
      * exists s'. split; auto. intros t Ht. apply Hs2. unfold s. rewrite !in_app_iff. auto.
      * exists s'. split; auto. intros t Ht. apply Hs2. unfold s. rewrite !in_app_iff. auto.
      * apply HS. rewrite map_app, in_app_iff, (Permutation_map snd Pd2'). auto.
    + assert (HC' : closed (map snd F) (map fst G) ((x, y) :: p) next).
      { simpl. rewrite <- EG2. split; auto. intros u v Hu Hv. rewrite Fx in Hu. rewrite Fy in Hv. inversion Hu; inversion Hv; subst u v.
        destruct (HS s) as (s' & Hs1 & Hs2); [rewrite map_app, in_app_iff; simpl; auto|]. exists s'. split; auto.
        split; [|split]; apply Hs2; unfold s; rewrite !in_app_iff; simpl; auto. }
      assert (Hne : x0 <> y0) by (intros ->; unfold sort2 in Es; rewrite Nat.leb_refl in Es; inversion Es; lia).
      destruct (sort2_spec Hne) as (lo & hi & Es' & _ & Hc). rewrite Es in Es'. inversion Es'; subst lo hi.
      destruct Hc as [(-> & ->)|(-> & ->)]; auto. apply closed_sort. auto.
Qed.

(** ** The steps *)
Lemma locate_ok cc : forall k s t, NoDup (concat cc) -> nth_error cc k = Some s -> In t s -> locate t cc = Ok k.
Proof.
  induction cc as [|s0 cc IH]; intros k s t HN Hk Ht; [destruct k; discriminate|]. simpl in HN. apply NoDup_app in HN.
  destruct HN as (H1 & H2 & H3). simpl. destruct k as [|k]; simpl in Hk.
  - inversion Hk; subst. rewrite (proj2 (memb_In t s)); auto.
  - assert (~ In t s0).
    { intros H. apply (H3 t H). apply in_concat. exists s. split; auto. eapply nth_error_In; eauto. }
    rewrite (proj2 (memb_nIn t s0)) by auto. rewrite (IH k s t); auto.
Qed.
Lemma disjoint_at (cc : list (list nat)) : forall k k' s s' (t : nat), NoDup (concat cc) -> nth_error cc k = Some s -> nth_error cc k' = Some s' ->
  In t s -> In t s' -> k = k'.
Proof.
  intros k k' s s' t HN H1 H2 H3 H4. pose proof (locate_ok HN H1 H3) as E. rewrite (locate_ok HN H2 H4) in E. congruence.
Qed.

Lemma within_In s c : within s c = true <-> forall t, In t (tensors c) -> In t s.
Proof. unfold within. rewrite forallb_forall. split; intros H t Ht; [apply memb_In|apply memb_In]; apply H; auto. Qed.

Lemma index_app (A : Type) (eqb : A -> A -> bool) (Heq : forall x y, eqb x y = true <-> x = y) (l k : list A) x i :
  NoDup l -> nth_error l i = Some x -> index eqb x (l ++ k) = Ok i.
Proof.
  revert i. induction l as [|a l IH]; intros i HN Hi; [destruct i; discriminate|]. inversion HN; subst. simpl.
  destruct (eqb x a) eqn:E.
  - apply Heq in E. subst. destruct i as [|i]; auto. simpl in Hi. exfalso. apply nth_error_In in Hi. auto.
  - destruct i as [|i]; simpl in Hi.
    + inversion Hi; subst. rewrite (proj2 (Heq x x)) in E; auto. discriminate.
    + rewrite (IH i); auto.
Qed.

Lemma without_from_app (A : Type) (l k : list A) : forall i x y, x < i + length l -> y < i + length l ->
  without_from i x y (l ++ k) = without_from i x y l ++ k.
Proof.
  induction l as [|a l IH]; intros i x y Hx Hy; simpl in *.
  - apply without_above; lia.
  - rewrite IH by lia. destruct (_ || _); auto.
Qed.
Lemma without_app (A : Type) (l k : list A) x y : x < length l -> y < length l -> without x y (l ++ k) = without x y l ++ k.
Proof. intros. apply without_from_app; auto. Qed.

Definition fut (s : list nat) (next len : nat) : list nat := filter (fun t => memb t s) (seq (S next) len).

Record kinv (nrm : bool) (s : list nat) (G K : list idt) (J : list nat) (next len : nat) : Prop := {
  ki_n : NoDup (map fst K);
  ki_t : NoDup (alltens (map snd K));
  ki_l : forall t, In t (map fst K) -> t <= next;
  ki_i : forall pr, In pr G -> In (fst pr) s -> In pr K;
  ki_J : if nrm then exists j, J = fut s next len ++ j else J = [];
  ki_r : nrm = true -> forall pr, In pr K -> In pr G /\ In (fst pr) s
}.

Lemma kinv_skip nrm s G K J next len x y a b :
  x <> y -> nth_error G x = Some a -> nth_error G y = Some b ->
  NoDup (map fst G) -> ~ In (fst a) s -> ~ In (fst b) s -> ~ In (S next) s ->
  kinv nrm s G K J next (S len) -> kinv nrm s (without x y G ++ [(S next, join (snd a) (snd b))]) K J (S next) len.
Proof.
  intros Hn Ha Hb HN Hsa Hsb Hz [H1 H2 H3 H4 H5 H6]. pose proof (without_perm Hn Ha Hb) as PG. constructor; auto.
  - intros pr Hin Hs. apply in_app_iff in Hin. destruct Hin as [Hin|[<-|[]]]; [|contradiction]. apply H4; auto. rewrite PG. simpl. auto.
  - destruct nrm; auto. destruct H5 as (j & ->). exists j. unfold fut. simpl. rewrite (proj2 (memb_nIn _ _)) by auto. auto.
  - intros E pr Hin. destruct (H6 E pr Hin) as (G1 & G2). split; auto. rewrite PG in G1. apply in_app_iff.
    destruct G1 as [<-|[<-|G1]]; try contradiction. auto.
Qed.

Lemma kinv_step nrm s (G K : list idt) J next len x y tx ta ty tb :
  x <> y -> nth_error G x = Some (tx, ta) -> nth_error G y = Some (ty, tb) -> NoDup (map fst G) ->
  In tx s -> In ty s -> In (S next) s ->
  kinv nrm s G K J next (S len) ->
  exists ix iy x' y' J', index Nat.eqb tx (map fst K ++ J) = Ok ix /\ index Nat.eqb ty (map fst K ++ J) = Ok iy /\
    sort2 ix iy = (x', y') /\ x' < y' /\
    (exists u v l1, pop (map fst K ++ J) y' = Ok (u, l1) /\ pop l1 x' = Ok (v, without x' y' (map fst K) ++ J)) /\
    let K' := without x' y' K ++ [(S next, join ta tb)] in
    (without x' y' (map fst K) ++ J) ++ [S next] = map fst K' ++ J' /\
    kinv nrm s (without x y G ++ [(S next, join ta tb)]) K' J' (S next) len /\
    (forall q, perform (map snd K) ((x', y') :: q) =
       match perform (map snd K') q with Some (cs, r) => Some (join ta tb :: cs, r) | None => None end).
Proof.
  intros Hn Ha Hb HN Hsa Hsb Hz HK. pose proof HK as [H1 H2 H3 H4 H5 H6]. pose proof (without_perm Hn Ha Hb) as PG.
  assert (HaK : In (tx, ta) K) by (apply H4; auto; eapply nth_error_In; eauto).
  assert (HbK : In (ty, tb) K) by (apply H4; auto; eapply nth_error_In; eauto).
  destruct (In_nth_error _ _ HaK) as (ix & Nix). destruct (In_nth_error _ _ HbK) as (iy & Niy).
  assert (Fix : nth_error (map fst K) ix = Some tx) by (rewrite nth_error_map, Nix; auto).
  assert (Fiy : nth_error (map fst K) iy = Some ty) by (rewrite nth_error_map, Niy; auto).
  assert (Htt : tx <> ty).
  { intros ->. rewrite (Permutation_map fst PG) in HN. simpl in HN. inversion HN as [|? ? Hx _]; subst. apply Hx. simpl. auto. }
  assert (Hi : ix <> iy) by congruence.
  destruct (sort2_spec Hi) as (x' & y' & Es & Hlt & Hc).
  assert (Lx : ix < length (map fst K)) by (eapply nth_error_lt; eauto). assert (Ly : iy < length (map fst K)) by (eapply nth_error_lt; eauto).
  assert (Lx' : x' < length (map fst K)) by lia. assert (Ly' : y' < length (map fst K)) by lia.
  set (J' := if nrm then tl J ++ [S next] else []).
  exists ix, iy, x', y', J'.
  split; [apply (index_app Nat.eqb_eq); auto|]. split; [apply (index_app Nat.eqb_eq); auto|]. split; auto. split; auto.
  split; [|].
  { destruct (nth_error (map fst K) x') as [v|] eqn:Ev; [|apply nth_error_None in Ev; lia].
    destruct (nth_error (map fst K) y') as [u|] eqn:Eu; [|apply nth_error_None in Eu; lia].
    destruct (@pop_two _ (map fst K ++ J) x' y' v u Hlt) as (l1 & P1 & P2); [rewrite nth_error_app1; auto|rewrite nth_error_app1; auto|].
    exists u, v, l1. split; auto. rewrite P2, without_app; auto. }
  cbv zeta.
  assert (PK : Permutation K ((tx, ta) :: (ty, tb) :: without x' y' K)).
  { destruct Hc as [(-> & ->)|(-> & ->)]; [|rewrite without_sym]; apply without_perm; auto. }
  assert (PfK := Permutation_map fst PK). simpl in PfK.
  assert (PsK := alltens_perm (Permutation_map snd PK)). simpl in PsK.
  split; [|split].
  - rewrite map_app, without_map. simpl. rewrite <- !app_assoc. f_equal. unfold J'. destruct nrm.
    + destruct H5 as (j & ->). unfold fut. simpl. rewrite (proj2 (memb_In _ _)) by auto. simpl. rewrite <- !app_assoc. auto.
    + subst J. auto.
  - constructor.
    + rewrite map_app. simpl. apply NoDup_app. rewrite PfK in H1. inversion H1 as [|? ? _ H1']; subst. inversion H1' as [|? ? _ H1'']; subst.
      split; auto. split; [repeat constructor; auto|]. intros w Hw [<-|[]].
      assert (S next <= next); [|lia]. apply H3. rewrite PfK. simpl. auto.
    + rewrite map_app. simpl. rewrite alltens_app. simpl. rewrite app_nil_r. eapply Permutation_NoDup; [|exact H2].
      rewrite PsK. unfold alltens. simpl. rewrite (join_tensors ta tb), app_assoc. apply Permutation_app_comm.
    + intros t Ht. rewrite map_app in Ht. apply in_app_iff in Ht. destruct Ht as [Ht|[<-|[]]]; auto.
      assert (t <= next); [|lia]. apply H3. rewrite PfK. simpl. auto.
    + intros pr Hin Hs. apply in_app_iff in Hin. apply in_app_iff. destruct Hin as [Hin|Hin]; auto. left.
      assert (In pr K) as HinK by (apply H4; auto; rewrite PG; simpl; auto).
      apply (Permutation_NoDup (Permutation_map fst PG)) in HN. simpl in HN. inversion HN as [|? ? N1 N2]; subst. inversion N2 as [|? ? N3 N4]; subst.
      apply (in_map fst) in Hin. rewrite PK in HinK. destruct HinK as [<-|[<-|HinK]]; auto; exfalso; simpl in *; tauto.
    + unfold J'. destruct nrm; auto. destruct H5 as (j & ->). exists (j ++ [S next]). unfold fut. simpl.
      rewrite (proj2 (memb_In _ _)) by auto. simpl. rewrite <- app_assoc. auto.
    + intros E pr Hin. apply in_app_iff in Hin. destruct Hin as [Hin|[<-|[]]].
      * assert (HinK : In pr K) by (rewrite PK; simpl; auto). destruct (H6 E pr HinK) as (G1 & G2). split; auto.
        apply in_app_iff. left. apply (Permutation_NoDup PfK) in H1. inversion H1 as [|? ? N1 N2]; subst. inversion N2 as [|? ? N3 N4]; subst.
        apply (in_map fst) in Hin. rewrite PG in G1. destruct G1 as [<-|[<-|G1]]; auto; exfalso; simpl in *; tauto.
      * split; [apply in_app_iff; simpl; auto|]. auto.
  - intros q. assert (Hma : nth_error (map snd K) ix = Some ta) by (rewrite nth_error_map, Nix; auto).
    assert (Hmb : nth_error (map snd K) iy = Some tb) by (rewrite nth_error_map, Niy; auto).
    assert (G0 : perform (map snd K) ((ix, iy) :: q) = match perform (without ix iy (map snd K) ++ [join ta tb]) q with
       Some (cs, r) => Some (join ta tb :: cs, r) | None => None end).
    { simpl. destruct (Nat.eqb_spec ix iy); [contradiction|]. rewrite Hma, Hmb. auto. }
    rewrite map_app. simpl map. rewrite <- without_map.
    destruct Hc as [(-> & ->)|(-> & ->)]; auto. rewrite perform_sort by auto. rewrite (without_sym _ iy ix). auto.
Qed.

Lemma steps_ok nrm cc p : NoDup (concat cc) -> forall (G : list idt) (K : nat -> list idt) (J : nat -> list nat) cct paths next cs r,
  NoDup (map fst G) -> NoDup (alltens (map snd G)) -> (forall t, In t (map fst G) -> t <= next) ->
  (forall t u s, In (t, u) G -> In s cc -> In t s -> forall v, In v (tensors u) -> In v s) ->
  closed cc (map fst G) p next -> perform (map snd G) p = Some (cs, r) ->
  length cct = length cc -> length paths = length cc ->
  (forall k s, nth_error cc k = Some s -> nth_error cct k = Some (map fst (K k) ++ J k) /\ kinv nrm s G (K k) (J k) next (length p)) ->
  exists paths', split_steps p cc (map fst G) cct paths next = Ok paths' /\ length paths' = length paths /\
    forall k s q q', nth_error cc k = Some s -> nth_error paths k = Some q -> nth_error paths' k = Some q' ->
      exists qk rk, q' = q ++ qk /\ perform (map snd (K k)) qk = Some (filter (within s) cs, rk) /\ (nrm = true -> incl rk r).
Proof.
  intros Hcc. induction p as [|(x0, y0) p IH]; intros G K J cct paths next cs r HN HT Hle Hin HC Hp Lc Lp HK.
  - inversion Hp; subst. exists paths. simpl. split; auto. split; auto. intros k s q q' Hk Hq Hq'. rewrite Hq in Hq'. inversion Hq'; subst.
    exists [], (map snd (K k)). rewrite app_nil_r. split; auto. split; auto. intros E u Hu. destruct (HK k s Hk) as (_ & HKk).
    apply in_map_iff in Hu. destruct Hu as (pr & <- & Hu). apply in_map. apply (ki_r HKk E Hu).
  - destruct (perform_cons HT Hp) as (x & y & a & b & cs' & Es & Hlt & Ha & Hb & -> & Hp').
    assert (Hne : x0 <> y0) by (intros ->; unfold sort2 in Es; rewrite Nat.leb_refl in Es; inversion Es; lia).
    assert (HC' : closed cc (map fst G) ((x, y) :: p) next).
    { destruct (sort2_spec Hne) as (lo & hi & Es' & _ & Hc). rewrite Es in Es'. inversion Es'; subst lo hi.
      destruct Hc as [(-> & ->)|(-> & ->)]; auto. apply closed_sort. auto. }
    destruct (nth_snd Ha) as (tx & Ha'). destruct (nth_snd Hb) as (ty & Hb').
    assert (Hn : x <> y) by lia.
    assert (Fx : nth_error (map fst G) x = Some tx) by (rewrite nth_error_map, Ha'; auto).
    assert (Fy : nth_error (map fst G) y = Some ty) by (rewrite nth_error_map, Hb'; auto).
    destruct HC' as (HC1 & HC2). destruct (HC1 _ _ Fx Fy) as (s & Hs & Sx & Sy & Sz).
    destruct (In_nth_error _ _ Hs) as (k & Hk). destruct (HK k s Hk) as (Hct & HKk).
    pose proof (without_perm Hn Ha' Hb') as PG.
    destruct (step_nodup Hn Ha Hb HT) as (HN' & _ & _).
    destruct (kinv_step Hn Ha' Hb' HN Sx Sy Sz HKk) as (ix & iy & x' & y' & J' & I1 & I2 & I3 & I4 & (u & v & l1 & P1 & P2) & EJ & HKk' & HPk).
    cbv zeta in EJ, HKk', HPk.
    destruct (pop_two Hlt Fx Fy) as (k1 & F1 & F2).
    set (G2 := without x y G ++ [(S next, join a b)]) in *.
    assert (EG2 : map fst G2 = without x y (map fst G) ++ [S next]) by (unfold G2; rewrite map_app, without_map; auto).
    assert (EG2s : map snd G2 = without x y (map snd G) ++ [join a b]) by (unfold G2; rewrite map_app, without_map; auto).
    set (K' := fun i => if i =? k then without x' y' (K k) ++ [(S next, join a b)] else K i).
    set (J2 := fun i => if i =? k then J' else J i).
    destruct (nth_error paths k) as [qk0|] eqn:Epk; [|apply nth_error_None in Epk; apply nth_error_lt in Hk; lia].
    assert (Hkl : k < length cc) by (eapply nth_error_lt; eauto).
    assert (HL : forall w, In w (tensors (join a b)) -> In w s).
    { intros w Hw. rewrite (join_tensors a b), in_app_iff in Hw.
      destruct Hw as [Hw|Hw]; [apply (Hin tx a s)|apply (Hin ty b s)]; auto; eapply nth_error_In; eauto. }
    destruct (IH G2 K' J2 (upd cct k ((without x' y' (map fst (K k)) ++ J k) ++ [S next])) (upd paths k (qk0 ++ [(x', y')])) (S next) cs' r)
      as (paths' & E & Lpt & HR).
    + rewrite EG2. apply NoDup_app. assert (PfG := Permutation_map fst PG). simpl in PfG.
      pose proof (Permutation_NoDup PfG HN) as HN2. inversion HN2 as [|? ? _ N1]; subst. inversion N1 as [|? ? _ N2]; subst.
      rewrite without_map. split; auto. split; [repeat constructor; auto|]. intros w Hw [<-|[]].
      assert (S next <= next); [|lia]. apply Hle. rewrite PfG. simpl. auto.
    + rewrite EG2s. auto.
    + rewrite EG2. intros t Ht. apply in_app_iff in Ht. destruct Ht as [Ht|[<-|[]]]; auto.
      assert (t <= next); [|lia]. apply Hle. rewrite (Permutation_map fst PG). simpl. rewrite <- without_map. auto.
    + intros t w s' Hw Hs' Ht z Hz. unfold G2 in Hw. apply in_app_iff in Hw. destruct Hw as [Hw|[Hw|[]]].
      * apply (Hin t w s'); auto. rewrite PG. simpl. auto.
      * inversion Hw; subst. destruct (In_nth_error _ _ Hs') as (k' & Hk').
        assert (k = k') by (eapply disjoint_at; eauto). subst k'. rewrite Hk in Hk'. inversion Hk'; subst. auto.
    + rewrite EG2. auto.
    + rewrite EG2s. auto.
    + rewrite upd_length. auto.
    + rewrite upd_length. auto.
    + intros i s' Hi. unfold K', J2. destruct (Nat.eqb_spec i k) as [->|Hik].
      * rewrite Hk in Hi. inversion Hi; subst s'. rewrite upd_eq by lia. split; auto. f_equal. auto.
      * rewrite upd_neq by auto. destruct (HK i s' Hi) as (G3 & G4). split; auto.
        assert (Hd : forall t, In t s -> ~ In t s').
        { intros t Ht Ht'. apply Hik. symmetry. apply (disjoint_at Hcc Hk Hi Ht Ht'). }
        apply (kinv_skip (a := (tx, a)) (b := (ty, b)) Hn); simpl; auto.
    + assert (Estep : split_steps ((x0, y0) :: p) cc (map fst G) cct paths next = Ok paths').
      { cbn [split_steps]. rewrite Es. rewrite (get_some Fx). cbn [bind]. rewrite (get_some Fy). cbn [bind].
        rewrite (locate_ok Hcc Hk Sx). cbn [bind]. rewrite (get_some Hk). cbn [bind]. rewrite (proj2 (memb_In _ _) Sy). cbn [negb].
        rewrite F1. cbn [bind]. rewrite F2. cbn [bind]. rewrite (get_some Hct). cbn [bind]. rewrite I1. cbn [bind]. rewrite I2. cbn [bind].
        rewrite I3. rewrite (get_some Epk). cbn [bind]. rewrite set_ok by lia. cbn [bind]. rewrite P1. cbn [bind]. rewrite P2. cbn [bind].
        rewrite set_ok by lia. cbn [bind]. rewrite <- EG2. exact E. }
      exists paths'. split; auto. split; [rewrite Lpt, upd_length; auto|]. intros i s' q q' Hi Hq Hq'.
      destruct (Nat.eq_dec i k) as [->|Hik].
      * rewrite Hk in Hi. inversion Hi; subst s'. rewrite Epk in Hq. inversion Hq; subst q.
        destruct (HR k s (qk0 ++ [(x', y')]) q' Hk) as (qk & rk & E1 & E2 & E3); auto; [rewrite upd_eq; auto; lia|].
        exists ((x', y') :: qk), rk. rewrite E1, <- app_assoc. split; auto. split; auto. rewrite HPk.
        unfold K' in E2. rewrite Nat.eqb_refl in E2. rewrite E2. simpl. rewrite (proj2 (within_In s (join a b))); auto.
      * destruct (HR i s' q q' Hi) as (qk & rk & E1 & E2 & E3); auto; [rewrite upd_neq; auto|].
        exists qk, rk. split; auto. split; auto. unfold K' in E2. destruct (Nat.eqb_spec i k); [contradiction|]. rewrite E2.
        simpl. destruct (within s' (join a b)) eqn:Ew; auto. exfalso. rewrite within_In in Ew. apply Hik. symmetry.
        eapply (disjoint_at Hcc Hk Hi (t := first_tensor (join a b))); [apply HL|apply Ew]; apply first_in.
Qed.
