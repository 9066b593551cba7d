(** Loading a network whose indices have other names. *)
From Verif Require Import M_Base M_Path M_PyTree M_OSet M_Random M_Fuse M_Tensor M_Contract M_Decompose M_TnApp M_LoadTn S_Rename P_Rename.
Set Implicit Arguments. Unset Strict Implicit.

Section Rename.
Variable f : nat -> nat.
Hypothesis Hf : injective f.
Notation keys := (map (fun e => (f (fst e), snd e))).

Lemma map_res_map_res {A B C} (h : B -> C) (k : A -> B) r : map_res h (map_res k r) = map_res (fun x => h (k x)) r.
Proof. destruct r; auto. Qed.
Lemma mapM_f {A B C D} (k : A -> B) (h : C -> D) (p : B -> res D) (q : A -> res C) l :
  (forall x, p (k x) = map_res h (q x)) -> mapM p (map k l) = map_res (map h) (mapM q l).
Proof.
  intros H. induction l as [|x l IH]; simpl; auto. rewrite H, IH. destruct (q x); simpl; auto. destruct (mapM q l); auto.
Qed.
Lemma mapM_same {A B C} (k : A -> B) (p : B -> res C) (q : A -> res C) l :
  (forall x, p (k x) = q x) -> mapM p (map k l) = mapM q l.
Proof. intros H. induction l as [|x l IH]; simpl; auto. rewrite H, IH. auto. Qed.

(** * Dictionaries with indices as keys *)
Lemma dict_get_keys {V} (l : list (nat * V)) x : dict_get (keys l) (f x) = dict_get l x.
Proof. apply (dict_get_map Hf). Qed.
Lemma dict_set_keys {V} (l : list (nat * V)) x v : dict_set (keys l) (f x) v = keys (dict_set l x v).
Proof. induction l as [|[k w] l IH]; simpl; auto. rewrite (eqb_map Hf). destruct (x =? k); simpl; auto. rewrite IH. auto. Qed.
Lemma dict_pop_keys {V} (l : list (nat * V)) x :
  dict_pop (keys l) (f x) = map_res (fun e => (fst e, keys (snd e))) (dict_pop l x).
Proof.
  induction l as [|[k w] l IH]; simpl; auto. rewrite (eqb_map Hf). destruct (x =? k); simpl; auto. rewrite IH.
  destruct (dict_pop l x) as [[? ?]|]; auto.
Qed.
Lemma dict_of_keys {V} (l : list (nat * V)) : dict_of (keys l) = keys (dict_of l).
Proof.
  unfold dict_of. change (@nil (nat * V)) with (keys (@nil (nat * V))) at 1. generalize (@nil (nat * V)) as d.
  induction l as [|[k v] l IH]; intros d; simpl; auto. rewrite dict_set_keys. apply IH.
Qed.
Lemma combine_keys {V} (xs : list nat) (vs : list V) : combine (map f xs) vs = keys (combine xs vs).
Proof. apply combine_map. Qed.

(** Dictionaries with indices as values. *)
Lemma dict_get_vals {V W} (h : V -> W) (l : list (nat * V)) k :
  dict_get (map (fun e => (fst e, h (snd e))) l) k = map_res h (dict_get l k).
Proof. induction l as [|[k' v] l IH]; simpl; auto. destruct (k =? k'); auto. Qed.
Lemma dict_set_vals {V W} (h : V -> W) (l : list (nat * V)) k v :
  dict_set (map (fun e => (fst e, h (snd e))) l) k (h v) = map (fun e => (fst e, h (snd e))) (dict_set l k v).
Proof. induction l as [|[k' w] l IH]; simpl; auto. destruct (k =? k'); simpl; auto. rewrite IH. auto. Qed.
Lemma dict_pop_vals {V W} (h : V -> W) (l : list (nat * V)) k :
  dict_pop (map (fun e => (fst e, h (snd e))) l) k = map_res (fun e => (h (fst e), map (fun e => (fst e, h (snd e))) (snd e))) (dict_pop l k).
Proof. induction l as [|[k' v] l IH]; simpl; auto. destruct (k =? k'); auto. rewrite IH. destruct (dict_pop l k) as [[? ?]|]; auto. Qed.
Lemma pop_map {A B} (h : A -> B) l i : pop (map h l) i = map_res (fun e => (h (fst e), map h (snd e))) (pop l i).
Proof. revert i. induction l as [|x l IH]; intros [|i]; simpl; auto. rewrite IH. destruct (pop l i) as [[? ?]|]; auto. Qed.

(** * fuse *)
Lemma adjacency_map ts : adjacency (map (map f) ts) = keys (adjacency ts).
Proof.
  unfold adjacency. rewrite concat_map2, (unique_map Hf), map_map, map_map, map_length. apply map_ext. intros x. simpl. f_equal.
  apply filter_ext. intros t. change (@nil nat) with (map f []). rewrite map_nth. apply (memb_map Hf).
Qed.
Lemma move_all_map zs px py tz : forall d, move_all (map f zs) px py tz (keys d) = map_res (fun l => keys l) (move_all zs px py tz d).
Proof.
  induction zs as [|x zs IH]; intros d; simpl; auto. rewrite dict_get_keys. destruct (dict_get d x); simpl; auto. rewrite dict_set_keys. apply IH.
Qed.
Lemma del_all_map {V} xs : forall d : list (nat * V), del_all (map f xs) (keys d) = map_res (fun l => keys l) (del_all xs d).
Proof.
  induction xs as [|x xs IH]; intros d; simpl; auto. rewrite dict_pop_keys. destruct (dict_pop d x) as [[? d']|]; simpl; auto.
Qed.
Lemma fused_map tx ty hyper out : fused_inds (map f tx) (map f ty) (map f hyper) (map f out) = map f (fused_inds tx ty hyper out).
Proof.
  unfold fused_inds. set (kp := fun x => _ : bool) at 3.
  rewrite !(@filter_map f _ kp) by (intros x; rewrite !(memb_map Hf); reflexivity). rewrite <- map_app. apply (unique_map Hf).
Qed.

(** The state of the loop; hyper_count is a function of the names. *)
Record frel (s' s : fstate) : Prop := {
  fr_ts : f_ts s' = map (fun e => (fst e, map f (snd e))) (f_ts s);
  fr_i2t : f_i2t s' = keys (f_i2t s);
  fr_h : forall x, f_h s' (f x) = f_h s x;
  fr_next : f_next s' = f_next s;
  fr_inds : f_inds s' = map f (f_inds s);
  fr_merged : f_merged s' = map (fun e => (fst e, map f (snd e))) (f_merged s) }.
Definition rrel {A B} (Q : B -> A -> Prop) (r' : res B) (r : res A) : Prop :=
  match r', r with Ok b, Ok a => Q b a | Err e, Err e' => e = e' | _, _ => False end.

Section Fuse.
Variables (R : Type) (g : prng R) (lg : N -> Z) (dim' dim : nat -> N) (mx : Z) (excl out : list nat).
Hypothesis Hd : forall x, dim' (f x) = dim x.
Lemma fwidth_map xs : fwidth lg dim' (map f xs) = fwidth lg dim xs.
Proof. unfold fwidth. rewrite map_map. f_equal. apply map_ext. intros x. rewrite Hd. auto. Qed.

Lemma fuse_loop_map fuel : forall avail s' s r, frel s' s ->
  rrel frel (fuse_loop g lg dim' mx (map f excl) (map f out) fuel (map f avail) s' r) (fuse_loop g lg dim mx excl out fuel avail s r).
Proof.
  induction fuel as [|fuel IH]; intros avail s' s r S; [reflexivity|].
  destruct S as [S1 S2 S3 S4 S5 S6] eqn:ES. destruct avail as [|y avail]; [exact S|].
  change (map f (y :: avail)) with (f y :: map f avail). cbn [fuse_loop].
  change (f y :: map f avail) with (map f (y :: avail)). rewrite map_length.
  destruct (randrange g r (length (y :: avail))) as [i r1]. rewrite pop_map.
  destruct (pop (y :: avail) i) as [[x av]|]; cbn [map_res bind fst snd]; [|reflexivity]. rewrite S3.
  destruct (f_h s x =? 0); [apply IH; exact S|]. rewrite S2, dict_get_keys. destruct (dict_get (f_i2t s) x) as [l|]; cbn [bind]; [|reflexivity].
  destruct (length l <? 2); [reflexivity|]. destruct (sample2 g r1 (length l)) as [[a b] r2].
  destruct (get l a) as [px|]; cbn [bind]; [|reflexivity]. destruct (get l b) as [py|]; cbn [bind]; [|reflexivity].
  rewrite S1, !dict_get_vals. destruct (dict_get (f_ts s) px) as [tx|]; cbn [bind map_res]; [|reflexivity].
  destruct (dict_get (f_ts s) py) as [ty|]; cbn [bind map_res]; [|reflexivity].
  rewrite <- map_app, (@existsb_map f _ (fun y => memb y excl)) by (intros z; apply (memb_map Hf)).
  destruct (existsb _ _); [apply IH; exact S|].
  rewrite (unique_map Hf), (@filter_map f _ (fun y => memb y ty)) by (intros z; apply (memb_map Hf)).
  set (shared := filter (fun y => memb y ty) (unique tx)). rewrite (memb_map Hf). destruct (negb (memb x shared)); [reflexivity|].
  rewrite (@existsb_map f _ (fun y => f_h s y =? 0)) by (intros z; rewrite S3; auto). destruct (existsb _ shared); [reflexivity|].
  rewrite (@filter_map f _ (fun y => 1 <? f_h s y)) by (intros z; rewrite S3; auto). set (hyper := filter (fun y => 1 <? f_h s y) shared).
  rewrite fused_map. set (tz := fused_inds tx ty hyper out). rewrite fwidth_map. destruct (mx <? fwidth lg dim tz)%Z; [apply IH; exact S|].
  rewrite S4, move_all_map. destruct (move_all tz px py (f_next s) (f_i2t s)) as [d1|]; cbn [bind map_res]; [|reflexivity].
  rewrite (@filter_map f _ (fun y => negb (memb y hyper) && negb (memb y out))) by (intros z; rewrite !(memb_map Hf); auto).
  rewrite del_all_map. destruct (del_all _ d1) as [d2|]; cbn [bind map_res]; [|reflexivity].
  rewrite dict_pop_vals. destruct (dict_pop (f_ts s) px) as [[? ts1]|]; cbn [bind map_res fst snd]; [|reflexivity].
  rewrite dict_pop_vals. destruct (dict_pop ts1 py) as [[? ts2]|]; cbn [bind map_res fst snd]; [|reflexivity].
  replace (if f_h s x - (if memb x shared then 1 else 0) =? 0 then map f av else map f av ++ [f x])
    with (map f (if f_h s x - (if memb x shared then 1 else 0) =? 0 then av else av ++ [x])) by (destruct (_ =? 0); auto; apply map_app).
  apply IH. constructor; cbn [f_ts f_i2t f_h f_next f_inds f_merged]; auto.
  - apply (dict_set_vals (map f)).
  - intros z. rewrite S3, (memb_map Hf). auto.
  - rewrite S5, map_app. auto.
  - rewrite S6, map_app. auto.
Qed.
End Fuse.

Lemma renormalize_map l : forall pos, renormalize (map (fun e => (fst e, map f (snd e))) l) pos = renormalize l pos.
Proof.
  induction l as [|[[px py] xs] l IH]; intros pos; simpl; auto. destruct (sort2 px py) as [a b].
  destruct (index _ b pos); simpl; auto. destruct (pop pos _) as [[? ?]|]; simpl; auto. destruct (index _ a _); simpl; auto.
  destruct (pop _ _) as [[? ?]|]; simpl; auto. rewrite IH. auto.
Qed.
Lemma dim_at_map d x : dim_at (rename_dims f d) (f x) = dim_at d x.
Proof. destruct d; simpl; auto. rewrite dict_get_keys. auto. Qed.
Lemma combine_vals {A B C} (h : B -> C) (l : list A) k : combine l (map h k) = map (fun e => (fst e, h (snd e))) (combine l k).
Proof. revert k. induction l as [|x l IH]; intros [|y k]; simpl; auto. rewrite IH. auto. Qed.

Lemma fuse_map {R} (g : prng R) lg ts d mx o excl r :
  fuse g lg (map (map f) ts) (rename_dims f d) mx (option_map (map f) o) (map f excl) r =
  map_res (fun e => (fst e, map (map f) (snd e))) (fuse g lg ts d mx o excl r).
Proof.
  unfold fuse. rewrite concat_map2, (unique_map Hf), map_length.
  rewrite (@forallb_map f _ (fun x => memb x (unique (concat ts))) excl) by (intros x; apply (memb_map Hf)). destruct (negb _); auto.
  rewrite (dims_of_map Hf). destruct (dims_of d (unique (concat ts))); cbn [bind map_res]; auto.
  assert (E : (match option_map (map f) o with
     | Some o => Ok o
     | None => if existsb (fun x => 1 <? count x (map f (concat ts)) - 1) (map f (unique (concat ts))) then Err Throw
               else Ok (filter (fun x => count x (map f (concat ts)) - 1 =? 0) (map f (unique (concat ts)))) end) =
    map_res (map f) (match o with
     | Some o => Ok o
     | None => if existsb (fun x => 1 <? count x (concat ts) - 1) (unique (concat ts)) then Err Throw
               else Ok (filter (fun x => count x (concat ts) - 1 =? 0) (unique (concat ts))) end)).
  { destruct o as [o|]; simpl; auto.
    rewrite (@existsb_map f _ (fun x => 1 <? count x (concat ts) - 1)) by (intros x; rewrite (count_map Hf); auto). destruct (existsb _ _); simpl; auto.
    f_equal. apply filter_map. intros x. rewrite (count_map Hf). auto. }
  rewrite E. clear E. match goal with |- bind (map_res _ ?x) _ = map_res _ (bind ?x _) => destruct x as [out|]; cbn [bind map_res]; auto end.
  rewrite (@forallb_map f _ (fun x => memb x (unique (concat ts))) out) by (intros x; apply (memb_map Hf)). destruct (negb _); auto.
  rewrite (@filter_map f _ (fun x => negb (memb x excl) && negb (count x (concat ts) - 1 =? 0)))
    by (intros x; rewrite (memb_map Hf), (count_map Hf); auto). rewrite map_length.
  match goal with |- context [fuse_loop g lg (dim_at d) mx excl out ?fu ?av ?s r] => set (fuel := fu); set (avail := av); set (s0 := s) end.
  match goal with |- context [fuse_loop g lg (dim_at (rename_dims f d)) mx _ _ ?fu ?av ?s r] => set (s0' := s) end.
  pose proof (@fuse_loop_map R g lg (dim_at (rename_dims f d)) (dim_at d) mx excl out (dim_at_map d) fuel avail s0' s0 r) as L.
  assert (S : frel s0' s0).
  { constructor; simpl; auto; [apply combine_vals|apply adjacency_map|]. intros x. rewrite (count_map Hf). auto. }
  specialize (L S). unfold rrel in L.
  destruct (fuse_loop g lg (dim_at (rename_dims f d)) mx _ _ fuel (map f avail) s0' r) as [t'|e'];
    destruct (fuse_loop g lg (dim_at d) mx excl out fuel avail s0 r) as [t|e]; try contradiction; cbn [bind map_res]; [|subst; auto].
  destruct L as [T1 T2 T3 T4 T5 T6]. rewrite T5, T6, T4.
  rewrite (@existsb_map f _ (fun x => memb x excl)) by (intros x; apply (memb_map Hf)). destruct (existsb _ _); auto.
  rewrite renormalize_map. destruct (renormalize _ _); simpl; auto. do 2 f_equal. rewrite !map_map. auto.
Qed.

(** * tensordot and contract *)
Definition ren_oset (s : oset) : oset := M_OSet.mkO (map f (M_OSet.order s)).
Lemma ofs_map l : ofs (map f l) = ren_oset (ofs l).
Proof. unfold ofs, ren_oset. simpl. rewrite (unique_map Hf). auto. Qed.
Lemma difference_map s t : difference (ren_oset s) (OSet (ren_oset t)) = ren_oset (difference s (OSet t)).
Proof.
  unfold difference. simpl. rewrite (@filter_map f _ (fun x => negb (memb x (M_OSet.order t)))) by (intros x; rewrite (memb_map Hf); auto). apply ofs_map.
Qed.
Lemma intersection_map s t : intersection (ren_oset s) (OSet (ren_oset t)) = ren_oset (intersection s (OSet t)).
Proof.
  unfold intersection. simpl. rewrite (@filter_map f _ (fun x => memb x (M_OSet.order t))) by (intros x; rewrite (memb_map Hf); auto). apply ofs_map.
Qed.
Lemma union_map s t : union (ren_oset s) (OSet (ren_oset t)) = ren_oset (union s (OSet t)).
Proof. unfold union. simpl. rewrite <- map_app. apply ofs_map. Qed.
Lemma iter_map s : iter (ren_oset s) = map f (iter s).
Proof. auto. Qed.
Definition ren_groups (g : groups) : groups := mkG (ren_oset (g_hyper g)) (ren_oset (g_shared g)) (ren_oset (g_x g)) (ren_oset (g_y g)).
Lemma group_map xs ys hyper : group (ren_oset xs) (ren_oset ys) (map f hyper) = map_res ren_groups (group xs ys hyper).
Proof.
  unfold group. rewrite ofs_map, intersection_map. unfold issuperset. simpl elements.
  rewrite (@forallb_map f _ (fun x => memb x (M_OSet.order (intersection xs (OSet ys))))) by (intros x; simpl; apply (memb_map Hf)).
  destruct (negb _); auto. simpl. unfold ren_groups. simpl. rewrite !difference_map. auto.
Qed.
Lemma new_inds_map g : new_inds (ren_groups g) = map f (new_inds g).
Proof. unfold new_inds. destruct g as [gh gs gx gy]. cbn [ren_groups g_hyper g_shared g_x g_y]. rewrite !union_map. auto. Qed.
Lemma tensordot_inds_map xs ys hyper :
  tensordot_inds (map f xs) (map f ys) (map f hyper) = map_res (map f) (tensordot_inds xs ys hyper).
Proof. unfold tensordot_inds. rewrite !ofs_map, group_map. destruct (group _ _ _); simpl; auto. rewrite new_inds_map. auto. Qed.
Lemma sizes_map dims xs : sizes (keys dims) (map f xs) = sizes dims xs.
Proof. unfold sizes. apply mapM_same. intros x. apply dict_get_keys. Qed.

Section Arrays.
Variables (K : Type) (A : alg K).
Lemma tensordot_map (ax : nda K) xs ay ys hyper :
  tensordot A ax (map f xs) ay (map f ys) (map f hyper) = map_res (fun e => (fst e, map f (snd e))) (tensordot A ax xs ay ys hyper).
Proof.
  unfold tensordot. rewrite !ofs_map, group_map. destruct (group (ofs xs) (ofs ys) hyper) as [g|]; cbn [bind map_res]; auto.
  rewrite new_inds_map. destruct g as [gh gs gx gy]. cbn [ren_groups g_hyper g_shared g_x g_y].
  rewrite !union_map, !iter_map, !combine_keys, <- map_app, dict_of_keys, !sizes_map.
  rewrite !(@mapM_same _ _ _ f _ (fun x => index Nat.eqb x (iter (ofs xs)))) by (intros x; apply (rank_map Hf)).
  destruct (mapM _ _) as [px|]; cbn [bind map_res]; auto. destruct (transpose A ax px) as [tx|]; cbn [bind map_res]; auto.
  destruct (sizes _ (iter gh)) as [h|]; cbn [bind map_res]; auto. destruct (sizes _ (iter gx)) as [dx|]; cbn [bind map_res]; auto.
  destruct (sizes _ (iter gs)) as [ds|]; cbn [bind map_res]; auto. destruct (reshape tx _) as [rx|]; cbn [bind map_res]; auto.
  rewrite !(@mapM_same _ _ _ f _ (fun x => index Nat.eqb x (iter (ofs ys)))) by (intros x; apply (rank_map Hf)).
  destruct (mapM _ _) as [py|]; cbn [bind map_res]; auto. destruct (transpose A ay py) as [ty|]; cbn [bind map_res]; auto.
  destruct (sizes _ (iter gy)) as [dy|]; cbn [bind map_res]; auto. destruct (reshape ty _) as [ry|]; cbn [bind map_res]; auto.
  destruct (matmul A rx ry) as [m|]; cbn [bind map_res]; auto. destruct (sizes _ _) as [dz|]; cbn [bind map_res]; auto.
  destruct (reshape m dz); auto.
Qed.

Variables arr' arr : list nat -> list nat.
Hypothesis Harr : forall l, arr' (map f l) = map f (arr l).

Lemma contract_loop_map out p : forall ts (arrays : option (list (nda K))) h' h, (forall x, h' (f x) = h x) ->
  contract_loop A arr' (map f out) p (map (map f) ts) arrays h' =
  map_res (fun e => (map (map f) (fst e), snd e)) (contract_loop A arr out p ts arrays h).
Proof.
  induction p as [|[a b] p IH]; intros ts arrays h' h H; simpl; auto. destruct (sort2 a b) as [x y]. destruct (x =? y); auto.
  rewrite pop_map. destruct (pop ts y) as [[ys ts1]|]; cbn [bind map_res fst snd]; auto.
  rewrite pop_map. destruct (pop ts1 x) as [[xs ts2]|]; cbn [bind map_res fst snd]; auto.
  rewrite (unique_map Hf), (@filter_map f _ (fun s => memb s ys)) by (intros z; apply (memb_map Hf)).
  set (shared := filter (fun s => memb s ys) (unique xs)).
  rewrite (@existsb_map f _ (fun s => h s =? 0)) by (intros z; rewrite H; auto). destruct (existsb _ shared); auto.
  rewrite (@filter_map f _ (fun s => (1 <? h s) || memb s out)) by (intros z; rewrite H, (memb_map Hf); auto). rewrite Harr.
  destruct arrays as [l|].
  - destruct (pop l y) as [[ay l1]|]; cbn [bind map_res]; auto. destruct (pop l1 x) as [[ax l2]|]; cbn [bind map_res]; auto.
    rewrite tensordot_map. destruct (tensordot A ax xs ay ys _) as [[az zs]|]; cbn [bind map_res fst snd]; auto.
    change ([map f zs]) with (map (map f) [zs]). rewrite <- map_app. apply IH. intros z. rewrite H, (memb_map Hf). auto.
  - rewrite tensordot_inds_map. destruct (tensordot_inds xs ys _) as [zs|]; cbn [bind map_res]; auto.
    change ([map f zs]) with (map (map f) [zs]). rewrite <- map_app. apply IH. intros z. rewrite H, (memb_map Hf). auto.
Qed.

Lemma map2_keys (arrays : list (nda K)) ts :
  concat (map2 (fun a xs => combine xs (shape a)) arrays (map (map f) ts)) = keys (concat (map2 (fun a xs => combine xs (shape a)) arrays ts)).
Proof. revert ts. induction arrays as [|a arrays IH]; intros [|xs ts]; simpl; auto. rewrite combine_keys, map_app, IH. auto. Qed.
Lemma map2_id (arrays : list (nda K)) ts p q : (forall a xs, p a (map f xs) = q a xs :> bool) ->
  forallb id (map2 p arrays (map (map f) ts)) = forallb id (map2 q arrays ts).
Proof. intros H. revert ts. induction arrays as [|a arrays IH]; intros [|xs ts]; simpl; auto. rewrite H, IH. auto. Qed.
Lemma check_dims_map ts (arrays : option (list (nda K))) d :
  check_dims (map (map f) ts) arrays (option_map (rename_dims f) d) = check_dims ts arrays d.
Proof.
  unfold check_dims. destruct arrays as [l|].
  - unfold array_dims. rewrite map2_keys, dict_of_keys, map_length.
    rewrite (@map2_id l ts _ (fun a xs => match sizes (dict_of (concat (map2 (fun a xs => combine xs (shape a)) l ts))) xs with Ok k => list_eqb (shape a) k | Err _ => false end))
      by (intros a xs; rewrite sizes_map; auto).
    destruct (negb _); auto. destruct d as [d|]; simpl; auto. set (ds := dict_of _).
    replace (map fst (keys ds)) with (map f (map fst ds)) by (rewrite !map_map; auto). rewrite (dims_of_map Hf).
    destruct (dims_of d (map fst ds)) as [ks|]; cbn [bind]; auto.
    replace (map2 (fun k e => (k =? N.of_nat (snd e))%N) ks (keys ds)) with (map2 (fun k e => (k =? N.of_nat (snd e))%N) ks ds); auto.
    clear. revert ks. induction ds as [|e ds IH]; intros [|k ks]; simpl; auto. rewrite IH. auto.
  - destruct d as [d|]; simpl; auto. rewrite concat_map2, (dims_of_map Hf). auto.
Qed.

Lemma contract_map p ts o arrays d :
  contract A arr' p (map (map f) ts) (option_map (map f) o) arrays (option_map (rename_dims f) d) =
  map_res (fun e => (map (map f) (fst (fst e)), map f (snd (fst e)), snd e)) (contract A arr p ts o arrays d).
Proof.
  unfold contract. rewrite check_dims_map. destruct (check_dims ts arrays d); cbn [bind map_res]; auto.
  rewrite concat_map2, (unique_map Hf).
  assert (E : (match option_map (map f) o with
     | Some o => Ok (unique o)
     | None => if existsb (fun x => 1 <? count x (map f (concat ts)) - 1) (map f (unique (concat ts))) then Err Throw
               else Ok (filter (fun x => count x (map f (concat ts)) - 1 =? 0) (map f (unique (concat ts)))) end) =
    map_res (map f) (match o with
     | Some o => Ok (unique o)
     | None => if existsb (fun x => 1 <? count x (concat ts) - 1) (unique (concat ts)) then Err Throw
               else Ok (filter (fun x => count x (concat ts) - 1 =? 0) (unique (concat ts))) end)).
  { destruct o as [o|]; simpl; [rewrite (unique_map Hf); auto|].
    rewrite (@existsb_map f _ (fun x => 1 <? count x (concat ts) - 1)) by (intros x; rewrite (count_map Hf); auto). destruct (existsb _ _); simpl; auto.
    f_equal. apply filter_map. intros x. rewrite (count_map Hf). auto. }
  rewrite E. clear E. match goal with |- bind (map_res _ ?x) _ = map_res _ (bind ?x _) => destruct x as [out|]; cbn [bind map_res]; auto end.
  rewrite (@forallb_map f _ (fun x => memb x (concat ts)) out) by (intros x; apply (memb_map Hf)). destruct (negb _); auto.
  rewrite (@contract_loop_map out p ts arrays _ (fun x => count x (concat ts) - 1)) by (intros x; rewrite (count_map Hf); auto).
  destruct (contract_loop A arr out p ts arrays _) as [[ts1 ar]|]; cbn [bind map_res fst snd]; auto. do 3 f_equal.
  rewrite concat_map2. apply filter_map. intros x. apply (memb_map Hf).
Qed.
End Arrays.
End Rename.
