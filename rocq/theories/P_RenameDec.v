(** Decomposing hyper-indices and loading a network whose indices have other names. *)
From Verif Require Import M_Base M_Path M_PyTree M_OSet M_Random M_Fuse M_Tensor M_Contract M_Decompose M_TnApp M_LoadTn S_Rename P_Rename P_RenameLoad.
Set Implicit Arguments. Unset Strict Implicit.

Section Rename.
Variable f : nat -> nat.
Hypothesis Hf : injective f.
Notation keys := (map (fun e => (f (fst e), snd e))).
Variables (K : Type) (A : alg K) (eqb : K -> K -> bool).
Notation both h := (map (fun e => (f (fst e), h (snd e)))).

Lemma both_keys {V W} (h : V -> W) l : both h l = keys (map (fun e => (fst e, h (snd e))) l).
Proof. rewrite map_map. auto. Qed.
Lemma get_both {V W} (h : V -> W) l x : dict_get (both h l) (f x) = map_res h (dict_get l x).
Proof. rewrite both_keys, (dict_get_keys Hf), dict_get_vals. auto. Qed.
Lemma set_both {V W} (h : V -> W) l x v : dict_set (both h l) (f x) (h v) = both h (dict_set l x v).
Proof. rewrite both_keys, (dict_set_keys Hf), dict_set_vals, <- both_keys. auto. Qed.
Lemma pop_both {V W} (h : V -> W) l x : dict_pop (both h l) (f x) = map_res (fun e => (h (fst e), both h (snd e))) (dict_pop l x).
Proof.
  rewrite both_keys, (dict_pop_keys Hf), dict_pop_vals, map_res_map_res. destruct (dict_pop l x) as [[v d]|]; simpl; auto. rewrite <- both_keys. auto.
Qed.
Lemma dict_of_both {V W} (h : V -> W) l : dict_of (both h l) = both h (dict_of l).
Proof.
  unfold dict_of. change (@nil (nat * W)) with (both h (@nil (nat * V))) at 1. generalize (@nil (nat * V)) as d.
  induction l as [|[k v] l IH]; intros d; simpl; auto. rewrite set_both. apply IH.
Qed.
Lemma merged_map h x : merged_with (both (map f) h) (f x) = map f (merged_with h x).
Proof. unfold merged_with. rewrite get_both. destruct (dict_get h x); auto. Qed.
Lemma discard_map h x : discard (both (map f) h) (f x) = both (map f) (discard h x).
Proof. unfold discard. rewrite pop_both. destruct (dict_pop h x) as [[v d]|]; auto. Qed.

Lemma first_diagonal_in a l i j : first_diagonal A eqb a l = Ok (Some (i, j)) -> In (i, j) l.
Proof.
  induction l as [|[i' j'] l IH]; simpl; [discriminate|]. destruct (transpose A a _) as [b|]; simpl; [|discriminate].
  destruct (is_diagonal A eqb b) as [[|]|]; simpl; try discriminate; auto. intros E. injection E as -> ->. auto.
Qed.
Lemma pairs_lt r i j : In (i, j) (pairs r) -> i < r /\ j < r.
Proof.
  intros H. apply in_flat_map in H. destruct H as (k & H1 & H2). apply in_map_iff in H2. destruct H2 as (m & E & H2). injection E as -> ->.
  apply in_seq in H1. apply in_seq in H2. lia.
Qed.
Lemma pad_lt l r k : (forall x, In x l -> x < r) -> In k (pad l r) -> k < r.
Proof. intros H I. apply in_app_iff in I. destruct I as [I|I]; auto. apply filter_In in I. destruct I as [I _]. apply in_seq in I. lia. Qed.
Lemma nth_map_lt l k : k < length l -> nth k (map f l) 0 = f (nth k l 0).
Proof. intros H. rewrite (nth_indep _ 0 (f 0)) by (rewrite map_length; auto). apply map_nth. Qed.

Definition ren_dec (e : nda K * list nat * list (nat * list nat)) : nda K * list nat * list (nat * list nat) :=
  (fst (fst e), map f (snd (fst e)), both (map f) (snd e)).
Lemma decompose_aux_map fuel : forall a xs h,
  decompose_aux A eqb fuel a (map f xs) (both (map f) h) = map_res ren_dec (decompose_aux A eqb fuel a xs h).
Proof.
  induction fuel as [|fuel IH]; intros a xs h; simpl; auto. rewrite (unique_map Hf), !map_length.
  destruct (negb (length (shape a) =? length xs)); auto. destruct (negb (length (unique xs) =? length xs)); auto.
  destruct (first_diagonal A eqb a (pairs (length xs))) as [[[i j]|]|] eqn:E; cbn [bind map_res]; auto.
  apply first_diagonal_in, pairs_lt in E. destruct E as [Hi Hj].
  assert (L : forall k, In k (pad [i; j] (length xs)) -> k < length xs) by (intros k; apply pad_lt; intros x [<-|[<-|[]]]; auto).
  assert (M : map (fun k => nth k (map f xs) 0) (pad [i; j] (length xs)) = map f (map (fun k => nth k xs 0) (pad [i; j] (length xs)))).
  { rewrite map_map. apply map_ext_in. intros k Hk. apply nth_map_lt. auto. }
  destruct (transpose A a (pad [i; j] (length xs))) as [b|]; cbn [bind map_res]; auto.
  rewrite !nth_map_lt by auto.
  replace (map f (merged_with h (nth i xs 0))) with (map f (merged_with h (nth i xs 0))) by auto.
  rewrite !merged_map. change [f (nth i xs 0)] with (map f [nth i xs 0]). rewrite <- !map_app, (unique_map Hf), set_both, discard_map.
  destruct (diagonal A b) as [c|]; cbn [bind map_res]; auto. destruct (all_same eqb c); auto.
  rewrite <- IH. f_equal. simpl in M. injection M as _ _ M. rewrite M. simpl. auto.
Qed.
Lemma decompose_map a xs : decompose A eqb a (map f xs) = map_res ren_dec (decompose A eqb a xs).
Proof. unfold decompose. rewrite map_length. apply (decompose_aux_map (S (length xs)) a xs []). Qed.

Definition ren_all (e : list (nda K) * list (list nat) * list (nat * list nat)) : list (nda K) * list (list nat) * list (nat * list nat) :=
  (fst (fst e), map (map f) (snd (fst e)), both (map f) (snd e)).
Lemma decompose_all_map arrays : forall ts, decompose_all A eqb arrays (map (map f) ts) = map_res ren_all (decompose_all A eqb arrays ts).
Proof.
  induction arrays as [|a arrays IH]; intros [|xs ts]; auto. simpl. rewrite decompose_map.
  destruct (decompose A eqb a xs) as [[[b ys] h]|]; simpl; auto. rewrite IH.
  destruct (decompose_all A eqb arrays ts) as [[[bs us] hs]|]; simpl; auto. unfold ren_all. simpl. rewrite map_app. auto.
Qed.

Notation ro := (ren_oset f).
Notation vals := (map (fun e => (fst e, ro (snd e)))).
Lemma pop_all_map cs : forall c2i acc, pop_all (vals c2i) cs (ro acc) = map_res (fun e => (ro (fst e), vals (snd e))) (pop_all c2i cs acc).
Proof.
  induction cs as [|c cs IH]; intros c2i acc; simpl; auto. rewrite dict_pop_vals. destruct (dict_pop c2i c) as [[s d]|]; cbn [bind map_res fst snd]; auto.
  rewrite (union_map Hf). apply IH.
Qed.
Definition ren_st (st : list (nat * nat) * list (nat * oset)) : list (nat * nat) * list (nat * oset) := (keys (fst st), vals (snd st)).
Lemma fold_set_map c xs : forall d, fold_left (fun d y => dict_set d y c) (map f xs) (keys d) = keys (fold_left (fun d y => dict_set d y c) xs d) :> list (nat * nat).
Proof. induction xs as [|x xs IH]; intros d; simpl; auto. rewrite (dict_set_keys Hf). apply IH. Qed.
Lemma merge_colors_map st e : merge_colors (ren_st st) (f (fst e), map f (snd e)) = map_res ren_st (merge_colors st e).
Proof.
  destruct st as [i2c c2i], e as [x xs]. unfold merge_colors, ren_st. cbn [fst snd]. rewrite map_length. destruct (length xs =? 0); auto.
  change [f x] with (map f [x]). rewrite <- map_app, (unique_map Hf). rewrite (@mapM_same _ _ _ f _ (dict_get i2c)) by (intros y; apply (dict_get_keys Hf)).
  destruct (mapM _ _) as [cs0|]; cbn [bind map_res]; auto. destruct (sort (unique cs0)) as [|c cs]; auto.
  rewrite dict_pop_vals. destruct (dict_pop c2i c) as [[s d]|]; cbn [bind map_res fst snd]; auto.
  rewrite pop_all_map. destruct (pop_all d cs s) as [[u d2]|]; cbn [bind map_res fst snd]; auto.
  rewrite iter_map, fold_set_map, (dict_set_vals ro). auto.
Qed.
Lemma merge_all_map l : forall st, M_Decompose.merge_all (ren_st st) (both (map f) l) = map_res ren_st (M_Decompose.merge_all st l).
Proof.
  induction l as [|e l IH]; intros st; auto. cbn [map M_Decompose.merge_all]. rewrite merge_colors_map. destruct (merge_colors st e) as [st'|]; cbn [bind map_res]; auto.
Qed.
Lemma class_map_map s : class_map (ro s) = map_res (both f) (class_map s).
Proof. unfold class_map. rewrite iter_map. destruct (iter s) as [|y l]; simpl; auto. rewrite !map_map. auto. Qed.

Definition ren_net3 (e : list (nda K) * list (list nat) * list (nat * nat)) : list (nda K) * list (list nat) * list (nat * nat) :=
  (fst (fst e), map (map f) (snd (fst e)), both f (snd e)).
Lemma decompose_network_map arrays ts :
  decompose_network A eqb arrays (map (map f) ts) = map_res ren_net3 (decompose_network A eqb arrays ts).
Proof.
  unfold decompose_network. rewrite concat_map2, (ofs_map Hf), iter_map, map_length, decompose_all_map.
  destruct (decompose_all A eqb arrays ts) as [[[bs us] hyper]|]; auto. cbn [bind map_res ren_all fst snd].
  set (all := iter (ofs (concat ts))). rewrite combine_keys. set (i2c := combine all (seq 0 (length all))).
  replace (map (fun e => (snd e, ofs [fst e])) (keys i2c)) with (vals (map (fun e => (snd e, ofs [fst e])) i2c))
    by (rewrite !map_map; apply map_ext; intros e; simpl; change [f (fst e)] with (map f [fst e]); rewrite (ofs_map Hf); auto).
  change (keys i2c, vals (map (fun e => (snd e, ofs [fst e])) i2c)) with (ren_st (i2c, map (fun e => (snd e, ofs [fst e])) i2c)).
  rewrite merge_all_map. destruct (M_Decompose.merge_all _ hyper) as [[i2c' c2i']|]; auto. cbn [bind map_res ren_st fst snd].
  rewrite (@mapM_f _ _ _ _ (fun e1 => (fst e1, ro (snd e1))) (both f) _ (fun e1 => class_map (snd e1))) by (intros e0; apply class_map_map).
  destruct (mapM _ c2i') as [ms|]; cbn [bind map_res]; auto.
  replace (concat (map (both f) ms)) with (both f (concat ms)) by (rewrite concat_map; auto). rewrite dict_of_both.
  rewrite (@mapM_f _ _ _ _ (map f) (map f) _ (mapM (dict_get (dict_of (concat ms))))) by (intros xs; apply mapM_f; intros x; apply get_both).
  destruct (mapM _ us); auto.
Qed.

(** * The objects *)
Notation ren_tensor := (rename_tensor (K:=K) f).
Lemma make_tensor_map xs d (a : option (nda K)) : make_tensor (map f xs) d a = map_res ren_tensor (make_tensor xs d a).
Proof.
  unfold make_tensor. rewrite map_length. match goal with |- bind ?x _ = map_res _ (bind ?x _) => destruct x as [ds|]; cbn [bind map_res]; auto end.
  destruct (existsb _ ds); auto. destruct (negb _); auto. destruct a as [a|]; auto. destruct (eqb_dims _ _); auto.
Qed.
Notation ren_net := (rename_network (K:=K) f).
Lemma all_inds_map ts : all_inds (map ren_tensor ts) = map f (all_inds ts).
Proof. unfold all_inds. induction ts as [|t ts IH]; simpl; auto. rewrite map_app, IH. auto. Qed.
Lemma occurrences_map ts x : occurrences (map ren_tensor ts) (f x) = occurrences ts x.
Proof. unfold occurrences. rewrite all_inds_map. apply (count_map Hf). Qed.
Lemma subset_map l k : subset (map f l) (map f k) = subset l k.
Proof. apply forallb_map. intros x. apply (memb_map Hf). Qed.
Lemma same_dims_map d t : same_dims (keys d) (ren_tensor t) = same_dims d t.
Proof. unfold same_dims. simpl. rewrite (@mapM_same _ _ _ f _ (dict_get d)) by (intros x; apply (dict_get_keys Hf)). auto. Qed.
Lemma make_network_map ts out sparse :
  make_network (map ren_tensor ts) (option_map (map f) out) (option_map (map f) sparse) = map_res ren_net (make_network ts out sparse).
Proof.
  unfold make_network. rewrite all_inds_map, (unique_map Hf).
  replace (unique match option_map (map f) sparse with Some s => s | None => [] end) with (map f (unique match sparse with Some s => s | None => [] end))
    by (destruct sparse; simpl; auto; rewrite (unique_map Hf); auto).
  replace (flat_map (fun t => combine (t_inds t) (t_dims t)) (map ren_tensor ts)) with (keys (flat_map (fun t => combine (t_inds t) (t_dims t)) ts))
    by (induction ts as [|t ts IH]; simpl; auto; rewrite map_app, combine_keys, IH; auto).
  rewrite (dict_of_keys Hf). set (dims := dict_of _).
  replace (forallb (same_dims (keys dims)) (map ren_tensor ts)) with (forallb (same_dims dims) ts)
    by (clearbody dims; induction ts as [|t ts' IH]; simpl; auto; rewrite same_dims_map; f_equal; auto).
  destruct (negb _); auto.
  assert (E : (match option_map (map f) out with
     | Some o => Ok (unique o)
     | None => if existsb (fun x => 1 <? occurrences (map ren_tensor ts) x - 1) (map f (unique (all_inds ts))) then Err Throw
               else Ok (filter (fun x => occurrences (map ren_tensor ts) x - 1 =? 0) (map f (unique (all_inds ts)))) end) =
    map_res (map f) (match out with
     | Some o => Ok (unique o)
     | None => if existsb (fun x => 1 <? occurrences ts x - 1) (unique (all_inds ts)) then Err Throw
               else Ok (filter (fun x => occurrences ts x - 1 =? 0) (unique (all_inds ts))) end)).
  { destruct out as [o|]; simpl; [rewrite (unique_map Hf); auto|].
    rewrite (@existsb_map f _ (fun x => 1 <? occurrences ts x - 1)) by (intros x; rewrite occurrences_map; auto). destruct (existsb _ _); simpl; auto.
    f_equal. apply filter_map. intros x. rewrite occurrences_map. auto. }
  rewrite E. clear E. match goal with |- bind (map_res _ ?x) _ = map_res _ (bind ?x _) => destruct x as [o|]; cbn [bind map_res]; auto end.
  rewrite !subset_map. destruct (negb _); auto. destruct (negb _); auto.
Qed.

Lemma remake_map dims ts : forall arrays tags,
  remake (keys dims) (map (map f) ts) arrays tags = map_res (fun e => (map ren_tensor (fst e), snd e)) (@remake K dims ts arrays tags).
Proof.
  induction ts as [|xs ts IH]; intros [|a arrays] [|t tags]; auto. simpl.
  rewrite (@mapM_same _ _ _ f _ (dict_get dims)) by (intros x; apply (dict_get_keys Hf)). destruct (mapM _ xs) as [ds|]; cbn [bind map_res]; auto.
  rewrite make_tensor_map. destruct (make_tensor xs (DMany ds) a) as [T|]; cbn [bind map_res]; auto. rewrite IH.
  destruct (remake dims ts arrays tags) as [[Ts gs]|]; auto.
Qed.

Notation ren_object := (rename_object (K:=K) f).
Variables (R : Type) (g : prng R) (lg : N -> Z) (arr' arr : list nat -> list nat).
Hypothesis Harr : forall l, arr' (map f l) = map f (arr l).
Lemma py_dims_keys d : M_LoadTn.py_dims (keys d) = rename_dims f (M_LoadTn.py_dims d).
Proof. unfold M_LoadTn.py_dims. simpl. rewrite !map_map. auto. Qed.

Theorem load_tn_map o dec width r :
  load_tn A eqb g lg arr' (ren_object o) dec width r = map_res ren_object (load_tn A eqb g lg arr o dec width r).
Proof.
  unfold load_tn. destruct o as [n tags hyper fp]. cbn [rename_object o_net o_tags o_hyper o_path]. destruct n as [l ix dm out sp].
  cbn [rename_network n_list n_sparse n_out n_dims M_TnApp.n_inds]. rewrite map_length.
  replace (map (@t_array K) (map ren_tensor l)) with (map (@t_array K) l) by (rewrite map_map; auto).
  replace (map (@t_inds K) (map ren_tensor l)) with (map (map f) (map (@t_inds K) l)) by (rewrite !map_map; auto).
  set (arrays := map (@t_array K) l). set (ts := map (@t_inds K) l). set (np := length (provided arrays)).
  set (sparse := negb (length sp =? 0)).
  set (dec' := dec && negb sparse && negb (np <? length arrays)).
  set (w := if sparse || _ then None else width).
  set (ren1 := fun e : (list (option (nda K)) * list (list nat) * list nat * list (option tag)) * option (list (nat * nat)) =>
     let '((ar, ts, out, tg), h) := e in ((ar, map (map f) ts, map f out, tg), option_map (both f) h)).
  match goal with |- bind ?x ?k = map_res _ (bind ?y ?k2) => assert (E : x = map_res ren1 y) end.
  { destruct dec'; auto. rewrite decompose_network_map. destruct (decompose_network A eqb (provided arrays) ts) as [[[bs us] m]|]; auto.
    cbn [bind map_res ren_net3 fst snd]. rewrite (@mapM_f _ _ _ _ f f _ (dict_get m)) by (intros x; apply get_both).
    destruct (mapM _ out) as [o|]; cbn [bind map_res]; auto. destruct hyper; simpl; auto. rewrite (unique_map Hf). auto. }
  rewrite E. clear E. match goal with |- bind (map_res _ ?y) _ = _ => destruct y as [[[[[ar ts1] out1] tg] h1]|]; auto end.
  cbn [bind map_res ren1].
  set (ren2 := fun e : (list (option (nda K)) * list (list nat) * list nat * list (option tag)) * option path =>
     let '((ar, ts, out, tg), h) := e in ((ar, map (map f) ts, map f out, tg), h)).
  match goal with |- bind ?x ?k = map_res _ (bind ?y ?k2) => assert (E : x = map_res ren2 y) end.
  { destruct w as [w|]; auto. destruct (0 <? w)%Z; auto. rewrite py_dims_keys.
    change (Some (map f out1)) with (option_map (map f) (Some out1)). change (@nil nat) with (map f []) at 1. rewrite (fuse_map Hf).
    destruct (fuse g lg ts1 _ w (Some out1) [] r) as [[p q]|]; cbn [bind map_res fst snd]; auto.
    change (Some (rename_dims f (M_LoadTn.py_dims dm))) with (option_map (rename_dims f) (Some (M_LoadTn.py_dims dm))). rewrite (contract_map Hf A Harr).
    destruct (contract A arr p ts1 (Some out1) _ _) as [[[ts2 out2] ar2]|]; cbn [bind map_res fst snd]; auto.
    destruct (fuse_tags p tg) as [tg2|]; cbn [bind map_res]; auto. destruct fp; auto. }
  rewrite E. clear E. match goal with |- bind (map_res _ ?y) _ = _ => destruct y as [[[[[ar2 ts2] out2] tg2] fp2]|]; auto end.
  cbn [bind map_res ren2]. rewrite remake_map. destruct (remake dm ts2 ar2 tg2) as [[Ts gs]|]; cbn [bind map_res fst snd]; auto.
  change (Some (map f out2)) with (option_map (map f) (Some out2)). change (Some (map f sp)) with (option_map (map f) (Some sp)).
  rewrite make_network_map. destruct (make_network Ts (Some out2) (Some sp)); auto.
Qed.
End Rename.
