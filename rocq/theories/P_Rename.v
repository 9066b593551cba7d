(** Nothing depends on what the indices are called. *)
From Verif Require Import M_Base M_Bitset M_Tree M_CTree M_Cost M_Opt M_InfMem M_FinWidth M_Path M_PyTree M_PyNodes M_Random M_App S_Rename.
Set Implicit Arguments. Unset Strict Implicit.

Section Rename.
Variable f : nat -> nat.
Hypothesis Hf : injective f.

Lemma memb_map x l : memb (f x) (map f l) = memb x l.
Proof.
  unfold memb. induction l as [|y l IH]; simpl; auto. rewrite IH. f_equal.
  destruct (Nat.eqb_spec x y) as [->|N]; [apply Nat.eqb_refl|]. apply Nat.eqb_neq. intros E. apply N, Hf, E.
Qed.
Lemma eqb_map x y : (f x =? f y) = (x =? y).
Proof. destruct (Nat.eqb_spec x y) as [->|N]; [apply Nat.eqb_refl|]. apply Nat.eqb_neq. intros E. apply N, Hf, E. Qed.

Lemma unique_aux_map seen l : unique_aux (map f seen) (map f l) = map f (unique_aux seen l).
Proof.
  revert seen. induction l as [|x l IH]; intros seen; simpl; auto. rewrite memb_map.
  destruct (memb x seen); auto. simpl. f_equal. apply (IH (x :: seen)).
Qed.
Lemma unique_map l : unique (map f l) = map f (unique l).
Proof. apply (unique_aux_map []). Qed.
Lemma filter_map (p q : nat -> bool) l : (forall x, p (f x) = q x) -> filter p (map f l) = map f (filter q l).
Proof. intros H. induction l as [|x l IH]; simpl; auto. rewrite H, IH. destruct (q x); auto. Qed.
Lemma existsb_map (p q : nat -> bool) l : (forall x, p (f x) = q x) -> existsb p (map f l) = existsb q l.
Proof. intros H. induction l as [|x l IH]; simpl; auto. rewrite H, IH. auto. Qed.
Lemma forallb_map (p q : nat -> bool) l : (forall x, p (f x) = q x) -> forallb p (map f l) = forallb q l.
Proof. intros H. induction l as [|x l IH]; simpl; auto. rewrite H, IH. auto. Qed.
Lemma count_map x l : count (f x) (map f l) = count x l.
Proof. unfold count. erewrite filter_map; [apply map_length|]. intros y. apply eqb_map. Qed.

Lemma rank_map l x : rank (map f l) (f x) = rank l x.
Proof. unfold rank. induction l as [|y l IH]; simpl; auto. rewrite eqb_map, IH. auto. Qed.
Lemma rank_all_map l xs : rank_all (map f l) (map f xs) = rank_all l xs.
Proof. induction xs as [|x xs IH]; simpl; auto. rewrite rank_map, IH. auto. Qed.
Lemma mapM_rank l xs : mapM (rank (map f l)) (map f xs) = mapM (rank l) xs.
Proof. induction xs as [|x xs IH]; simpl; auto. rewrite rank_map, IH. auto. Qed.
Lemma mapM_rank_all l ts : mapM (rank_all (map f l)) (map (map f) ts) = mapM (rank_all l) ts.
Proof. induction ts as [|x xs IH]; simpl; auto. rewrite rank_all_map, IH. auto. Qed.
Lemma concat_map2 (ts : list (list nat)) : concat (map (map f) ts) = map f (concat ts).
Proof. symmetry. apply concat_map. Qed.

(** * Random paths *)
Lemma remap_map ts : remap (map (map f) ts) = remap ts.
Proof.
  unfold remap. rewrite concat_map2, unique_map. generalize (unique (concat ts)) as l. intros l.
  induction ts as [|x xs IH]; simpl; auto. rewrite mapM_rank, IH. auto.
Qed.
Lemma random_paths_map {P} (g : prng P) pick ts r : random_paths g pick (map (map f) ts) r = random_paths g pick ts r.
Proof. unfold random_paths. rewrite map_length, remap_map, concat_map2, unique_map, map_length. auto. Qed.

(** * Trees from paths *)
Lemma get_map {A B} (h : A -> B) l i : get (map h l) i = map_res h (get l i).
Proof. unfold get. rewrite nth_error_map. destruct (nth_error l i); auto. Qed.
Lemma upd_map {A B} (h : A -> B) l i x : upd (map h l) i (h x) = map h (upd l i x).
Proof. revert i. induction l as [|y l IH]; intros [|i]; simpl; auto. rewrite IH. auto. Qed.
Lemma set_map {A B} (h : A -> B) l i x : set (map h l) i (h x) = map_res (map h) (set l i x).
Proof. unfold set. rewrite map_length, upd_map. destruct (_ <? _); auto. Qed.
Lemma get_all_map {A B} (h : A -> B) l xs : get_all (map h l) xs = map_res (map h) (get_all l xs).
Proof. induction xs as [|x xs IH]; simpl; auto. rewrite get_map, IH. destruct (get l x); simpl; auto. destruct (get_all l xs); auto. Qed.

Lemma outputs_map occ o : outputs (map f occ) (option_map (map f) o) = map_res (map f) (outputs occ o).
Proof.
  destruct o as [o|]; simpl.
  - rewrite unique_map. f_equal. apply filter_map. intros x. apply memb_map.
  - erewrite existsb_map by (intros x; rewrite count_map; reflexivity). destruct (existsb _ occ); simpl; auto.
    rewrite unique_map. f_equal. apply filter_map. intros x. rewrite count_map. auto.
Qed.
Lemma hyper_count_map occ out x : hyper_count (map f occ) (map f out) (f x) = hyper_count occ out x.
Proof. unfold hyper_count. rewrite count_map, memb_map. auto. Qed.

Definition agree (h' h : nat -> nat) : Prop := forall x, h' (f x) = h x.
Lemma decr_agree h' h x : agree h' h -> agree (decr h' (f x)) (decr h x).
Proof. intros H y. unfold decr. rewrite eqb_map, !H. auto. Qed.
Lemma shared_map shared : forall h' h iz, agree h' h ->
  match shared_loop shared h iz with
  | Ok (z, k) => exists k', shared_loop (map f shared) h' (map f iz) = Ok (map f z, k') /\ agree k' k
  | Err e => shared_loop (map f shared) h' (map f iz) = Err e
  end.
Proof.
  induction shared as [|s shared IH]; intros h' h iz H; simpl; [eauto|]. rewrite H. destruct (h s =? 0); auto.
  pose proof (decr_agree s H) as D. specialize (IH _ _ (if 0 <? decr h s s then iz ++ [s] else iz) D).
  rewrite (D s). replace (if 0 <? decr h s s then map f iz ++ [f s] else map f iz) with (map f (if 0 <? decr h s s then iz ++ [s] else iz)); auto.
  destruct (0 <? decr h s s); auto. rewrite map_app. auto.
Qed.
Lemma build_map cs c : forall ts h' h, agree h' h ->
  build_tensors cs c (map (map f) ts) h' = map_res (map (map f)) (build_tensors cs c ts h).
Proof.
  induction c as [|[[x y] z] c IH]; intros ts h' h H; simpl; auto. rewrite !get_map.
  destruct (get ts x) as [tx|]; simpl; auto. destruct (get ts y) as [ty|]; simpl; auto. rewrite !unique_map.
  rewrite (@filter_map _ (fun i => memb i (unique ty)) (unique tx)) by (intros i; apply memb_map). rewrite map_length.
  destruct (cs && _); auto.
  rewrite (@filter_map _ (fun i => negb (memb i (unique ty))) (unique tx)) by (intros i; rewrite memb_map; auto).
  rewrite (@filter_map _ (fun i => negb (memb i (unique tx))) (unique ty)) by (intros i; rewrite memb_map; auto).
  rewrite <- map_app.
  match goal with |- context [shared_loop ?s h ?z] => pose proof (shared_map s z H) as S; destruct (shared_loop s h z) as [[iz k]|e] end.
  - destruct S as (k' & E & Hk). rewrite E. simpl. rewrite set_map. destruct (set ts z iz); simpl; auto.
  - rewrite S. auto.
Qed.

Lemma dict_get_map {V} (l : list (nat * V)) x : dict_get (map (fun e => (f (fst e), snd e)) l) (f x) = dict_get l x.
Proof. induction l as [|[k v] l IH]; simpl; auto. rewrite eqb_map, IH. auto. Qed.
Lemma dims_of_map d order : dims_of (rename_dims f d) (map f order) = dims_of d order.
Proof.
  induction order as [|x order IH]; simpl; auto. rewrite IH. destruct d; simpl; auto. rewrite dict_get_map. auto.
Qed.

Definition rename_tree (t : pytree) : pytree := mkPT (core t) (n_tensors t) (tensors_pos t) (map f (inds_order t)).
Lemma pytree_map p ts d o cs :
  pytree_make p (map (map f) ts) (rename_dims f d) (option_map (map f) o) cs = map_res rename_tree (pytree_make p ts d o cs).
Proof.
  unfold pytree_make. destruct (length p =? 0); auto. rewrite map_length.
  destruct (contraction_from p (length ts) (seq 0 (length ts))) as [c|]; simpl; auto.
  rewrite get_all_map. destruct (get_all ts _) as [uts|]; simpl; auto. rewrite concat_map2, outputs_map.
  destruct (outputs (concat uts) o) as [out|]; simpl; auto.
  replace (map (map f) ts ++ repeat [] (length c)) with (map (map f) (ts ++ repeat [] (length c))) by (rewrite map_app; f_equal; induction (length c); simpl; f_equal; auto).
  rewrite (build_map cs c (ts ++ repeat [] (length c)) (h := hyper_count (concat uts) out)) by (intros x; apply hyper_count_map).
  destruct (build_tensors cs c _ _) as [ts1|]; simpl; auto.
  destruct (link_all _ _ _) as [zn|]; simpl; auto. rewrite get_all_map. destruct (get_all ts1 _) as [ts2|]; simpl; auto.
  rewrite concat_map2, unique_map, dims_of_map. destruct (dims_of d _) as [ds|]; simpl; auto.
  destruct (make_nodes zn) as [ns|]; simpl; auto. rewrite mapM_rank_all.
  destruct (mapM _ ts2) as [xs|]; simpl; auto. destruct (ctree_make_pos _ _ _ _); auto.
Qed.

(** * Trees from nodes *)
Lemma names_map order b : names_of (map f order) b = map_res (map f) (names_of order b).
Proof.
  unfold names_of. induction (bpositions b) as [|i l IH]; simpl; auto. rewrite get_map, IH.
  destruct (get order i); simpl; auto. destruct (mapM (get order) l); auto.
Qed.
Lemma mapM_names order bs : mapM (names_of (map f order)) bs = map_res (map (map f)) (mapM (names_of order) bs).
Proof.
  induction bs as [|b bs IH]; simpl; auto. rewrite names_map, IH. destruct (names_of order b); simpl; auto. destruct (mapM (names_of order) bs); auto.
Qed.
Lemma combine_map {V} (l : list nat) (k : list V) : combine (map f l) k = map (fun e => (f (fst e), snd e)) (combine l k).
Proof. revert k. induction l as [|x l IH]; intros [|v k]; simpl; auto. rewrite IH. auto. Qed.
Lemma py_dims_map t : M_PyNodes.py_dims (rename_tree t) = map (fun e => (f (fst e), snd e)) (M_PyNodes.py_dims t).
Proof. unfold M_PyNodes.py_dims. simpl. rewrite map_length. apply combine_map. Qed.
Lemma same_set_map l k : same_set (map f l) (map f k) = same_set l k.
Proof. unfold same_set. f_equal; apply forallb_map; intros x; apply memb_map. Qed.
Lemma get_ctree_map t c : get_ctree (rename_tree t) c = map_res rename_tree (get_ctree t c).
Proof.
  unfold get_ctree. simpl. rewrite mapM_names. destruct (mapM _ (inds c)) as [xs|]; simpl; auto.
  unfold pytree_of_nodes, cache_of. simpl. rewrite concat_map2, same_set_map. destruct (negb _); auto. rewrite mapM_rank_all.
  destruct (mapM _ xs) as [ps|]; simpl; auto. rewrite py_dims_map.
  change (PyDict (map (fun e => (f (fst e), snd e)) (M_PyNodes.py_dims t))) with (rename_dims f (PyDict (M_PyNodes.py_dims t))).
  rewrite dims_of_map. destruct (dims_of _ _); simpl; auto. destruct (ctree_make_pos _ _ _ _); auto.
Qed.
Lemma py_path_map t : py_path (rename_tree t) = py_path t.
Proof. reflexivity. Qed.
Lemma get_core_map sparse np order : get_core (map f sparse) np (map f order) = get_core sparse np order.
Proof.
  destruct sparse as [|x sparse]; auto. destruct np as [k|]; auto. unfold get_core. simpl map at 1. cbv iota beta.
  change (f x :: map f sparse) with (map f (x :: sparse)).
  rewrite (@forallb_map _ (fun y => memb y order) (x :: sparse)) by (intros y; apply memb_map). rewrite rank_all_map, map_length. auto.
Qed.
Lemma check_model_map sparse np : check_model (map f sparse) np = check_model sparse np.
Proof. destruct np; auto. destruct sparse; auto. Qed.

(** * The optimizers *)
Variables (ts : list (list nat)) (d : pydims) (out sparse : list nat) (np : option Z).
Variables (P R B : Type) (g : prng P) (pick : list nat -> nat).
Let ts' := map (map f) ts.
Let d' := rename_dims f d.
Let out' := map f out.
Let sparse' := map f sparse.

Lemma im_component_map (rule : B -> rand R) betas n r0 stop p :
  im_component ts' d' out' sparse' np rule betas n r0 stop p = im_component ts d out sparse np rule betas n r0 stop p.
Proof.
  unfold im_component. destruct (length p =? 0); auto. unfold ts', d', out'. change (Some (map f out)) with (option_map (map f) (Some out)).
  rewrite pytree_map. destruct (pytree_make p ts d (Some out) true) as [t|]; simpl; auto. unfold sparse'. rewrite get_core_map.
  destruct (get_core sparse np (inds_order t)); simpl; auto. destruct (im_make _ _ _ _ _); simpl; auto.
  destruct (im_run _ _); simpl; auto. rewrite get_ctree_map. destruct (get_ctree t _); simpl; auto.
Qed.
Lemma each_ext {A} (h1 h2 : nat -> path -> res A) ps : (forall k p, h1 k p = h2 k p) -> forall k, each h1 k ps = each h2 k ps.
Proof. intros H. induction ps as [|p ps IH]; intros k; simpl; auto. rewrite H, IH. auto. Qed.
Lemma mapM_ext {A C} (h1 h2 : A -> res C) l : (forall x, h1 x = h2 x) -> mapM h1 l = mapM h2 l.
Proof. intros H. induction l as [|x l IH]; simpl; auto. rewrite H, IH. auto. Qed.
Lemma im_core_map (rule : B -> rand R) betas n r r0 stop :
  im_core ts' d' out' sparse' np g pick rule betas n r r0 stop = im_core ts d out sparse np g pick rule betas n r r0 stop.
Proof.
  unfold im_core. unfold ts' at 1. rewrite random_paths_map. destruct (random_paths g pick ts r) as [ps|]; simpl; auto.
  rewrite (@each_ext _ _ (fun k => im_component ts d out sparse np rule betas n r0 (stop k))) by (intros; apply im_component_map).
  replace (length ts') with (length ts) by (unfold ts'; rewrite map_length; auto). auto.
Qed.
Theorem im_optimize_map (rule : B -> rand R) betas n runs :
  im_optimize ts' d' out' sparse' np g pick rule betas n runs = im_optimize ts d out sparse np g pick rule betas n runs.
Proof.
  unfold im_optimize. destruct (check_steps n) as [k|]; simpl; auto. unfold sparse' at 1. rewrite check_model_map. destruct (check_model sparse np); simpl; auto.
  destruct (length runs =? 0); auto. f_equal. apply mapM_ext. intros [[r r0] stop]. apply im_core_map.
Qed.

Definition ren3 (x : Z * path * list nat) : Z * path * list nat := (fst x, map f (snd x)).
Lemma fw_component_map lg mx (fr0 : frand R) (rule : B -> frand R) betas n u r0 stop p :
  fw_component ts' d' out' sparse' np lg mx fr0 rule betas n u r0 stop p =
  map_res ren3 (fw_component ts d out sparse np lg mx fr0 rule betas n u r0 stop p).
Proof.
  unfold fw_component. destruct (length p =? 0); auto. unfold ts', d', out'. change (Some (map f out)) with (option_map (map f) (Some out)).
  rewrite pytree_map. destruct (pytree_make p ts d (Some out) true) as [t|]; simpl; auto. unfold sparse'. rewrite get_core_map.
  destruct (get_core sparse np (inds_order t)); simpl; auto. destruct (fmodel_make _ _); simpl; auto. destruct (py_fw_make _ _ _ _ _ _ _ _ _ _ _); simpl; auto.
  match goal with |- bind ?x _ = _ => destruct x as [s|]; simpl; auto end. rewrite get_ctree_map. destruct (get_ctree t _); simpl; auto.
  rewrite py_path_map. destruct (py_path _); simpl; auto. unfold slice_names. rewrite names_map. destruct (names_of _ _); auto.
Qed.
Lemma each_map {A C} (h1 : nat -> path -> res C) (h2 : nat -> path -> res A) (q : A -> C) ps :
  (forall k p, h1 k p = map_res q (h2 k p)) -> forall k, each h1 k ps = map_res (map q) (each h2 k ps).
Proof. intros H. induction ps as [|p ps IH]; intros k; simpl; auto. rewrite H, IH. destruct (h2 k p); simpl; auto. destruct (each h2 (S k) ps); auto. Qed.
Lemma reduce_or_map ls : reduce_or (map (map f) ls) = map_res (map f) (reduce_or ls).
Proof.
  destruct ls as [|l ls]; simpl; auto. f_equal. revert l. induction ls as [|k ls IH]; intros l; simpl; auto.
  rewrite <- map_app, unique_map. apply IH.
Qed.
Lemma fw_core_map lg mx (fr0 : frand R) (rule : B -> frand R) betas n u r r0 stop :
  fw_core ts' d' out' sparse' np g pick lg mx fr0 rule betas n u r r0 stop =
  map_res (rename_result f) (fw_core ts d out sparse np g pick lg mx fr0 rule betas n u r r0 stop).
Proof.
  unfold fw_core. unfold ts' at 1. rewrite random_paths_map. destruct (random_paths g pick ts r) as [ps|]; simpl; auto.
  rewrite (@each_map _ _ _ (fun k => fw_component ts d out sparse np lg mx fr0 rule betas n u r0 (stop k)) ren3) by (intros; apply fw_component_map).
  replace (length ts') with (length ts) by (unfold ts'; rewrite map_length; auto).
  destruct (each _ 0 ps) as [xs|]; simpl; auto.
  assert (E : forall (ys : list (Z * path * list nat)), map (fun x => fst (fst x)) (map ren3 ys) = map (fun x => fst (fst x)) ys /\ map (fun x => snd (fst x)) (map ren3 ys) = map (fun x => snd (fst x)) ys
     /\ map snd (map ren3 ys) = map (map f) (map snd ys)) by (intros ys; rewrite !map_map; auto).
  destruct (E xs) as (E1 & E2 & E3). destruct xs as [|x xs].
  - simpl. destruct (merge_paths _ _ _); simpl; auto. 
    replace (repeat [] (length ts)) with (map (map f) (repeat [] (length ts))) at 1 by (induction (length ts); simpl; f_equal; auto).
    rewrite reduce_or_map. destruct (reduce_or _); simpl; auto. unfold rename_result. simpl. do 2 f_equal.
    induction (length ts); simpl; f_equal; auto.
  - change (map ren3 (x :: xs)) with (ren3 x :: map ren3 xs) in *. cbv iota. rewrite E1, E2, E3.
    destruct (merge_paths _ _ _); cbn [bind map_res]; auto. rewrite reduce_or_map. destruct (reduce_or _); auto.
Qed.
Lemma mapM_map {A C D} (h1 : D -> res C) (h2 : D -> res A) (q : A -> C) l :
  (forall k, h1 k = map_res q (h2 k)) -> mapM h1 l = map_res (map q) (mapM h2 l).
Proof. intros H. induction l as [|p ps IH]; simpl; auto. rewrite H, IH. destruct (h2 p); simpl; auto. destruct (mapM h2 ps); auto. Qed.
Lemma sorted_map {A C} (c1 : A -> Z) (c2 : C -> Z) (q : A -> C) l : (forall x, c2 (q x) = c1 x) -> sorted_by c2 (map q l) = map q (sorted_by c1 l).
Proof.
  intros H. unfold sorted_by. induction l as [|x l IH]; simpl; auto. rewrite IH. generalize (fold_right (insert_by c1) [] l) as k.
  induction k as [|y k IHk]; simpl; auto. rewrite !H. destruct (_ <? _)%Z; simpl; auto. rewrite IHk. auto.
Qed.
Theorem fw_optimize_map lg mx (fr0 : frand R) (rule : B -> frand R) betas n u runs :
  fw_optimize ts' d' out' sparse' np g pick lg mx fr0 rule betas n u runs =
  map_res (map (rename_result f)) (fw_optimize ts d out sparse np g pick lg mx fr0 rule betas n u runs).
Proof.
  unfold fw_optimize. destruct (check_steps n) as [k|]; simpl; auto. destruct (mx <? 0)%Z; auto. unfold sparse' at 1. rewrite check_model_map. destruct (check_model sparse np); simpl; auto.
  destruct (length runs =? 0); auto.
  erewrite (@mapM_map _ _ _ _ (fun x => let '(r, r0, stop) := x in fw_core ts d out sparse np g pick lg mx fr0 rule betas k u r r0 stop) (rename_result f))
    by (intros [[r r0] stop]; apply fw_core_map).
  destruct (mapM _ runs) as [rs|]; simpl; auto. f_equal. apply sorted_map. auto.
Qed.
End Rename.
